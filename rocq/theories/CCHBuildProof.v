(** The CCH data structure: edge layout, tails, original arcs, elimination tree and the inverted graph. *)
From Verif Require Import Base BitVec Graph GraphProof GraphRevProof GraphIdProof GraphSpecProof SpecGraph SpecCCH CCH CCHTheory CCHContractProof.
From Coq Require Import Sorting.Sorted.

(** first edge id of node [x]; number of edges; edge [e] leads from [x] up to [y] *)
Definition off (nodes : list (list nat)) (x : nat) : nat := length (concat (firstn x nodes)).
Definition edge (nodes : list (list nat)) (e x y : nat) : Prop :=
  exists k, nth_error (nbh nodes x) k = Some y /\ e = off nodes x + k.

Lemma asc_NoDup l : ascending_list l -> NoDup l.
Proof.
  induction l as [|x l IH]; intros H; constructor. { destruct (ss_inv _ _ H) as [_ H2]. intros Hx. apply H2 in Hx. lia. }
  apply IH. apply ss_inv in H. tauto.
Qed.

Section Layout.
  Variable nodes : list (list nat).
  Let n := length nodes.
  Let m := length (concat nodes).

  Lemma off_0 : off nodes 0 = 0.
  Proof. reflexivity. Qed.
  Lemma off_S x : x < n -> off nodes (x + 1) = off nodes x + length (nbh nodes x).
  Proof.
    intros Hx. unfold off. pose proof (nbh_nth nodes x Hx) as E.
    assert (E2 : firstn (x + 1) nodes = firstn x nodes ++ [nbh nodes x]).
    { clear Hx. revert x E. unfold nbh. induction nodes as [|l ls IH]; intros [|x] E; try discriminate; cbn in *; auto. f_equal. apply IH; auto. }
    rewrite E2, concat_app, app_length. cbn. rewrite app_nil_r. auto.
  Qed.
  Lemma off_n : off nodes n = m.
  Proof. unfold off, n, m. rewrite firstn_all. auto. Qed.
  Lemma off_mono x y : x <= y -> y <= n -> off nodes x <= off nodes y.
  Proof. induction 1 as [|y L IH]; intros Hy; auto. specialize (IH ltac:(lia)). pose proof (off_S y ltac:(lia)). rewrite Nat.add_1_r in H. lia. Qed.
  Lemma off_le x : x <= n -> off nodes x <= m.
  Proof. intros H. rewrite <- off_n. apply off_mono; auto. Qed.
  Lemma nbh_slice x : x < n -> slice (concat nodes) (off nodes x) (off nodes (x + 1)) = Some (nbh nodes x).
  Proof.
    intros Hx. destruct (slice_concat nodes x (nbh nodes x) (nbh_nth nodes x Hx)) as [S1 S2].
    rewrite slice_Some by exact S1. f_equal. exact S2.
  Qed.

  Lemma edge_tail_lt e x y : edge nodes e x y -> x < n.
  Proof. intros (k & Hk & _). destruct (Nat.lt_ge_cases x n); auto. rewrite nbh_out in Hk by auto. destruct k; discriminate. Qed.
  Lemma edge_In e x y : edge nodes e x y -> In y (nbh nodes x).
  Proof. intros (k & Hk & _). eapply nth_error_In; eauto. Qed.
  Lemma In_edge x y : In y (nbh nodes x) -> exists e, edge nodes e x y.
  Proof. intros H. apply In_nth_error in H. destruct H as [k Hk]. exists (off nodes x + k), k. auto. Qed.
  Lemma edge_range e x y : edge nodes e x y -> off nodes x <= e < off nodes (x + 1).
  Proof. intros H. pose proof (edge_tail_lt _ _ _ H). destruct H as (k & Hk & ->). rewrite off_S by auto. apply nth_error_Some_lt in Hk. lia. Qed.
  Lemma edge_lt e x y : edge nodes e x y -> e < m.
  Proof. intros H. pose proof (edge_range _ _ _ H). pose proof (edge_tail_lt _ _ _ H). pose proof (off_le (x + 1) ltac:(lia)). lia. Qed.
  Lemma edge_head e x y : edge nodes e x y -> nth_error (concat nodes) e = Some y.
  Proof.
    intros H. pose proof (edge_tail_lt _ _ _ H) as Hx. destruct H as (k & Hk & ->).
    destruct (slice_concat nodes x (nbh nodes x) (nbh_nth nodes x Hx)) as [S1 S2]. fold (off nodes x) in *. fold (off nodes (x + 1)) in *.
    rewrite <- S2 in Hk. rewrite nth_error_slice in Hk. destruct (k <? _); [auto|discriminate].
  Qed.
  Lemma edge_unique e x y x' y' : edge nodes e x y -> edge nodes e x' y' -> x = x' /\ y = y'.
  Proof.
    intros H H'. assert (x = x').
    { pose proof (edge_range _ _ _ H). pose proof (edge_range _ _ _ H'). pose proof (edge_tail_lt _ _ _ H). pose proof (edge_tail_lt _ _ _ H').
      destruct (Nat.lt_trichotomy x x') as [L|[L|L]]; auto.
      - pose proof (off_mono (x + 1) x'). lia.
      - pose proof (off_mono (x' + 1) x). lia. }
    split; auto. apply edge_head in H, H'. congruence.
  Qed.
  Lemma range_edge x e : x < n -> off nodes x <= e < off nodes (x + 1) -> exists y, edge nodes e x y.
  Proof.
    intros Hx He. rewrite off_S in He by auto. destruct (nth_error_lt (nbh nodes x) (e - off nodes x)) as [y Hy]; [lia|].
    exists y, (e - off nodes x). split; auto. lia.
  Qed.
  Lemma edge_ex e : e < m -> exists x y, edge nodes e x y.
  Proof.
    intros He. assert (G : forall k, k <= n -> e < off nodes k -> exists x y, edge nodes e x y).
    { induction k as [|k IH]; intros Hk Hk2. { rewrite off_0 in Hk2. lia. }
      destruct (Nat.lt_ge_cases e (off nodes k)). { apply IH; lia. }
      exists k. apply range_edge; auto. rewrite Nat.add_1_r. lia. }
    apply (G n); auto. rewrite off_n. auto.
  Qed.
  Lemma edge_inj e e' x y : NoDup (nbh nodes x) -> edge nodes e x y -> edge nodes e' x y -> e = e'.
  Proof.
    intros H (k & Hk & ->) (k' & Hk' & ->). f_equal. rewrite NoDup_nth_error in H. apply H; [|congruence]. eapply nth_error_Some_lt; eauto.
  Qed.
End Layout.

(** position of [y] in [l], and the id of the edge from [x] to [y] *)
Fixpoint index (y : nat) (l : list nat) : option nat :=
  match l with [] => None | x :: l' => if x =? y then Some 0 else match index y l' with Some k => Some (S k) | None => None end end.
Definition eid (nodes : list (list nat)) (x y : nat) : option nat :=
  match index y (nbh nodes x) with Some k => Some (off nodes x + k) | None => None end.

Lemma index_Some y l k : index y l = Some k -> nth_error l k = Some y.
Proof.
  revert k; induction l as [|x l IH]; intros k; cbn [index]; [discriminate|]. destruct (Nat.eqb_spec x y) as [->|].
  - intros [= <-]. auto.
  - destruct (index y l); [|discriminate]. intros [= <-]. cbn. auto.
Qed.
Lemma index_In y l : In y l -> exists k, index y l = Some k.
Proof.
  induction l as [|x l IH]; [intros []|]. cbn [index]. destruct (Nat.eqb_spec x y) as [->|]. { eauto. }
  intros [->|H]; [lia|]. destruct (IH H) as (k & ->). eauto.
Qed.
Lemma index_nth y l k : NoDup l -> nth_error l k = Some y -> index y l = Some k.
Proof.
  intros H Hk. destruct (index_In y l) as (k' & E). { eapply nth_error_In; eauto. }
  rewrite E. f_equal. rewrite NoDup_nth_error in H. apply index_Some in E. apply H; [eapply nth_error_Some_lt; eauto|congruence].
Qed.
Lemma eid_edge nodes x y e : eid nodes x y = Some e -> edge nodes e x y.
Proof. unfold eid. destruct (index y (nbh nodes x)) eqn:E; [|discriminate]. intros [= <-]. exists n. split; auto. apply index_Some; auto. Qed.
Lemma edge_eid nodes x y e : NoDup (nbh nodes x) -> edge nodes e x y -> eid nodes x y = Some e.
Proof. intros H (k & Hk & ->). unfold eid. rewrite (index_nth y _ k); auto. Qed.
Lemma eid_In nodes x y : In y (nbh nodes x) -> exists e, eid nodes x y = Some e.
Proof. intros H. unfold eid. destruct (index_In y _ H) as (k & ->). eauto. Qed.

(** the downward edges of [v], by ascending tail *)
Definition lows (nodes : list (list nat)) (v : nat) : list (nat * nat) :=
  flat_map (fun z => match eid nodes z v with Some e => [(z, e)] | None => [] end) (seq 0 (length nodes)).

Lemma lows_In nodes v z e : (forall r, NoDup (nbh nodes r)) -> (In (z, e) (lows nodes v) <-> edge nodes e z v).
Proof.
  intros HN. unfold lows. rewrite in_flat_map. split.
  - intros (z' & Hz & H). destruct (eid nodes z' v) as [e'|] eqn:E; [|destruct H]. destruct H as [[= -> ->]|[]]. apply eid_edge; auto.
  - intros H. exists z. split. { apply in_seq. split; [lia|]. eapply edge_tail_lt; eauto. } rewrite (edge_eid _ _ _ e); auto. left; auto.
Qed.

(** What the fields of a CCH contain, given the upward neighbourhoods [nodes]. *)
Record cch_ok (adj : list (list (nat * N))) (order ranks : list nat) (nodes : list (list nat)) (c : cch) : Prop := {
  co_order : node_order (length adj) order ranks;
  co_chordal : chordal (length adj) nodes;
  co_sup : forall x y, touching adj order x y -> x <> y -> cadj nodes x y;
  co_low : forall r v, In v (nbh nodes r) -> low_path (touching adj order) r r v;
  co_fit : (N.of_nat (length adj) + 1 < U32MAX)%N /\ (N.of_nat (length (concat nodes)) < U32MAX)%N;
  co_fol : length (c_fo c) = length adj + 1;
  co_fo : forall x, x <= length adj -> nth_error (c_fo c) x = Some (off nodes x);
  co_head : c_head c = concat nodes;
  co_taill : length (c_tail c) = length (concat nodes);
  co_tail : forall e x y, edge nodes e x y -> nth_error (c_tail c) e = Some x;
  co_ord : c_order c = order;
  co_rks : c_ranks c = ranks;
  co_fwl : length (c_fw_orig c) = length (concat nodes);
  co_fw : forall e x y, edge nodes e x y -> exists u v ids, nth_error order x = Some u /\ nth_error order y = Some v /\
            nth_error (c_fw_orig c) e = Some ids /\ forall i, In i ids <-> exists w, adj_edge adj u i v w;
  co_bwl : length (c_bw_orig c) = length (concat nodes);
  co_bw : forall e x y, edge nodes e x y -> exists u v ids, nth_error order x = Some u /\ nth_error order y = Some v /\
            nth_error (c_bw_orig c) e = Some ids /\ forall i, In i ids <-> exists w, adj_edge adj v i u w;
  co_eliml : length (c_elim c) = length adj;
  co_elim : forall x, x < length adj -> nth_error (c_elim c) x = Some (hd_error (nbh nodes x));
  co_inv : forall v, v < length adj -> link_iter (c_inv c) v = Some (lows nodes v) }.

Lemma concat_map_map {A B} (f : A -> B) ls : concat (map (map f) ls) = map f (concat ls).
Proof. induction ls; cbn; auto. rewrite map_app. congruence. Qed.

Lemma nth_map_nil {A B} (f : A -> B) (ls : list (list A)) u : nth u (map (map f) ls) [] = map f (nth u ls []).
Proof. change (@nil B) with (map f []). apply map_nth. Qed.

(** contracted_graph as arrays *)
Lemma contracted_graph_inv nodes cg : contracted_graph nodes = Some cg ->
  cg = mkFo (degrees_to_first_out (map (@length nat) nodes)) (concat nodes) (map (fun _ => tt) (concat nodes)) /\
  (N.of_nat (length (concat nodes)) < U32MAX)%N.
Proof.
  unfold contracted_graph, from_adjacency_lists. rewrite concat_map_map, !map_map, map_id. cbn [snd].
  replace (map (fun x => length (map (fun v => (v, tt)) x)) nodes) with (map (@length nat) nodes) by (apply map_ext; intros; rewrite map_length; auto).
  unfold fo_new. intros E.
  destruct (N.of_nat (length (degrees_to_first_out (map (length (A:=nat)) nodes))) <? U32MAX)%N; cbn [guard bind] in E; [|discriminate].
  destruct (N.ltb_spec (N.of_nat (length (concat nodes))) U32MAX); cbn [guard bind] in E; [|discriminate].
  repeat match type of E with (bind ?x _ = Some _) => destruct x; cbn [bind] in E; [|discriminate] end.
  injection E as <-. auto.
Qed.

Section Build.
  Variable adj : list (list (nat * N)).
  Variable g : fograph N.
  Hypothesis HV : valid_adj adj.
  Hypothesis HF : fits_u32 adj.
  Hypothesis Hg : from_adjacency_lists adj = Some g.
  Variables order ranks : list nat.
  Hypothesis HO : node_order (length adj) order ranks.
  Let n := length adj.

  Lemma build_nodes : exists nodes0 nodes,
    contraction_new (num_nodes g) (fun u => ls <- link_iter g u ;; Some (map fst ls)) order ranks = Some nodes0 /\
    contraction_contract nodes0 = Some nodes /\ chordal n nodes /\
    (forall x y, touching adj order x y -> x <> y -> cadj nodes x y) /\
    (forall r v, In v (nbh nodes r) -> low_path (touching adj order) r r v).
  Proof using HV HF Hg HO.
    destruct (adj_graph adj HV HF) as (h & E & Wf & Nn & Na & En & El). rewrite Hg in E. injection E as <-. rewrite Nn.
    set (nbl := fun u => map fst (nth u adj [])).
    destruct (contraction_new_ok n (fun u => ls <- link_iter g u ;; Some (map fst ls)) nbl) with (order := order) (ranks := ranks)
      as (nodes0 & E0 & L0 & H0).
    { intros u Hu. destruct (En u Hu) as [-> _]. reflexivity. }
    { intros u v Hu Hv. unfold nbl in Hv. apply in_map_iff in Hv. destruct Hv as ((v' & w) & <- & Hv). destruct (En u Hu) as [_ H]. eapply H; eauto. }
    { exact HO. }
    assert (TT : forall x y, touch nbl order x y <-> touching adj order x y).
    { intros x y. split.
      - intros (u & v & Eu & Ev & [H|H]); unfold nbl in H; apply in_map_iff in H; destruct H as ((a & w) & Ea & H); cbn in Ea; subst a.
        + exists u, v, w. auto.
        + exists u, v, w. auto.
      - intros (u & v & w & Eu & Ev & [H|H]); exists u, v; split; auto; split; auto; [left|right]; unfold nbl; apply in_map_iff; [exists (v, w)|exists (u, w)]; auto. }
    assert (TS : forall x y, touching adj order x y -> touching adj order y x).
    { intros x y (u & v & w & Eu & Ev & H). exists v, u, w. tauto. }
    exists nodes0.
    destruct (contraction_contract_ok n nodes0 (touching adj order) TS L0) as (nodes & E1 & H1).
    { intros r. apply H0. }
    { intros r v Hv. apply H0 in Hv. rewrite TT in Hv. auto. }
    exists nodes. split; [exact E0|]. split; [exact E1|]. split; [eapply CInv_chordal; eauto; try (intros r; apply H0); try (intros r v Hv; apply H0 in Hv; rewrite TT in Hv; auto)|].
    destruct H1 as [h1 h2 h3 h4 h5 h6]. split; auto.
    intros x y T Ne.
    assert (Hxy : x < n /\ y < n). { destruct T as (u & v & w & Eu & Ev & _). destruct HO as (O1 & _). apply nth_error_Some_lt in Eu, Ev. unfold n. lia. }
    destruct (Nat.lt_ge_cases x y).
    - left. apply h4. apply H0. rewrite TT. tauto.
    - right. apply h4. apply H0. rewrite TT. split; [lia|]. split; [lia|]. auto.
  Qed.
End Build.

  Lemma filter_index v l s : NoDup l -> map snd (filter (fun a : nat * nat => fst a =? v) (combine l (seq s (length l)))) =
    match index v l with Some k => [s + k] | None => [] end.
  Proof.
    revert s; induction l as [|x l IH]; intros s H; cbn [length seq combine filter fst index]; auto. inversion H; subst.
    destruct (Nat.eqb_spec x v) as [->|Ne].
    - cbn [map snd]. rewrite Nat.add_0_r. f_equal. rewrite IH by auto. destruct (index v l) eqn:E; auto.
      apply index_Some, nth_error_In in E. contradiction.
    - rewrite IH by auto. destruct (index v l); auto. f_equal; lia.
  Qed.

Lemma mapM_app {A B} (f : A -> option B) l1 l2 : mapM f (l1 ++ l2) = (r1 <- mapM f l1 ;; r2 <- mapM f l2 ;; Some (r1 ++ r2)).
Proof.
  induction l1 as [|x l IH]; cbn [app mapM]. { cbn. destruct (mapM f l2); auto. }
  destruct (f x); cbn [bind]; auto. rewrite IH. destruct (mapM f l); cbn [bind]; auto. destruct (mapM f l2); auto.
Qed.

Section Arrays.
  Variable nodes : list (list nat).
  Let n := length nodes.
  Let m := length (concat nodes).
  Let cg := mkFo (degrees_to_first_out (map (@length nat) nodes)) (concat nodes) (map (fun _ => tt) (concat nodes)).

  Lemma cg_fol : length (first_out cg) = n + 1.
  Proof. unfold cg, degrees_to_first_out; cbn. rewrite scan_sum_length, map_length. unfold n. lia. Qed.
  Lemma cg_fo x : x <= n -> nth_error (first_out cg) x = Some (off nodes x).
  Proof. intros H. unfold cg; cbn [first_out]. rewrite d2fo_nth by (rewrite map_length; auto). rewrite concat_firstn_length. reflexivity. Qed.
  Lemma cg_nodes : num_nodes cg = n.
  Proof. unfold num_nodes. rewrite cg_fol. lia. Qed.
  Lemma cg_arcs : num_arcs cg = m.
  Proof. reflexivity. Qed.
  Lemma cg_range x : x < n -> range cg x = Some (off nodes x, off nodes (x + 1)).
  Proof. intros H. unfold range. rewrite !cg_fo by lia. reflexivity. Qed.
  Lemma cg_links x : x < n -> exists us, link_iter cg x = Some us /\ map fst us = nbh nodes x.
  Proof.
    intros H. unfold link_iter. rewrite cg_range by auto. cbn [bind]. change (head cg) with (concat nodes). change (weight cg) with (map (fun _ => tt) (concat nodes)). rewrite nbh_slice by auto. cbn [bind].
    destruct (slice_concat nodes x _ (nbh_nth nodes x H)) as [S1 S2].
    rewrite slice_Some by (rewrite map_length; exact S1). cbn [bind]. eexists; split; [reflexivity|].
    rewrite skipn_map, firstn_map. fold (off nodes x) in S2. fold (off nodes (x + 1)) in S2. rewrite S2.
    clear. induction (nbh nodes x); cbn; auto. congruence.
  Qed.
  Lemma cg_ids x : x < n -> links_ids cg x = Some (combine (nbh nodes x) (seq (off nodes x) (length (nbh nodes x)))).
  Proof.
    intros H. unfold links_ids. rewrite cg_range by auto. cbn [bind]. change (head cg) with (concat nodes). rewrite nbh_slice by auto. cbn [bind].
    rewrite off_S by auto. do 3 f_equal. lia.
  Qed.

  Lemma fill_ok : exists tl, fill_tails cg = Some tl /\ length tl = m /\ forall e x y, edge nodes e x y -> nth_error tl e = Some x.
  Proof.
    unfold fill_tails. rewrite cg_nodes, cg_arcs.
    destruct (foldM_inv (fun tail u => '(a, b) <- range cg u ;; foldM (fun t e => set_at t e u) (seq a (b - a)) tail)
      (fun pre tl => length tl = m /\ forall e x y, edge nodes e x y -> x < length pre -> nth_error tl e = Some x) (seq 0 n) (repeat 0 m))
      as (tl & E & L & H).
    - split. { apply repeat_length. } cbn; lia.
    - intros pre u post tl Hsp [L H]. destruct (seq_split _ _ _ _ Hsp) as [Hu Hn]. rewrite cg_range by auto. cbn [bind].
      destruct (foldM_inv (fun t e => set_at t e u) (fun p t => length t = m /\ (forall e, In e p -> nth_error t e = Some u) /\ forall e, ~ In e p -> nth_error t e = nth_error tl e)
        (seq (off nodes u) (off nodes (u + 1) - off nodes u)) tl) as (t & E' & L' & H1 & H2).
      + split; auto. split; auto. intros e [].
      + intros p e q t Esp (L' & H1 & H2).
        assert (He : e < m). { assert (K : In e (seq (off nodes u) (off nodes (u + 1) - off nodes u))) by (rewrite Esp; apply in_elt).
          apply in_seq in K. pose proof (off_le nodes (u + 1)). unfold m, n in *. lia. }
        rewrite set_at_lt by lia. eexists; split; [reflexivity|]. split; [rewrite upd_length; auto|]. split.
        * intros e' He'. rewrite nth_error_upd. destruct (Nat.eqb_spec e e') as [->|Ne]. { destruct (Nat.ltb_spec e' (length t)); [auto|lia]. }
          apply H1. apply in_app_or in He'. destruct He' as [?|[?|[]]]; auto. lia.
        * intros e' He'. rewrite nth_error_upd. destruct (Nat.eqb_spec e e') as [->|Ne]. { destruct He'. apply in_or_app; right; left; auto. }
          apply H2. intros K. apply He'. apply in_or_app; auto.
      + exists t. split; auto. split; auto. intros e x y He Hx. rewrite app_length in Hx. cbn in Hx.
        pose proof (edge_range _ _ _ _ He) as Hr. destruct (Nat.eq_dec x u) as [->|Ne].
        * apply H1. apply in_seq. lia.
        * rewrite H2. { eapply H; eauto. lia. } intros K. apply in_seq in K. pose proof (off_mono nodes (x + 1) u). unfold n in *. lia.
    - exists tl. split; auto. split; auto. intros e x y He. eapply H; eauto. rewrite seq_length. eapply edge_tail_lt; eauto.
  Qed.

  Lemma elim_ok : build_elimination_tree cg = Some (map (fun x => hd_error (nbh nodes x)) (seq 0 n)).
  Proof.
    unfold build_elimination_tree. rewrite cg_nodes. apply mapM_Some. intros x Hx. apply in_seq in Hx.
    destruct (cg_links x ltac:(lia)) as (us & -> & <-). reflexivity.
  Qed.

  (** a per edge map of the contracted graph *)
  Lemma per_edge {B} (f : nat -> nat -> option B) :
    (forall x y, In y (nbh nodes x) -> exists b, f x y = Some b) ->
    exists r, (ls <- mapM (fun u => hs <- link_iter cg u ;; mapM (fun v => f u v) (map fst hs)) (seq 0 (num_nodes cg)) ;; Some (concat ls)) = Some r /\
      length r = m /\ forall e x y, edge nodes e x y -> nth_error r e = f x y.
  Proof.
    intros Hf. rewrite cg_nodes.
    assert (G : forall k, k <= n -> exists ls, mapM (fun u => hs <- link_iter cg u ;; mapM (fun v => f u v) (map fst hs)) (seq 0 k) = Some ls /\
              length (concat ls) = off nodes k /\ forall e x y, edge nodes e x y -> x < k -> nth_error (concat ls) e = f x y).
    { induction k as [|k IH]; intros Hk. { exists []. cbn. split; auto. split; auto. lia. }
      destruct IH as (ls & E & L & H); [lia|].
      destruct (mapM_ok (fun v => f k v) (nbh nodes k)) as (r & Er & Fr). { intros y Hy. apply Hf; auto. }
      exists (ls ++ [r]). rewrite seq_S, mapM_app, E. cbn [bind mapM Nat.add]. destruct (cg_links k ltac:(lia)) as (us & -> & Eu). cbn [bind]. rewrite Eu, Er. cbn [bind].
      split; auto. rewrite concat_app. cbn [concat]. rewrite app_nil_r, app_length, L. pose proof (Forall2_len _ _ _ Fr) as Lr.
      rewrite <- (Nat.add_1_r k). rewrite off_S by lia. split; [lia|].
      intros e x y He Hx. pose proof (edge_range _ _ _ _ He) as Hr. destruct (Nat.eq_dec x k) as [->|Ne].
      - rewrite nth_error_app2 by lia. destruct He as (i & Hi & ->). destruct (Forall2_nth _ _ _ i y Fr Hi) as (b & Eb & Hb).
        rewrite L. replace (off nodes k + i - off nodes k) with i by lia. rewrite Eb. auto.
      - rewrite nth_error_app1. { eapply H; eauto. lia. } rewrite L. pose proof (off_mono nodes (x + 1) k). unfold n in *. lia. }
    destruct (G n) as (ls & E & L & H); auto. rewrite E. cbn [bind]. eexists; split; [reflexivity|]. split. { rewrite L. apply off_n. }
    intros e x y He. eapply H; eauto. eapply edge_tail_lt; eauto.
  Qed.

  Hypothesis HN : forall x, NoDup (nbh nodes x).
  Hypothesis HU : forall x v, In v (nbh nodes x) -> v < n.

  Lemma cg_inv : (N.of_nat n + 1 < U32MAX)%N -> (N.of_nat m < U32MAX)%N ->
    exists inv, reversed 0 n m (links_ids cg) = Some inv /\ forall v, v < n -> link_iter inv v = Some (lows nodes v).
  Proof using HN HU.
    intros H1 H2. set (nb := fun x => combine (nbh nodes x) (seq (off nodes x) (length (nbh nodes x)))).
    destruct (reversed_ok 0 n m (links_ids cg) nb) as (inv & E & _ & _ & _ & Hl); auto.
    - intros x Hx. split. { apply cg_ids; auto. } intros v w Hv. unfold nb in Hv. apply in_combine_l in Hv. eapply HU; eauto.
    - unfold all_arcs. unfold m. clear - n. unfold n.
      assert (G : forall k, k <= length nodes -> length (concat (map (fun u => map (fun a => (u, a)) (nb u)) (seq 0 k))) = off nodes k).
      { induction k as [|k IH]; intros Hk. { reflexivity. } rewrite seq_S, map_app, concat_app, app_length, IH by lia. cbn [map concat].
        rewrite app_nil_r, map_length. unfold nb. rewrite combine_length, seq_length. rewrite <- (Nat.add_1_r k). rewrite off_S by lia. cbn. lia. }
      rewrite G by auto. symmetry. apply off_n.
    - exists inv. split; auto. intros v Hv. rewrite Hl by auto. f_equal. unfold lows.
      fold n. clear - HN. induction (seq 0 n) as [|u us IH]; auto. cbn [flat_map]. rewrite IH. f_equal. unfold eid.
      pose proof (filter_index v (nbh nodes u) (off nodes u) (HN u)) as F. fold (nb u) in F. clear -F.
      destruct (filter _ (nb u)) as [|a [|b r]]; cbn in F |- *; destruct (index v (nbh nodes u)); try discriminate; auto.
      injection F as ->. auto.
  Qed.

End Arrays.

Section Build2.
  Variable adj : list (list (nat * N)).
  Variable g : fograph N.
  Hypothesis HV : valid_adj adj.
  Hypothesis HF : fits_u32 adj.
  Hypothesis Hg : from_adjacency_lists adj = Some g.
  Variables order ranks : list nat.
  Hypothesis HO : node_order (length adj) order ranks.
  Variable nodes : list (list nat).
  Hypothesis HC : chordal (length adj) nodes.

  Lemma orig_ok cg (fw : bool) : contracted_graph nodes = Some cg -> exists r, orig_arcs g order cg fw = Some r /\ length r = length (concat nodes) /\
    forall e x y, edge nodes e x y -> exists u v ids, nth_error order x = Some u /\ nth_error order y = Some v /\ nth_error r e = Some ids /\
      forall i, In i ids <-> exists w, if fw then adj_edge adj u i v w else adj_edge adj v i u w.
  Proof using HV HF Hg HO HC.
    intros Ecg. destruct (contracted_graph_inv _ _ Ecg) as [-> _]. destruct HC as [c1 c2 c3 c4]. unfold orig_arcs.
    assert (Ord : forall x, x < length adj -> exists u, nth_error order x = Some u /\ u < length adj).
    { intros x Hx. destruct HO as (O1 & O2 & O3 & O4). destruct (nth_error_lt order x) as [u Hu]; [lia|]. exists u. split; auto. apply O3, nth_error_Some_lt in Hu. lia. }
    assert (Ei : forall u v, u < length adj -> exists ids, edge_indices g u v = Some ids /\ forall i, In i ids <-> exists w, adj_edge adj u i v w).
    { intros u v Hu. destruct (adj_edge_indices adj g u v HV HF Hg Hu) as (ids & E & _ & H). exists ids. split; auto. intros i. rewrite H. unfold adj_edge.
      split; [intros (k & w & ? & ?); exists w, k; auto|intros (w & k & ? & ?); exists k, w; auto]. }
    destruct (per_edge nodes (fun u v => ou <- nth_error order u ;; ov <- nth_error order v ;; if fw then edge_indices g ou ov else edge_indices g ov ou)) as (r & E & L & H).
    { intros x y Hy. apply c3 in Hy as Hxy. destruct (Ord x ltac:(lia)) as (u & -> & Hu). destruct (Ord y ltac:(lia)) as (v & -> & Hv). cbn [bind].
      destruct fw. { destruct (Ei u v Hu) as (ids & -> & _). eauto. } destruct (Ei v u Hv) as (ids & -> & _). eauto. }
    exists r. split; [exact E|]. split; auto. intros e x y He. pose proof (c3 x y (edge_In _ _ _ _ He)) as Hxy.
    destruct (Ord x ltac:(lia)) as (u & Eu & Hu). destruct (Ord y ltac:(lia)) as (v & Ev & Hv). rewrite (H _ _ _ He), Eu, Ev. cbn [bind].
    destruct fw.
    - destruct (Ei u v Hu) as (ids & -> & Hi). exists u, v, ids. auto.
    - destruct (Ei v u Hv) as (ids & -> & Hi). exists u, v, ids. auto.
  Qed.

  Hypothesis Hsup : forall x y, touching adj order x y -> x <> y -> cadj nodes x y.
  Hypothesis Hlow : forall r v, In v (nbh nodes r) -> low_path (touching adj order) r r v.

  Lemma new_from_ok cg : contracted_graph nodes = Some cg -> exists c, cch_new_from g order ranks cg = Some c /\ cch_ok adj order ranks nodes c.
  Proof using HV HF Hg HO HC Hsup Hlow.
    intros Ecg. destruct (orig_ok cg true Ecg) as (fwo & Efw & Lfw & Hfw). destruct (orig_ok cg false Ecg) as (bwo & Ebw & Lbw & Hbw).
    unfold cch_new_from. rewrite Efw, Ebw. destruct (contracted_graph_inv _ _ Ecg) as [-> Hm]. pose proof HC as HC0. destruct HC as [c1 c2 c3 c4].
    destruct HF as [F1 F2].
    rewrite elim_ok. cbn [bind]. destruct (fill_ok nodes) as (tl & -> & Ltl & Htl). cbn [bind]. rewrite cg_nodes, cg_arcs.
    destruct (cg_inv nodes) as (inv & -> & Hinv).
    { intros x. apply asc_NoDup; auto. }
    { intros x v Hv. apply c3 in Hv. lia. }
    { rewrite c1. auto. }
    { auto. }
    cbn [bind]. eexists; split; [reflexivity|]. constructor; cbn; auto.
    - rewrite scan_sum_length, map_length. lia.
    - intros x Hx. apply cg_fo. lia.
    - rewrite map_length, seq_length. auto.
    - intros x Hx. rewrite nth_error_map, nth_error_nth_some with (d := 0) by (rewrite seq_length; lia). rewrite seq_nth by lia. auto.
    - intros v Hv. apply Hinv. lia.
  Qed.
End Build2.

Lemma fo_new_fits {W} fo hd (wt : list W) g : fo_new fo hd wt = Some g -> (N.of_nat (length hd) < U32MAX)%N.
Proof.
  unfold fo_new. destruct (_ <? U32MAX)%N; cbn [guard bind]; [|discriminate].
  destruct (N.ltb_spec (N.of_nat (length hd)) U32MAX); cbn [guard bind]; [auto|discriminate].
Qed.

(** Everything about a constructed CCH. *)
Lemma cch_contract_ok adj g order ranks c : valid_adj adj -> fits_u32 adj -> from_adjacency_lists adj = Some g -> node_order (length adj) order ranks ->
  cch_contract g order ranks = Some c -> exists nodes, cch_ok adj order ranks nodes c.
Proof.
  intros HV HF Hg HO. unfold cch_contract. destruct (build_nodes adj g HV HF Hg order ranks HO) as (nodes0 & nodes & -> & E1 & HC & Hs & Hl). cbn [bind].
  rewrite E1. cbn [bind]. destruct (contracted_graph nodes) as [cg|] eqn:Ecg; cbn [bind]; [|discriminate].
  destruct (new_from_ok adj g HV HF Hg order ranks HO nodes HC Hs Hl cg Ecg) as (c' & -> & H). intros [= <-]. eauto.
Qed.

Lemma nbh_len n nodes x : chordal n nodes -> length (nbh nodes x) <= n.
Proof.
  intros [c1 c2 c3 c4]. rewrite <- (seq_length n 0). apply NoDup_incl_length. { apply asc_NoDup; auto. }
  intros v Hv. apply in_seq. apply c3 in Hv. lia.
Qed.

(** It is constructed whenever the number of edges, which is at most n * n, fits the 32 bit ids. *)
Lemma cch_contract_total adj g order ranks : valid_adj adj -> fits_u32 adj -> from_adjacency_lists adj = Some g -> node_order (length adj) order ranks ->
  exists nodes, chordal (length adj) nodes /\ (forall x y, touching adj order x y -> x <> y -> cadj nodes x y) /\
    (forall r v, In v (nbh nodes r) -> low_path (touching adj order) r r v) /\
    ((N.of_nat (length (concat nodes)) < U32MAX)%N -> exists c, cch_contract g order ranks = Some c /\ cch_ok adj order ranks nodes c).
Proof.
  intros HV HF Hg HO. unfold cch_contract. destruct (build_nodes adj g HV HF Hg order ranks HO) as (nodes0 & nodes & -> & E1 & HC & Hs & Hl). cbn [bind].
  rewrite E1. cbn [bind]. exists nodes. split; auto. split; auto. split; auto. intros Hm.
  destruct (from_adjacency_ok (map (map (fun v => (v, tt))) nodes)) as (cg & Ecg & _).
  { rewrite map_length, (ch_len _ _ HC). destruct HF; auto. }
  { rewrite concat_map_map, map_length. auto. }
  unfold contracted_graph. rewrite Ecg. cbn [bind].
  destruct (new_from_ok adj g HV HF Hg order ranks HO nodes HC Hs Hl cg Ecg) as (c' & -> & H). eauto.
Qed.

(** Every upward neighbour is an ancestor in the elimination tree. *)
Lemma nbh_ancestor n nodes (par : list (option nat)) : chordal n nodes -> (forall x, x < n -> nth_error par x = Some (hd_error (nbh nodes x))) ->
  forall x y, In y (nbh nodes x) -> ancestor par x y.
Proof.
  intros HC Hp x y Hy. assert (G : forall k x, n - x < k -> In y (nbh nodes x) -> ancestor par x y).
  2: { apply (G (S (n - x)) x); auto. } clear x Hy.
  induction k as [|k IH]; intros x Hk Hy; [lia|]. destruct (nbh nodes x) as [|p l] eqn:E; [destruct Hy|].
  assert (Hpx : In p (nbh nodes x)) by (rewrite E; left; auto). destruct (ch_up _ _ HC _ _ Hpx) as [L1 L2].
  apply anc_step with (p := p). { rewrite Hp by lia. rewrite E. auto. }
  destruct Hy as [->|Hy]; [constructor|]. apply IH; [lia|]. apply (ch_tri _ _ HC x); auto. { rewrite E; right; auto. }
  pose proof (ch_asc _ _ HC x) as Ha. rewrite E in Ha. apply ss_inv in Ha. apply Ha; auto.
Qed.

(** Number of edges against any list of the pairs joined by a low path. *)
Lemma edges_le n nodes (P : list (nat * nat)) : chordal n nodes -> (forall x y, In y (nbh nodes x) -> In (x, y) P) ->
  length (concat nodes) <= length P.
Proof.
  intros HC HP. set (l := flat_map (fun x => map (pair x) (nbh nodes x)) (seq 0 n)).
  assert (L : forall k, k <= n -> length (flat_map (fun x => map (pair x) (nbh nodes x)) (seq 0 k)) = off nodes k).
  { induction k as [|k IH]; intros Hk; auto. rewrite seq_S, flat_map_app, app_length, IH by lia. cbn [flat_map Nat.add]. rewrite app_nil_r, map_length.
    rewrite <- (Nat.add_1_r k). rewrite off_S by (rewrite (ch_len _ _ HC); lia). auto. }
  rewrite <- off_n. rewrite (ch_len _ _ HC), <- (L n) by auto. fold l. apply NoDup_incl_length.
  - unfold l. clear L l HP. assert (ND : NoDup (seq 0 n)) by apply seq_NoDup. induction (seq 0 n) as [|x xs IH]; cbn; [constructor|]. inversion ND; subst.
    assert (AP : forall (a b : list (nat * nat)), NoDup a -> NoDup b -> (forall p, In p a -> ~ In p b) -> NoDup (a ++ b)).
    { clear. induction a as [|p a IH]; cbn; auto. intros b Ha Hb H. inversion Ha; subst. constructor.
      - rewrite in_app_iff. intros [K|K]; auto. apply (H p); auto. - apply IH; auto. }
    apply AP; auto.
    + apply FinFun.Injective_map_NoDup. { intros a b [= ->]; auto. } apply asc_NoDup, HC.
    + intros p Hp K. apply in_map_iff in Hp. destruct Hp as (y & <- & _). apply in_flat_map in K. destruct K as (z & Hz & K). apply in_map_iff in K.
      destruct K as (y' & [= -> ->] & _). contradiction.
  - intros p Hp. apply in_flat_map in Hp. destruct Hp as (x & _ & Hp). apply in_map_iff in Hp. destruct Hp as (y & <- & Hy). auto.
Qed.
