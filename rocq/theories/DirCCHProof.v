(** Directed CCHs are customized like the CCHs they come from. *)
From Coq Require Import Sorted.
From Verif Require Import Base Graph GraphProof SpecGraph SpecCCH BitVec CCH CCHTheory CCHPathTheory CCHContractProof CCHBuildProof CCHCustProof CCHMetricProof DirCCH.

Lemma combine_seq_nth {A B} (l : list A) (r : list B) d e : length l = length r -> combine l r = map (fun i => (nth i l d, nth i r e)) (seq 0 (length l)).
Proof.
  intros H. apply list_ext. intros i. rewrite nth_error_map. destruct (Nat.lt_ge_cases i (length l)) as [L|L].
  - rewrite (nth_error_nth' (seq 0 (length l)) 0) by (rewrite seq_length; auto). rewrite seq_nth by auto. cbn.
    rewrite <- combine_nth by auto. apply nth_error_nth'. rewrite combine_length. lia.
  - rewrite !(proj2 (nth_error_None _ _)); auto; rewrite ?seq_length, ?combine_length; lia.
Qed.
Lemma filter_map {A B} (f : A -> B) p l : filter p (map f l) = map f (filter (fun x => p (f x)) l).
Proof. induction l as [|x l IH]; cbn; auto. destruct (p (f x)); cbn; rewrite IH; auto. Qed.
Lemma filter_short {A} (p : A -> bool) l : length (filter p l) <= length l.
Proof. induction l as [|x l IH]; cbn; auto. destruct (p x); cbn; lia. Qed.
Lemma filter_concat {A} (p : A -> bool) ls : filter p (concat ls) = concat (map (filter p) ls).
Proof. induction ls as [|l ls IH]; cbn; auto. rewrite filter_app, IH. auto. Qed.
Lemma off_lens (a b : list (list nat)) x : map (@length nat) a = map (@length nat) b -> off a x = off b x.
Proof.
  unfold off. revert b x. induction a as [|l a IH]; intros [|l' b] x H; try discriminate; auto. cbn in H. injection H as H1 H2.
  destruct x; cbn; auto. rewrite !app_length, H1, (IH b x H2). auto.
Qed.
Lemma sub_asc (p : nat -> bool) l : ascending_list l -> ascending_list (filter p l).
Proof.
  unfold ascending_list. induction 1 as [|x l H IH F]; cbn; [constructor|]. destruct (p x); auto. constructor; auto.
  rewrite Forall_forall in *. intros y Hy. apply filter_In in Hy. apply F. tauto.
Qed.

Lemma nth_map_seq {A} (f : nat -> A) n x d : x < n -> nth x (map f (seq 0 n)) d = f x.
Proof. intros L. rewrite (nth_indep _ d (f 0)) by (rewrite map_length, seq_length; auto). rewrite map_nth, seq_nth by auto. auto. Qed.

(** ** Keeping some of the edges *)
Section Keep.
  Variable nodes : list (list nat).
  Variable pk : nat -> bool.
  Let n := length nodes.
  Let m := length (concat nodes).
  Definition kids (x : nat) : list (nat * nat) := filter (fun p => pk (snd p)) (ids nodes x).
  Definition sub : list (list nat) := map (fun x => map fst (kids x)) (seq 0 n).
  Definition kept : list nat := filter pk (seq 0 m).

  Lemma sub_len : length sub = n.
  Proof. unfold sub. rewrite map_length, seq_length. auto. Qed.
  Lemma sub_nbh x : nbh sub x = map fst (kids x).
  Proof. 
    unfold nbh at 1, sub. destruct (Nat.lt_ge_cases x n) as [L|L].
    - rewrite nth_map_seq; auto.
    - rewrite nth_overflow by (rewrite map_length, seq_length; auto). unfold kids, ids. rewrite nbh_out by auto. auto.
  Qed.
  Lemma seq_ids : seq 0 m = concat (map (fun x => map snd (ids nodes x)) (seq 0 n)).
  Proof. 
    assert (S : forall x, map snd (ids nodes x) = seq (off nodes x) (length (nbh nodes x))).
    { intros x. unfold ids. assert (G : forall (a b : list nat), length a = length b -> map snd (combine a b) = b). { induction a; intros [|y b] H; cbn in *; try discriminate; auto. f_equal. auto. }
      apply G. rewrite seq_length. auto. }
    assert (G : forall k, k <= n -> concat (map (fun x => map snd (ids nodes x)) (seq 0 k)) = seq 0 (off nodes k)).
    { induction k as [|k IH]; intros Hk; [reflexivity|]. rewrite seq_S, map_app, concat_app, IH by lia. cbn [map concat Nat.add]. rewrite app_nil_r, S.
      rewrite <- (Nat.add_1_r k), off_S by auto. rewrite seq_app. auto. }
    rewrite G by auto. unfold m, n. rewrite off_n. auto.
  Qed.
  Lemma kept_rows : kept = concat (map (fun x => map snd (kids x)) (seq 0 n)).
  Proof. 
    unfold kept. rewrite seq_ids, filter_concat, map_map. f_equal. apply map_ext. intros x. rewrite filter_map. reflexivity.
  Qed.
  Lemma kept_len : length (concat sub) = length kept.
  Proof. rewrite kept_rows. unfold sub. induction (seq 0 n) as [|x l IH]; cbn; auto. rewrite !app_length, !map_length, IH. auto. Qed.
  Lemma sub_le : length (concat sub) <= m.
  Proof. rewrite kept_len. unfold kept. pose proof (filter_short pk (seq 0 m)). rewrite seq_length in H. auto. Qed.

  Lemma sub_at e' x y : edge sub e' x y <-> exists e, edge nodes e x y /\ pk e = true /\ nth_error kept e' = Some e /\ exists k, nth_error (kids x) k = Some (y, e) /\ e' = off sub x + k.
  Proof. 
    split.
    - intros (k & Hk & ->). rewrite sub_nbh, nth_error_map in Hk. destruct (nth_error (kids x) k) as [[y' e]|] eqn:E; [|discriminate]. injection Hk as ->.
      exists e. pose proof (nth_error_In _ _ E) as I. apply filter_In in I. destruct I as [I P]. apply ids_In in I. split; [auto|]. split; [auto|]. split; [|eauto].
      rewrite kept_rows. set (rows := map (fun x => map snd (kids x)) (seq 0 n)).
      assert (Er : nbh rows x = map snd (kids x)).
      { unfold nbh, rows. pose proof (edge_tail_lt _ _ _ _ I) as L. fold n in L. rewrite nth_map_seq; auto. }
      assert (Eo : off sub x = off rows x). { apply off_lens. unfold sub, rows. rewrite !map_map. apply map_ext. intros z. rewrite !map_length. auto. }
      rewrite Eo. eapply edge_head. exists k. split; [|reflexivity]. rewrite Er, nth_error_map, E. reflexivity.
    - intros (e & _ & _ & _ & k & Hk & ->). exists k. split; auto. rewrite sub_nbh, nth_error_map, Hk. auto.
  Qed.
  Lemma sub_edge e' x y : edge sub e' x y -> exists e, edge nodes e x y /\ pk e = true /\ nth_error kept e' = Some e.
  Proof. intros H. apply sub_at in H. destruct H as (e & H1 & H2 & H3 & _). eauto. Qed.
  Lemma edge_sub e x y : edge nodes e x y -> pk e = true -> exists e', edge sub e' x y /\ nth_error kept e' = Some e.
  Proof. 
    intros H P. assert (I : In (y, e) (kids x)). { apply filter_In. split; auto. apply ids_In. auto. }
    apply In_nth_error in I. destruct I as (k & Hk). exists (off sub x + k).
    assert (He : edge sub (off sub x + k) x y). { exists k. split; auto. rewrite sub_nbh, nth_error_map, Hk. auto. }
    split; auto. apply sub_at in He. destruct He as (e2 & H1 & H2 & H3 & k' & Hk' & Ek). replace k' with k in * by lia. rewrite Hk in Hk'. injection Hk' as <-. auto.
  Qed.
  Lemma keep_map {A} (l : list A) d : length l = m -> map fst (filter (fun x => pk (snd x)) (combine l (seq 0 m))) = map (fun e => nth e l d) kept.
  Proof. 
    intros L. rewrite (combine_seq_nth l (seq 0 m) d 0) by (rewrite seq_length; auto). rewrite filter_map, map_map. cbn. rewrite L. unfold kept.
    f_equal. apply filter_ext_in. intros e He. apply in_seq in He. rewrite seq_nth by lia. auto.
  Qed.
  Hypothesis HA : forall x, ascending_list (nbh nodes x).
  Lemma kids_fst x : nbh sub x = filter (fun y => match eid nodes x y with Some e => pk e | None => false end) (nbh nodes x).
  Proof using HA.
    rewrite sub_nbh. unfold kids. pose proof (asc_NoDup _ (HA x)) as ND. rewrite <- (ids_fst nodes x) at 1.
    assert (G : forall l, (forall p, In p l -> In p (ids nodes x)) -> map fst (filter (fun p => pk (snd p)) l) = filter (fun y => match eid nodes x y with Some e => pk e | None => false end) (map fst l)).
    { induction l as [|[y e] l IH]; intros Hl; cbn; auto. specialize (IH (fun p Hp => Hl p (or_intror Hp))).
      specialize (Hl (y, e) (or_introl eq_refl)). apply ids_In in Hl. rewrite (edge_eid _ _ _ e ND Hl). destruct (pk e); cbn; rewrite IH; auto. }
    apply G. auto.
  Qed.
  Lemma sub_ascending x : ascending_list (nbh sub x).
  Proof using HA. rewrite kids_fst. apply sub_asc. auto. Qed.
  Lemma sub_nodup x : NoDup (nbh sub x).
  Proof using HA. apply asc_NoDup, sub_ascending. Qed.
  Lemma sub_In x y : In y (nbh sub x) -> In y (nbh nodes x).
  Proof using HA. rewrite kids_fst. intros H. apply filter_In in H. tauto. Qed.
End Keep.

(** ** The arrays of one direction *)
Definition arrays (nodes : list (list nat)) (fo hd : list nat) : Prop :=
  length fo = length nodes + 1 /\ (forall x, x <= length nodes -> nth_error fo x = Some (off nodes x)) /\ hd = concat nodes.
Lemma arrays_links nodes fo hd (ws : list N) x : arrays nodes fo hd -> length ws = length (concat nodes) -> x < length nodes ->
  link_iter (mkFo fo hd ws) x = Some (map (fun p => (fst p, nth (snd p) ws 0%N)) (ids nodes x)).
Proof.
  intros (_ & F & ->) L Hx. unfold link_iter, range. cbn [first_out head weight]. rewrite !F by lia. cbn [bind]. rewrite nbh_slice by lia. cbn [bind].
  pose proof (off_le nodes (x + 1) ltac:(lia)). pose proof (off_mono nodes x (x + 1) ltac:(lia) ltac:(lia)).
  rewrite (slice_map _ _ _ 0%N) by lia. rewrite (proj2 (Nat.leb_le _ _)) by lia. cbn [bind]. rewrite off_S by auto.
  replace (off nodes x + length (nbh nodes x) - off nodes x) with (length (nbh nodes x)) by lia. f_equal.
  unfold ids. clear. generalize (seq (off nodes x) (length (nbh nodes x))). induction (nbh nodes x); intros [|b r]; cbn; auto. f_equal. auto.
Qed.
Definition tails (nodes : list (list nat)) (tl : list nat) : Prop := length tl = length (concat nodes) /\ forall e x y, edge nodes e x y -> nth_error tl e = Some x.
Definition tail_rows (nodes : list (list nat)) (k : nat) : list (list nat) := map (fun x => map (fun _ => x) (nbh nodes x)) (seq 0 k).
Lemma tail_rows_ok nodes : tails nodes (concat (tail_rows nodes (length nodes))).
Proof.
  set (rows := tail_rows nodes (length nodes)).
  assert (EL : map (@length nat) nodes = map (@length nat) rows).
  { apply list_ext. intros i. unfold rows, tail_rows. rewrite !nth_error_map. destruct (Nat.lt_ge_cases i (length nodes)) as [L|L].
    - rewrite (nbh_nth nodes i L), (nth_error_nth' (seq 0 _) 0) by (rewrite seq_length; auto). rewrite seq_nth by auto. cbn. rewrite map_length. auto.
    - rewrite !(proj2 (nth_error_None _ _)); auto. rewrite seq_length. auto. }
  split.
  - assert (Lr : length rows = length nodes) by (unfold rows, tail_rows; rewrite map_length, seq_length; auto).
    rewrite <- (off_n rows), <- (off_n nodes), Lr. symmetry. apply off_lens. auto.
  - intros e x y He. pose proof (edge_tail_lt _ _ _ _ He) as L. destruct He as (k & Hk & ->). rewrite (off_lens _ _ x EL). eapply edge_head. exists k. split; [|reflexivity].
    unfold nbh, rows, tail_rows. rewrite nth_map_seq by auto. rewrite nth_error_map, Hk. reflexivity.
Qed.
Lemma arrays_offs nodes : arrays nodes (map (off nodes) (seq 0 (length nodes + 1))) (concat nodes).
Proof.
  split; [rewrite map_length, seq_length; auto|]. split; auto. intros x Hx. rewrite nth_error_map, (nth_error_nth' (seq 0 _) 0) by (rewrite seq_length; lia).
  rewrite seq_nth by lia. reflexivity.
Qed.
Lemma firstn_S_nth (nodes : list (list nat)) k : k < length nodes -> firstn (S k) nodes = firstn k nodes ++ [nbh nodes k].
Proof.
  intros L. pose proof (nbh_nth nodes k L) as E. clear L. unfold nbh in *. revert k E. induction nodes as [|l ls IH]; intros [|k] E; try discriminate; cbn in *; auto. f_equal. apply IH; auto.
Qed.
Lemma finite_side_ok nodes fo hd (ws : list N) : arrays nodes fo hd -> length ws = length (concat nodes) ->
  let sn := sub nodes (fun e => nth e ws 0 <? INF)%N in
  exists fo' tl, finite_side (mkFo fo hd ws) (length nodes) = Some (fo', concat sn, tl) /\ arrays sn fo' (concat sn) /\ tails sn tl.
Proof.
  intros HA L sn.
  assert (Ls : length sn = length nodes) by apply sub_len.
  assert (G : forall k, k <= length nodes -> finite_side (mkFo fo hd ws) k = Some (map (off sn) (seq 0 (k + 1)), concat (firstn k sn), concat (tail_rows sn k))).
  { induction k as [|k IH]; intros Hk; [reflexivity|]. specialize (IH ltac:(lia)). unfold finite_side in *. rewrite seq_S, foldM_app, IH. cbn [bind foldM Nat.add].
    rewrite (arrays_links nodes fo hd ws k HA L Hk). cbn [bind].
    assert (Eh : map fst (filter (fun l : nat * N => (snd l <? INF)%N) (map (fun p => (fst p, nth (snd p) ws 0%N)) (ids nodes k))) = nbh sn k).
    { rewrite filter_map, map_map. unfold sn. rewrite sub_nbh. reflexivity. }
    rewrite Eh.
    assert (E1 : concat (firstn (S k) sn) = concat (firstn k sn) ++ nbh sn k). { rewrite firstn_S_nth by lia. rewrite concat_app. cbn [concat]. rewrite app_nil_r. auto. }
    assert (E2 : concat (tail_rows sn (S k)) = concat (tail_rows sn k) ++ map (fun _ => k) (nbh sn k)). { unfold tail_rows. rewrite seq_S, map_app, concat_app. cbn [map concat Nat.add]. rewrite app_nil_r. auto. }
    assert (E3 : map (off sn) (seq 0 (S k + 1)) = map (off sn) (seq 0 (k + 1)) ++ [length (concat (firstn (S k) sn))]). { replace (S k + 1) with (k + 1 + 1) by lia. rewrite seq_app, map_app. cbn [seq map Nat.add]. rewrite Nat.add_1_r. auto. }
    rewrite E1 in E3. change (S (k + 1)) with (S k + 1). rewrite E1, E2, E3. reflexivity. }
  exists (map (off sn) (seq 0 (length nodes + 1))), (concat (tail_rows sn (length nodes))). rewrite G by auto. rewrite <- Ls, firstn_all. split; auto. split; [apply arrays_offs|apply tail_rows_ok].
Qed.

(** ** The customization with zero weights *)
Lemma zero_nth orig (m : nat) e arcs : length orig = m -> nth_error orig e = Some arcs ->
  nth_error (prepare_zero_weights orig (repeat INF m)) e = Some (match arcs with [] => INF | _ :: _ => 0%N end).
Proof.
  intros <- H. unfold prepare_zero_weights. rewrite nth_error_map.
  assert (G : forall (l : list (list nat)) e, nth_error l e = Some arcs -> nth_error (combine (repeat INF (length l)) l) e = Some (INF, arcs)). { induction l as [|a l IH]; intros [|i] E; cbn in *; try discriminate; auto. congruence. }
  rewrite (G orig e H). reflexivity.
Qed.
Lemma zero_len orig m : length orig = m -> length (prepare_zero_weights orig (repeat INF m)) = m.
Proof. intros <-. unfold prepare_zero_weights. rewrite map_length, combine_length, repeat_length. lia. Qed.

Section Zero.
  Variable adj : list (list (nat * N)).
  Variables order ranks : list nat.
  Variable nodes : list (list nat).
  Variable c : cch.
  Hypothesis HK : cch_ok adj order ranks nodes c.
  Let m := length (concat nodes).
  Let HC := co_chordal _ _ _ _ _ HK.
  Let zu := prepare_zero_weights (c_fw_orig c) (repeat INF m).
  Let zd := prepare_zero_weights (c_bw_orig c) (repeat INF m).

  Lemma zero_init x y u v w0 : init_of nodes zu zd x y w0 -> nth_error order x = Some u -> nth_error order y = Some v ->
    (w0 = 0%N /\ exists w, adj_arc adj u v w) \/ (w0 = INF /\ forall w, ~ adj_arc adj u v w).
  Proof using HK.
    assert (G : forall ids a b, (forall i, In i ids <-> exists w, adj_edge adj a i b w) ->
      (match ids with [] => INF | _ :: _ => 0%N end = 0%N /\ exists w, adj_arc adj a b w) \/ (match ids with [] => INF | _ :: _ => 0%N end = INF /\ forall w, ~ adj_arc adj a b w)).
    { intros [|i ids] a b H; [right|left]; (split; [auto|]).
      - intros w Hw. apply adj_arc_edge in Hw. destruct Hw as (e & He). apply (proj2 (H e)). eauto.
      - destruct (proj1 (H i) (or_introl eq_refl)) as (w & Hw). exists w. eapply adj_edge_arc; eauto. }
    intros [(L & e & He & ->)|(L & e & He & ->)] Eu Ev.
    - destruct (co_fw _ _ _ _ _ HK _ _ _ He) as (u' & v' & ids & Eu' & Ev' & Ei & Hi). rewrite Eu in Eu'. rewrite Ev in Ev'. injection Eu' as <-. injection Ev' as <-.
      unfold zu. rewrite (nth_error_nth _ _ _ (zero_nth _ m e ids (co_fwl _ _ _ _ _ HK) Ei)). apply G. auto.
    - destruct (co_bw _ _ _ _ _ HK _ _ _ He) as (v' & u' & ids & Ev' & Eu' & Ei & Hi). rewrite Eu in Eu'. rewrite Ev in Ev'. injection Eu' as <-. injection Ev' as <-.
      unfold zd. rewrite (nth_error_nth _ _ _ (zero_nth _ m e ids (co_bwl _ _ _ _ _ HK) Ei)). apply G. auto.
  Qed.
  Lemma zero_small : small nodes zu /\ small nodes zd.
  Proof using HK.
    assert (G : forall orig, length orig = m -> small nodes (prepare_zero_weights orig (repeat INF m))).
    { intros orig L. split; [apply zero_len; auto|]. intros e. destruct (nth_error orig e) as [ids|] eqn:E.
      - rewrite (nth_error_nth _ _ _ (zero_nth _ m e ids L E)). destruct ids; unfold INF; lia.
      - apply nth_error_None in E. rewrite nth_overflow; [unfold INF; lia|]. rewrite zero_len; lia. }
    split; apply G; [apply (co_fwl _ _ _ _ _ HK)|apply (co_bwl _ _ _ _ _ HK)].
  Qed.

  Variable s0 : cst.
  Hypothesis H0 : cust_ok adj nodes zu zd s0.
  Definition live (x y : nat) : Prop := exists w, carc nodes s0 x y w /\ (w < INF)%N.

  Lemma node_at x : x < length adj -> exists u, nth_error order x = Some u.
  Proof using HK. intros H. destruct (co_order _ _ _ _ _ HK) as (L & _). apply nth_error_lt. lia. Qed.
  Lemma init_ex (up0 dn0 : list N) x y w (s : cst) : carc nodes s x y w -> exists w0, init_of nodes up0 dn0 x y w0.
  Proof using. intros [(L & e & He & _)|(L & e & He & _)]; eexists; [left|right]; split; eauto. Qed.

  (** the weights are zero or infinite *)
  Lemma zero_weight : forall k x y w, Nat.min x y < k -> carc nodes s0 x y w -> w = 0%N \/ w = INF.
  Proof using HK H0.
    induction k as [|k IH]; intros x y w Hk Ha; [lia|]. destruct (carc_unp nodes s0 x y (ex_intro _ w Ha)) as (i & Hi).
    destruct (carc_case _ _ _ _ _ HK _ _ _ H0 x y w i Ha Hi) as [[_ Hw]|(z & e1 & e2 & _ & He1 & He2 & -> & Hl & _)].
    - destruct (carc_lt _ _ _ _ _ HK _ _ _ _ Ha) as (Lx & Ly & _). destruct (node_at x Lx) as (u & Eu). destruct (node_at y Ly) as (v & Ev).
      destruct (zero_init _ _ _ _ _ Hw Eu Ev) as [[-> _]|[-> _]]; auto.
    - pose proof (ch_up _ _ HC _ _ (edge_In _ _ _ _ He1)). pose proof (ch_up _ _ HC _ _ (edge_In _ _ _ _ He2)).
      pose proof (carc_small _ _ _ _ _ H0 _ _ _ Ha) as Ls.
      assert (A1 : carc nodes s0 x z (nth e1 (s_dn s0) 0%N)) by (right; split; [lia|eauto]).
      assert (A2 : carc nodes s0 z y (nth e2 (s_up s0) 0%N)) by (left; split; [lia|eauto]).
      destruct (IH x z _ ltac:(lia) A1) as [E1|E1], (IH z y _ ltac:(lia) A2) as [E2|E2]; rewrite E1, E2 in *; unfold INF in *; lia.
  Qed.
  Lemma live_zero x y : live x y <-> carc nodes s0 x y 0%N.
  Proof using HK H0.
    split; [intros (w & Hw & L)|intros H; exists 0%N; split; [auto|unfold INF; lia]].
    destruct (zero_weight _ x y w (Nat.lt_succ_diag_r _) Hw) as [->| ->]; [auto|lia].
  Qed.
  Lemma live_tri x z y : z < x -> z < y -> x <> y -> live x z -> live z y -> live x y.
  Proof using HK H0.
    intros Lx Ly Ne H1 H2. apply live_zero in H1, H2. destruct (carc_tri _ _ _ _ _ HK _ _ _ H0) as [_ T].
    destruct (T x z y _ _ Lx Ly Ne H1 H2) as (w & Hw & L). apply live_zero. replace w with 0%N in Hw by lia. auto.
  Qed.
  Lemma live_dec x y w : carc nodes s0 x y w -> live x y \/ ~ live x y.
  Proof using HK.
    intros Ha. destruct (N.ltb_spec w INF) as [L|L]; [left; exists w; auto|right]. intros (w' & H' & L'). rewrite (carc_fun _ _ _ _ _ HK _ _ _ _ _ H' Ha) in L'. lia.
  Qed.

  (** an original arc is live *)
  Lemma live_arc x y u v w : x <> y -> nth_error order x = Some u -> nth_error order y = Some v -> adj_arc adj u v w -> live x y.
  Proof using HK H0.
    intros Ne Eu Ev Ha. assert (Tc : touching adj order x y). { exists u, v, w. split; auto. }
    assert (Hc : exists w1, carc nodes s0 x y w1) by (apply (carc_cadj _ _ _ _ _ HK); apply (co_sup _ _ _ _ _ HK); auto). destruct Hc as (w1 & Hc).
    destruct (init_ex zu zd x y w1 s0 Hc) as (w0 & Hi). pose proof (carc_init _ _ _ _ _ HK _ _ _ H0 _ _ _ _ Hc Hi).
    destruct (zero_init _ _ _ _ _ Hi Eu Ev) as [[-> _]|[_ K]]; [|destruct (K w Ha)]. exists w1. split; [auto|unfold INF; lia].
  Qed.

  Section Any.
    Variable madj : list (list (nat * N)).
    Hypothesis HT : same_topology adj madj.
    Variables up0 dn0 : list N.
    Variable s : cst.
    Hypothesis HS : cust_ok adj nodes up0 dn0 s.
    Hypothesis Hreal : forall x y u v w, init_of nodes up0 dn0 x y w -> nth_error order x = Some u -> nth_error order y = Some v -> w = INF \/ adj_arc madj u v w.

    Lemma topo_arc u v w : adj_arc madj u v w -> exists w', adj_arc adj u v w'.
    Proof using HT.
      intros Ha. apply adj_arc_edge in Ha. destruct Ha as (e & He). destruct (topo_edge madj adj _ _ _ (same_topology_sym _ _ HT) (ex_intro _ w He)) as (w' & Hw).
      exists w'. eapply adj_edge_arc; eauto.
    Qed.
    (** what is infinite with zero weights is infinite with all weights *)
    Lemma dead_infinite : forall k x y w, Nat.min x y < k -> carc nodes s x y w -> ~ live x y -> w = INF.
    Proof using HK H0 HT HS Hreal.
      induction k as [|k IH]; intros x y w Hk Ha ND; [lia|]. destruct (carc_unp nodes s x y (ex_intro _ w Ha)) as (i & Hi). pose proof (carc_small _ _ _ _ _ HS _ _ _ Ha) as Ls.
      destruct (carc_lt _ _ _ _ _ HK _ _ _ _ Ha) as (Lx & Ly & Ne).
      destruct (carc_case _ _ _ _ _ HK _ _ _ HS x y w i Ha Hi) as [[_ Hw]|(z & e1 & e2 & _ & He1 & He2 & E & Hl & _)].
      - destruct (node_at x Lx) as (u & Eu). destruct (node_at y Ly) as (v & Ev). destruct (Hreal _ _ _ _ _ Hw Eu Ev) as [->|K]; [auto|].
        destruct (topo_arc _ _ _ K) as (w' & K'). destruct ND. eapply live_arc; eauto.
      - pose proof (ch_up _ _ HC _ _ (edge_In _ _ _ _ He1)). pose proof (ch_up _ _ HC _ _ (edge_In _ _ _ _ He2)).
        assert (A1 : carc nodes s x z (nth e1 (s_dn s) 0%N)) by (right; split; [lia|eauto]).
        assert (A2 : carc nodes s z y (nth e2 (s_up s) 0%N)) by (left; split; [lia|eauto]).
        assert (B1 : carc nodes s0 x z (nth e1 (s_dn s0) 0%N)) by (right; split; [lia|eauto]).
        assert (B2 : carc nodes s0 z y (nth e2 (s_up s0) 0%N)) by (left; split; [lia|eauto]).
        destruct (live_dec _ _ _ B1) as [D1|D1]; [|rewrite (IH x z _ ltac:(lia) A1 D1) in E; lia].
        destruct (live_dec _ _ _ B2) as [D2|D2]; [|rewrite (IH z y _ ltac:(lia) A2 D2) in E; lia].
        destruct ND. apply (live_tri x z y); auto; lia.
    Qed.
    Lemma finite_live x y w : carc nodes s x y w -> (w < INF)%N -> live x y.
    Proof using HK H0 HT HS Hreal.
      intros Ha L. destruct (proj2 (carc_cadj _ _ _ _ _ HK s0 x y)) as (w' & Hw'). { apply (carc_cadj _ _ _ _ _ HK s). eauto. }
      destruct (live_dec _ _ _ Hw') as [D|D]; [auto|]. rewrite (dead_infinite _ x y w (Nat.lt_succ_diag_r _) Ha D) in L. lia.
    Qed.
  End Any.
End Zero.

(** ** Customizing one node of a directed CCH *)
Definition wmax (l : list N) : Prop := forall e, (nth e l 0 <= INF)%N.
Lemma ids_down nodes z : ascending_list (nbh nodes z) -> StronglySorted (fun a b => fst b < fst a) (rev (ids nodes z)).
Proof.
  assert (G : forall l : list (nat * nat), ascending_list (map fst l) -> StronglySorted (fun a b => fst b < fst a) (rev l)).
  { clear. induction l as [|[x e] l IH]; cbn; intros H; [constructor|]. apply ss_inv in H. destruct H as [H1 H2]. specialize (IH H1).
    assert (Q : forall y, In y (rev l) -> x < fst y). { intros y Hy. apply H2. apply in_map. apply in_rev. auto. }
    clear H1 H2. induction (rev l) as [|y r IHr]; cbn. { constructor; constructor. } inversion IH; subst.
    constructor. { apply IHr; auto. intros y' Hy'. apply Q. right; auto. }
    apply Forall_app. split; auto. constructor; [apply Q; left; auto|constructor]. }
  intros H. apply G. rewrite ids_fst. auto.
Qed.
Lemma off_next nodes z : z < length nodes -> off nodes (z + 1) - off nodes z = length (nbh nodes z).
Proof. intros H. rewrite off_S by auto. lia. Qed.
Lemma wslice_win nodes lo hi z (l : list N) : z < length nodes -> length l = length (concat nodes) -> in_win nodes lo hi z ->
  wslice lo hi l (off nodes z) (off nodes (z + 1)) = Some (map (fun e => nth e l 0%N) (seq (off nodes z) (length (nbh nodes z)))).
Proof.
  intros Hz Hl [W1 W2]. unfold wslice. rewrite (proj2 (Nat.leb_le _ _) W1), (proj2 (Nat.leb_le _ _) W2). cbn [guard bind].
  pose proof (off_le nodes (z + 1) ltac:(lia)). pose proof (off_mono nodes z (z + 1) ltac:(lia) ltac:(lia)).
  rewrite (slice_map _ _ _ 0%N) by lia. rewrite (proj2 (Nat.leb_le _ _)) by lia. rewrite off_next by auto. auto.
Qed.
Lemma arrays_range nodes fo hd z : arrays nodes fo hd -> z < length nodes -> fo_range fo z = Some (off nodes z, off nodes (z + 1)).
Proof. intros (_ & F & _) H. unfold fo_range. rewrite !F by lia. reflexivity. Qed.
Lemma combine_vals {A} (f : nat -> A) (l r : list nat) : combine l (map f r) = map (fun p => (fst p, f (snd p))) (combine l r).
Proof. revert r. induction l as [|x l IH]; intros [|y r]; cbn; auto. rewrite IH. auto. Qed.
Lemma combine_vals2 {A} (f : nat -> A) (l r : list nat) : combine (combine l (map f r)) r = map (fun p => (fst p, f (snd p), snd p)) (combine l r).
Proof. revert r. induction l as [|x l IH]; intros [|y r]; cbn; auto. rewrite IH. auto. Qed.

Lemma dload_ok (U : nat -> N) : forall (l : list (nat * nat)) w, NoDup (map fst l) -> (forall x e, In (x, e) l -> x < length w) ->
  exists w', dload (map (fun p => (fst p, U (snd p))) l) w = Some w' /\ length w' = length w /\
  (forall x e, In (x, e) l -> nth_error w' x = Some (U e, no_unp)) /\ (forall x, ~ In x (map fst l) -> nth_error w' x = nth_error w x).
Proof.
  induction l as [|[x e] l IH]; intros w ND Hl.
  - exists w. cbn. split; auto. split; auto. split; [intros ? ? []|auto].
  - inversion ND; subst. assert (Hx : x < length w) by (apply (Hl x e); left; auto). unfold dload. cbn [map foldM fst snd]. rewrite set_at_lt by lia. cbn [bind].
    destruct (IH (upd w x (U e, no_unp))) as (w' & E & L1 & H3 & H4); auto. { intros x' e' H. rewrite upd_length. apply (Hl x' e'). right; auto. }
    rewrite upd_length in L1. exists w'. split; [exact E|]. split; auto. split.
    + intros x' e' [[= <- <-]|Hin]; eauto. rewrite (H4 x H1), nth_error_upd_eq by lia. auto.
    + intros x' Hx'. cbn in Hx'. rewrite (H4 x'); [|tauto]. rewrite nth_error_upd_neq by (intros ->; tauto). auto.
Qed.
Lemma drelax_ok cur first mk (U : nat -> N) (ids : list (nat * nat)) : forall w, StronglySorted (fun a b => fst b < fst a) ids ->
  (forall x e, In (x, e) ids -> x < length w /\ (U e + first < U32)%N) ->
  exists w', drelax cur first mk (map (fun p => (fst p, U (snd p), snd p)) ids) w = Some w' /\ length w' = length w /\
  (forall x e2, In (x, e2) ids -> cur < x -> nth_error w' x = option_map (fun r => relax1 r ((U e2 + first)%N, mk e2)) (nth_error w x)) /\
  (forall x, ~ In x (map fst ids) -> nth_error w' x = nth_error w x).
Proof.
  induction ids as [|[x e2] ids IH]; intros w HS HB.
  { exists w. cbn. split; auto. split; auto. split; [intros ? ? []|auto]. }
  inversion HS as [|? ? HS' HF]; subst. destruct (HB x e2) as (B1 & B2); [left; auto|]. rewrite Forall_forall in HF. cbn [map drelax fst snd].
  destruct (Nat.leb_spec x cur) as [L|L].
  { exists w. split; auto. split; auto. split; auto. intros x' e' [[= <- <-]|Hin] Hx; [lia|]. apply HF in Hin. cbn in Hin. lia. }
  destruct (nth_error_lt w x B1) as (r & Er). rewrite Er. cbn [bind]. rewrite cadd_ok by auto. cbn [bind]. set (c1 := ((U e2 + first)%N, mk e2)).
  assert (Ko : (if (U e2 + first <? fst r)%N then set_at w x c1 else Some w) = Some (upd w x (relax1 r c1))).
  { unfold relax1, c1. cbn [fst]. destruct (U e2 + first <? fst r)%N; [apply set_at_lt; auto|]. f_equal. symmetry. apply upd_same. auto. }
  rewrite Ko. cbn [bind]. destruct (IH (upd w x (relax1 r c1)) HS') as (w' & E & Lo & H1 & H2). { intros x' e' Hin. rewrite upd_length. apply HB. right; auto. }
  rewrite upd_length in Lo. exists w'. split; auto. split; auto. split.
  - intros x' e' [[= <- <-]|Hin] Hx.
    + rewrite (H2 x). { rewrite nth_error_upd_eq, Er by auto. auto. } intros K. apply in_map_iff in K. destruct K as ([a b] & Ea & K). apply HF in K. cbn in *. lia.
    + apply HF in Hin as Hlt. cbn in Hlt. rewrite (H1 x' e' Hin Hx), nth_error_upd_neq by lia. auto.
  - intros x' Hx'. rewrite (H2 x'). { rewrite nth_error_upd_neq; auto. intros ->. apply Hx'. left; auto. } intros K. apply Hx'. right; auto.
Qed.

Definition dtri (nodes2 : list (list nat)) (ws1 ws2 : list N) (mk : nat -> nat -> unp) (x : nat) (ze : nat * nat) : list (N * unp) :=
  match eid nodes2 (fst ze) x with Some e2 => [((nth e2 ws2 0 + nth (snd ze) ws1 0)%N, mk (snd ze) e2)] | None => [] end.
Definition dcand (nodes1 nodes2 : list (list nat)) (ws1 ws2 : list N) (mk : nat -> nat -> unp) (cur x : nat) : list (N * unp) :=
  flat_map (dtri nodes2 ws1 ws2 mk x) (lows nodes1 cur).

Lemma drelax_edge_ok nodes1 nodes2 fo2 hd2 lo1 hi1 lo2 hi2 ws1 ws2 mk cur z e1 w : arrays nodes2 fo2 hd2 -> length nodes2 = length nodes1 -> (forall x, ascending_list (nbh nodes2 x)) ->
  (forall x v, In v (nbh nodes2 x) -> v < length nodes2) -> edge nodes1 e1 z cur -> in_win nodes1 lo1 hi1 z -> in_win nodes2 lo2 hi2 z ->
  length ws1 = length (concat nodes1) -> length ws2 = length (concat nodes2) -> wmax ws1 -> wmax ws2 -> length w = length nodes2 ->
  exists w', drelax_edge lo1 hi1 ws1 fo2 hd2 lo2 hi2 ws2 mk cur w (z, e1) = Some w' /\ length w' = length w /\
  forall x, cur < x -> nth_error w' x = option_map (fold_left relax1 (dtri nodes2 ws1 ws2 mk x (z, e1))) (nth_error w x).
Proof.
  intros HA2 L12 AS UP He W1 W2 L1 L2 M1 M2 Lw. pose proof (edge_tail_lt _ _ _ _ He) as Hz. pose proof (edge_range _ _ _ _ He) as Hr. pose proof (edge_lt _ _ _ _ He) as Hm.
  unfold drelax_edge, wget. destruct W1 as [W1 W1']. rewrite (proj2 (Nat.leb_le lo1 e1)) by lia. rewrite (proj2 (Nat.ltb_lt e1 hi1)) by lia. cbn [guard bind].
  rewrite (nth_error_nth_some ws1 e1 0%N) by lia. cbn [bind]. rewrite (arrays_range _ _ _ _ HA2) by lia. cbn [bind]. rewrite (proj2 (proj2 HA2)), nbh_slice by lia. cbn [bind].
  rewrite wslice_win by (auto; lia). cbn [bind]. rewrite off_next by lia. rewrite (combine_vals2 (fun e => nth e ws2 0%N)), <- map_rev.
  assert (HU : U32 = 4294967296%N) by reflexivity. assert (HI : INF = 2147483647%N) by reflexivity.
  destruct (drelax_ok cur (nth e1 ws1 0%N) (mk e1) (fun e => nth e ws2 0%N) (rev (ids nodes2 z)) w (ids_down _ _ (AS z))) as (w' & E & Lw' & H1 & H2).
  { intros x e Hx. rewrite <- in_rev in Hx. apply ids_In in Hx. apply edge_In in Hx. apply UP in Hx. pose proof (M1 e1). pose proof (M2 e). split; lia. }
  exists w'. split; [exact E|]. split; [auto|]. intros x Hx. unfold dtri. cbn [fst snd]. destruct (eid nodes2 z x) as [e2|] eqn:Ee.
  - apply eid_edge in Ee. rewrite (H1 x e2); auto. rewrite <- in_rev. apply ids_In. auto.
  - rewrite (H2 x). { cbn. destruct (nth_error w x); auto. } rewrite map_rev, <- in_rev, ids_fst. intros K. destruct (eid_In _ _ _ K). congruence.
Qed.
Lemma drelax_all_ok nodes1 nodes2 fo2 hd2 lo1 hi1 lo2 hi2 ws1 ws2 mk cur : arrays nodes2 fo2 hd2 -> length nodes2 = length nodes1 -> (forall x, ascending_list (nbh nodes2 x)) ->
  (forall x v, In v (nbh nodes2 x) -> v < length nodes2) ->
  length ws1 = length (concat nodes1) -> length ws2 = length (concat nodes2) -> wmax ws1 -> wmax ws2 -> forall zs w,
  (forall z e, In (z, e) zs -> edge nodes1 e z cur /\ in_win nodes1 lo1 hi1 z /\ in_win nodes2 lo2 hi2 z) -> length w = length nodes2 ->
  exists w', foldM (drelax_edge lo1 hi1 ws1 fo2 hd2 lo2 hi2 ws2 mk cur) zs w = Some w' /\ length w' = length w /\
  forall x, cur < x -> nth_error w' x = option_map (fold_left relax1 (flat_map (dtri nodes2 ws1 ws2 mk x) zs)) (nth_error w x).
Proof.
  intros HA2 L12 AS UP L1 L2 M1 M2. induction zs as [|[z e] zs IH]; intros w Hz Lw.
  - exists w. cbn. split; auto. split; auto. intros x _. destruct (nth_error w x); auto.
  - destruct (Hz z e) as (He & Hw1 & Hw2); [left; auto|]. destruct (drelax_edge_ok nodes1 nodes2 fo2 hd2 lo1 hi1 lo2 hi2 ws1 ws2 mk cur z e w) as (w1 & E1 & Lw1 & H1); auto.
    destruct (IH w1) as (w' & E & L3 & H2); auto. { intros z' e' H. apply Hz. right; auto. } { lia. }
    exists w'. cbn [foldM]. rewrite E1. cbn [bind]. split; auto. split; [lia|]. intros x Hx. rewrite (H2 x Hx), (H1 x Hx). cbn [flat_map].
    destruct (nth_error w x); cbn; auto; f_equal; rewrite fold_left_app; auto.
Qed.
Lemma dstore_ok lo hi m (w : list (N * unp)) (F : nat -> N * unp) : forall (l : list (nat * nat)) ws us, NoDup (map snd l) ->
  (forall x e, In (x, e) l -> lo <= e < hi /\ e < m /\ nth_error w x = Some (F x)) -> length ws = m -> length us = m ->
  exists ws' us', foldM (dstore lo hi w) l (ws, us) = Some (ws', us') /\ length ws' = m /\ length us' = m /\
  (forall x e, In (x, e) l -> nth_error ws' e = Some (fst (F x)) /\ nth_error us' e = Some (snd (F x))) /\
  (forall e, ~ In e (map snd l) -> nth_error ws' e = nth_error ws e /\ nth_error us' e = nth_error us e).
Proof.
  induction l as [|[x e] l IH]; intros ws us ND Hl L1 L2.
  - exists ws, us. cbn. repeat (split; [auto; fail|]). split; [intros ? ? []|auto].
  - inversion ND; subst. destruct (Hl x e) as (B1 & B2 & R); [left; auto|]. cbn [foldM]. unfold dstore at 1.
    rewrite (proj2 (Nat.leb_le lo e)) by lia. rewrite (proj2 (Nat.ltb_lt e hi)) by lia. cbn [guard bind]. rewrite R. cbn [bind fst snd]. rewrite !set_at_lt by lia. cbn [bind].
    destruct (IH (upd ws e (fst (F x))) (upd us e (snd (F x)))) as (ws' & us' & E & M1 & M2 & G1 & G2); rewrite ?upd_length; auto. { intros x' e' H. apply Hl. right; auto. }
    exists ws', us'. repeat (split; [assumption|]). split.
    + intros x' e' [[= <- <-]|Hin]; auto. destruct (G2 e H1) as (-> & ->). rewrite !nth_error_upd_eq by lia. auto.
    + intros e' He'. cbn in He'. destruct (G2 e') as (-> & ->); [tauto|]. rewrite !nth_error_upd_neq by (intros ->; tauto). auto.
Qed.

Definition mkU (e1 e2 : nat) : unp := (Some e1, Some e2).
Definition mkD (e1 e2 : nat) : unp := (Some e2, Some e1).
Record dcch_ok (fn bn : list (list nat)) (d : dcch) : Prop := {
  dk_len : length bn = length fn;
  dk_f : arrays fn (d_ffo d) (d_fhead d);
  dk_b : arrays bn (d_bfo d) (d_bhead d);
  dk_fa : forall x, ascending_list (nbh fn x);
  dk_ba : forall x, ascending_list (nbh bn x);
  dk_fup : forall x v, In v (nbh fn x) -> x < v < length fn;
  dk_bup : forall x v, In v (nbh bn x) -> x < v < length bn;
  dk_finv : forall v, v < length fn -> link_iter (d_finv d) v = Some (lows fn v);
  dk_binv : forall v, v < length bn -> link_iter (d_binv d) v = Some (lows bn v) }.

Lemma ids_snd nodes x : map snd (ids nodes x) = seq (off nodes x) (length (nbh nodes x)).
Proof.
  unfold ids. assert (G : forall (a b : list nat), length a = length b -> map snd (combine a b) = b). { induction a; intros [|y b] H; cbn in *; try discriminate; auto. f_equal. auto. }
  apply G. rewrite seq_length. auto.
Qed.
Lemma edge_of nodes cur e : (exists x, edge nodes e cur x) \/ forall x, ~ edge nodes e cur x.
Proof.
  destruct (in_dec Nat.eq_dec e (map snd (ids nodes cur))) as [K|K].
  - left. apply in_map_iff in K. destruct K as ([x e'] & Ee & K). cbn in Ee. subst e'. apply ids_In in K. eauto.
  - right. intros x Hx. apply K. apply in_map_iff. exists (x, e). split; auto. apply ids_In; auto.
Qed.

(** one direction: load, relax, store *)
Lemma dside_ok nodes1 nodes2 fo2 hd2 lo1 hi1 lo2 hi2 ws1 ws2 us2 mk cur w : length nodes2 = length nodes1 -> arrays nodes2 fo2 hd2 -> (forall x, ascending_list (nbh nodes1 x)) -> (forall x, ascending_list (nbh nodes2 x)) ->
  (forall x v, In v (nbh nodes2 x) -> x < v < length nodes2) -> length ws1 = length (concat nodes1) -> length ws2 = length (concat nodes2) -> length us2 = length (concat nodes2) -> wmax ws1 -> wmax ws2 ->
  cur < length nodes2 -> in_win nodes2 lo2 hi2 cur -> (forall z, In cur (nbh nodes1 z) -> in_win nodes1 lo1 hi1 z /\ in_win nodes2 lo2 hi2 z) -> length w = length nodes2 ->
  exists w1 w2 ws' us',
    dload (combine (nbh nodes2 cur) (map (fun e => nth e ws2 0%N) (seq (off nodes2 cur) (length (nbh nodes2 cur))))) w = Some w1 /\
    foldM (drelax_edge lo1 hi1 ws1 fo2 hd2 lo2 hi2 ws2 mk cur) (lows nodes1 cur) w1 = Some w2 /\
    foldM (dstore lo2 hi2 w2) (combine (nbh nodes2 cur) (seq (off nodes2 cur) (length (nbh nodes2 cur)))) (ws2, us2) = Some (ws', us') /\
    length w2 = length nodes2 /\ length ws' = length (concat nodes2) /\ length us' = length (concat nodes2) /\ wmax ws' /\
    (forall e x, edge nodes2 e cur x -> let r := fold_left relax1 (dcand nodes1 nodes2 ws1 ws2 mk cur x) (nth e ws2 0%N, no_unp) in
       nth_error ws' e = Some (fst r) /\ nth_error us' e = Some (snd r)) /\
    (forall e, (forall x, ~ edge nodes2 e cur x) -> nth_error ws' e = nth_error ws2 e /\ nth_error us' e = nth_error us2 e).
Proof.
  intros L12 HA2 AS1 AS2 UP L1 L2 L3 M1 M2 Hc W WL Lw. assert (ND : forall x, NoDup (nbh nodes2 x)) by (intros x; apply asc_NoDup; auto).
  rewrite (combine_vals (fun e => nth e ws2 0%N)). change (combine (nbh nodes2 cur) (seq (off nodes2 cur) (length (nbh nodes2 cur)))) with (ids nodes2 cur).
  destruct (dload_ok (fun e => nth e ws2 0%N) (ids nodes2 cur) w) as (w1 & E1 & A1 & A2 & _).
  { rewrite ids_fst. auto. } { intros x e H. apply ids_In, edge_In, UP in H. lia. }
  destruct (drelax_all_ok nodes1 nodes2 fo2 hd2 lo1 hi1 lo2 hi2 ws1 ws2 mk cur HA2 L12 AS2 ltac:(intros x v Hv; apply UP in Hv; lia) L1 L2 M1 M2 (lows nodes1 cur) w1) as (w2 & E2 & B1 & B2).
  { intros z e Hz. apply lows_In in Hz; [|intros; apply asc_NoDup; auto]. split; auto. apply WL. eapply edge_In; eauto. } { lia. }
  set (F := fun x => match eid nodes2 cur x with Some e => fold_left relax1 (dcand nodes1 nodes2 ws1 ws2 mk cur x) (nth e ws2 0%N, no_unp) | None => (0%N, no_unp) end).
  destruct (dstore_ok lo2 hi2 (length (concat nodes2)) w2 F (ids nodes2 cur) ws2 us2) as (ws' & us' & E3 & C1 & C2 & C3 & C4); auto.
  { rewrite ids_snd. apply seq_NoDup. }
  { intros x e H. pose proof H as Hin. apply ids_In in H. pose proof (edge_range _ _ _ _ H). destruct W. split; [lia|]. split; [eapply edge_lt; eauto|].
    pose proof (edge_In _ _ _ _ H) as K. apply UP in K. rewrite (B2 x ltac:(lia)), (A2 x e Hin). unfold F. rewrite (edge_eid _ _ _ e (ND cur) H). auto. }
  exists w1, w2, ws', us'. split; [exact E1|]. split; [exact E2|]. split; [exact E3|]. split; [lia|]. split; [auto|]. split; [auto|].
  assert (G1 : forall e x, edge nodes2 e cur x -> let r := fold_left relax1 (dcand nodes1 nodes2 ws1 ws2 mk cur x) (nth e ws2 0%N, no_unp) in nth_error ws' e = Some (fst r) /\ nth_error us' e = Some (snd r)).
  { intros e x He r. destruct (C3 x e) as [-> ->]. { apply ids_In; auto. } unfold F. rewrite (edge_eid _ _ _ e (ND cur) He). auto. }
  assert (G2 : forall e, (forall x, ~ edge nodes2 e cur x) -> nth_error ws' e = nth_error ws2 e /\ nth_error us' e = nth_error us2 e).
  { intros e He. apply C4. intros K. apply in_map_iff in K. destruct K as ([x e'] & Ee & K). cbn in Ee. subst e'. apply ids_In in K. eapply He; eauto. }
  split; [|split; auto]. intros e. destruct (edge_of nodes2 cur e) as [(x & He)|He].
  - destruct (G1 e x He) as (K & _). rewrite (nth_error_nth _ _ _ K). pose proof (proj1 (relax_fold_le (dcand nodes1 nodes2 ws1 ws2 mk cur x) (nth e ws2 0%N, no_unp))) as H. cbn [fst] in H. specialize (M2 e). lia.
  - destruct (G2 e He) as (K & _). rewrite (eq_nth _ _ _ 0%N K). apply M2.
Qed.

Section Dir.
  Variables fn bn : list (list nat).
  Variable d : dcch.
  Hypothesis HD : dcch_ok fn bn d.
  Let n := length fn.

  Definition dst_ok (s : cst) : Prop :=
    length (s_up s) = length (concat fn) /\ length (s_upu s) = length (concat fn) /\ wmax (s_up s) /\
    length (s_dn s) = length (concat bn) /\ length (s_dnu s) = length (concat bn) /\ wmax (s_dn s) /\ length (s_wo s) = n /\ length (s_wi s) = n.
  Definition win (lou hiu lod hid z : nat) : Prop := in_win fn lou hiu z /\ in_win bn lod hid z.

  Lemma dnode_ok lou hiu lod hid s cur : cur < n -> win lou hiu lod hid cur -> (forall z, In cur (nbh fn z) \/ In cur (nbh bn z) -> win lou hiu lod hid z) -> dst_ok s ->
    exists s', dcustomize_node d lou hiu lod hid s cur = Some s' /\ dst_ok s' /\
    (forall e x, edge fn e cur x -> let r := fold_left relax1 (dcand bn fn (s_dn s) (s_up s) mkU cur x) (nth e (s_up s) 0%N, no_unp) in nth_error (s_up s') e = Some (fst r) /\ nth_error (s_upu s') e = Some (snd r)) /\
    (forall e x, edge bn e cur x -> let r := fold_left relax1 (dcand fn bn (s_up s) (s_dn s) mkD cur x) (nth e (s_dn s) 0%N, no_unp) in nth_error (s_dn s') e = Some (fst r) /\ nth_error (s_dnu s') e = Some (snd r)) /\
    (forall e, (forall x, ~ edge fn e cur x) -> nth_error (s_up s') e = nth_error (s_up s) e /\ nth_error (s_upu s') e = nth_error (s_upu s) e) /\
    (forall e, (forall x, ~ edge bn e cur x) -> nth_error (s_dn s') e = nth_error (s_dn s) e /\ nth_error (s_dnu s') e = nth_error (s_dnu s) e).
  Proof using HD.
    intros Hc [W1 W2] WL (L1 & L2 & L3 & L4 & L5 & L6 & L7 & L8). pose proof (dk_len _ _ _ HD) as LB. unfold n in *.
    destruct (dside_ok bn fn (d_ffo d) (d_fhead d) lod hid lou hiu (s_dn s) (s_up s) (s_upu s) mkU cur (s_wo s)) as (wo1 & wo2 & up' & upu' & A1 & A2 & A3 & A4 & A5 & A6 & A7 & A8 & A9);
      auto; try apply HD. { intros z Hz. destruct (WL z (or_intror Hz)). auto. }
    destruct (dside_ok fn bn (d_bfo d) (d_bhead d) lou hiu lod hid (s_up s) (s_dn s) (s_dnu s) mkD cur (s_wi s)) as (wi1 & wi2 & dn' & dnu' & B1 & B2 & B3 & B4 & B5 & B6 & B7 & B8 & B9);
      auto; try lia; try apply HD. { intros z Hz. destruct (WL z (or_introl Hz)). auto. }
    exists (mkCst up' dn' upu' dnu' wo2 wi2). split.
    - unfold dcustomize_node. rewrite (arrays_range _ _ _ _ (dk_f _ _ _ HD)) by auto. cbn [bind]. rewrite (arrays_range _ _ _ _ (dk_b _ _ _ HD)) by lia. cbn [bind].
      rewrite (proj2 (proj2 (dk_f _ _ _ HD))), (nbh_slice fn) by auto. cbn [bind]. rewrite wslice_win by auto. cbn [bind]. rewrite off_next by auto. rewrite A1. cbn [bind].
      rewrite (proj2 (proj2 (dk_b _ _ _ HD))), (nbh_slice bn) by lia. cbn [bind]. rewrite wslice_win by (auto; lia). cbn [bind]. rewrite off_next by lia. rewrite B1. cbn [bind].
      rewrite (dk_binv _ _ _ HD) by lia. cbn [bind]. rewrite (proj2 (proj2 (dk_f _ _ _ HD))) in A2. fold mkU. rewrite A2. cbn [bind].
      rewrite (dk_finv _ _ _ HD) by auto. cbn [bind]. rewrite (proj2 (proj2 (dk_b _ _ _ HD))) in B2. fold mkD. rewrite B2. cbn [bind]. rewrite A3. cbn [bind]. rewrite B3. reflexivity.
    - cbn [s_up s_dn s_upu s_dnu]. split; [|auto]. unfold dst_ok. cbn. rewrite A4, B4, LB. auto 10.
  Qed.

  Record ddone (up0 dn0 : list N) (P : nat -> Prop) (s : cst) : Prop := {
    dd_st : dst_ok s;
    dd_f : forall e x y, P x -> edge fn e x y -> (nth e (s_up s) 0%N, nth e (s_upu s) no_unp) = fold_left relax1 (dcand bn fn (s_dn s) (s_up s) mkU x y) (nth e up0 0%N, no_unp);
    dd_b : forall e x y, P x -> edge bn e x y -> (nth e (s_dn s) 0%N, nth e (s_dnu s) no_unp) = fold_left relax1 (dcand fn bn (s_up s) (s_dn s) mkD x y) (nth e dn0 0%N, no_unp);
    dd_fn : forall e x y, ~ P x -> edge fn e x y -> nth e (s_up s) 0%N = nth e up0 0%N;
    dd_bn : forall e x y, ~ P x -> edge bn e x y -> nth e (s_dn s) 0%N = nth e dn0 0%N;
    dd_low : forall z x, In x (nbh fn z) \/ In x (nbh bn z) -> P x -> P z }.

  Lemma flat_map_eq {A B} (f g : A -> list B) l : (forall x, In x l -> f x = g x) -> flat_map f l = flat_map g l.
  Proof. induction l as [|x l IH]; cbn; intros H; auto. rewrite H, IH; auto. Qed.
  Lemma dcand_ext nodes1 nodes2 ws1 ws2 ws1' ws2' mk cur y : (forall x, NoDup (nbh nodes1 x)) ->
    (forall e z, In cur (nbh nodes1 z) -> edge nodes1 e z cur -> nth e ws1' 0%N = nth e ws1 0%N) -> (forall e x z, In cur (nbh nodes1 z) -> edge nodes2 e z x -> nth e ws2' 0%N = nth e ws2 0%N) ->
    dcand nodes1 nodes2 ws1' ws2' mk cur y = dcand nodes1 nodes2 ws1 ws2 mk cur y.
  Proof.
    intros ND H1 H2. apply flat_map_eq. intros [z e] Hz. apply lows_In in Hz; auto. pose proof (edge_In _ _ _ _ Hz) as Hi. unfold dtri. cbn [fst snd].
    destruct (eid nodes2 z y) as [e2|] eqn:E; auto. apply eid_edge in E. rewrite (H1 e z Hi Hz), (H2 e2 y z Hi E). auto.
  Qed.

  Lemma ddone_node up0 dn0 (P : nat -> Prop) s lou hiu lod hid cur : ddone up0 dn0 P s -> cur < n -> ~ P cur -> (forall z, In cur (nbh fn z) \/ In cur (nbh bn z) -> P z) ->
    win lou hiu lod hid cur -> (forall z, In cur (nbh fn z) \/ In cur (nbh bn z) -> win lou hiu lod hid z) ->
    exists s', dcustomize_node d lou hiu lod hid s cur = Some s' /\ ddone up0 dn0 (fun x => P x \/ x = cur) s'.
  Proof using HD.
    intros [H1 H2 H3 H4 H5 H6] Hc NP Hlow W WL. destruct (dnode_ok lou hiu lod hid s cur Hc W WL H1) as (s' & E & St & F1 & F2 & G1 & G2). exists s'. split; [exact E|].
    assert (OF : forall e x y, edge fn e x y -> x <> cur -> nth e (s_up s') 0%N = nth e (s_up s) 0%N /\ nth e (s_upu s') no_unp = nth e (s_upu s) no_unp).
    { intros e x y He Ne. destruct (G1 e) as (K1 & K2). { intros x' He'. destruct (edge_unique _ _ _ _ _ _ He He'). auto. } split; apply eq_nth; auto. }
    assert (OB : forall e x y, edge bn e x y -> x <> cur -> nth e (s_dn s') 0%N = nth e (s_dn s) 0%N /\ nth e (s_dnu s') no_unp = nth e (s_dnu s) no_unp).
    { intros e x y He Ne. destruct (G2 e) as (K1 & K2). { intros x' He'. destruct (edge_unique _ _ _ _ _ _ He He'). auto. } split; apply eq_nth; auto. }
    assert (NDf : forall x, NoDup (nbh fn x)) by (intros; apply asc_NoDup, HD). assert (NDb : forall x, NoDup (nbh bn x)) by (intros; apply asc_NoDup, HD).
    assert (Zn : forall x z, (x = cur \/ P x) -> In x (nbh fn z) \/ In x (nbh bn z) -> z <> cur).
    { intros x z Hx Hz ->. destruct Hx as [->|Hx]. - destruct Hz as [Hz|Hz]; apply HD in Hz; lia. - apply NP. eapply H6; eauto. }
    assert (CF : forall x y, x = cur \/ P x -> dcand bn fn (s_dn s') (s_up s') mkU x y = dcand bn fn (s_dn s) (s_up s) mkU x y).
    { intros x y Hx. apply dcand_ext; auto. - intros e z Hz He. apply (OB e z x He). apply (Zn x); auto. - intros e v z Hz He. apply (OF e z v He). apply (Zn x); auto. }
    assert (CB : forall x y, x = cur \/ P x -> dcand fn bn (s_up s') (s_dn s') mkD x y = dcand fn bn (s_up s) (s_dn s) mkD x y).
    { intros x y Hx. apply dcand_ext; auto. - intros e z Hz He. apply (OF e z x He). apply (Zn x); auto. - intros e v z Hz He. apply (OB e z v He). apply (Zn x); auto. }
    constructor; auto.
    - intros e x y Hx He. rewrite CF by tauto. destruct (Nat.eq_dec x cur) as [->|Ne].
      + destruct (F1 e y He) as (K1 & K2). rewrite (nth_of _ _ _ 0%N K1), (nth_of _ _ _ no_unp K2). rewrite <- (H4 e cur y NP He). symmetry. apply surjective_pairing.
      + destruct (OF e x y He Ne) as (-> & ->). destruct Hx as [Hx|Hx]; [|contradiction]. apply H2; auto.
    - intros e x y Hx He. rewrite CB by tauto. destruct (Nat.eq_dec x cur) as [->|Ne].
      + destruct (F2 e y He) as (K1 & K2). rewrite (nth_of _ _ _ 0%N K1), (nth_of _ _ _ no_unp K2). rewrite <- (H5 e cur y NP He). symmetry. apply surjective_pairing.
      + destruct (OB e x y He Ne) as (-> & ->). destruct Hx as [Hx|Hx]; [|contradiction]. apply H3; auto.
    - intros e x y Hx He. destruct (OF e x y He) as (-> & _). { intros ->. tauto. } apply (H4 e x y); tauto.
    - intros e x y Hx He. destruct (OB e x y He) as (-> & _). { intros ->. tauto. } apply (H5 e x y); tauto.
    - intros z x Hz [Hx|Hx]. { left. eapply H6; eauto. } subst x. left. auto.
  Qed.

  Lemma dbasic_ok up0 dn0 : length up0 = length (concat fn) -> length dn0 = length (concat bn) -> wmax up0 -> wmax dn0 ->
    exists s, customize_directed_basic d up0 dn0 = Some s /\ ddone up0 dn0 (fun x => x < n) s.
  Proof using HD.
    intros L1 L2 M1 M2. unfold customize_directed_basic. pose proof (dk_len _ _ _ HD) as LB. assert (Hn : n = length fn) by reflexivity. rewrite <- Hn in LB.
    assert (En : dcch_nodes d = n) by (unfold dcch_nodes; rewrite (proj1 (dk_f _ _ _ HD)); fold n; lia). rewrite En.
    rewrite (proj2 (proj2 (dk_f _ _ _ HD))), (proj2 (proj2 (dk_b _ _ _ HD))).
    set (s0 := mkCst up0 dn0 _ _ _ _).
    assert (I0 : ddone up0 dn0 (fun x => x < 0) s0).
    { constructor; try (intros; lia); auto. unfold dst_ok, s0. cbn. rewrite !repeat_length. auto 10. }
    assert (W : forall z, z < n -> win 0 (length (concat fn)) 0 (length (concat bn)) z).
    { intros z Hz. pose proof (off_le fn (z + 1) ltac:(fold n; lia)). pose proof (off_le bn (z + 1) ltac:(lia)). split; split; lia. }
    assert (G : forall k, k <= n -> exists s, foldM (dcustomize_node d 0 (length (concat fn)) 0 (length (concat bn))) (seq 0 k) s0 = Some s /\ ddone up0 dn0 (fun x => x < k) s).
    { induction k as [|k IH]; intros Hk; [exists s0; auto|]. destruct (IH ltac:(lia)) as (s & E & I).
      assert (Lz : forall z, In k (nbh fn z) \/ In k (nbh bn z) -> z < k) by (intros z [Hz|Hz]; apply HD in Hz; lia).
      destruct (ddone_node up0 dn0 _ s 0 (length (concat fn)) 0 (length (concat bn)) k I) as (s' & E' & I'); auto; try lia. { intros z Hz. apply W. apply Lz in Hz. lia. }
      exists s'. rewrite seq_S, foldM_app, E. cbn [foldM bind Nat.add]. rewrite E'. split; [reflexivity|].
      destruct I' as [J1 J2 J3 J4 J5 J6]. constructor; auto.
      - intros e x y Hx. apply J2. lia. - intros e x y Hx. apply J3. lia. - intros e x y Hx. apply J4. lia. - intros e x y Hx. apply J5. lia.
      - intros z x [Hz|Hz] Hx; apply HD in Hz; lia. }
    destruct (G n (le_n _)) as (s & E & I). exists s. auto.
  Qed.
End Dir.
