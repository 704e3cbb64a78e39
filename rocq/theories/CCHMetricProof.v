(** Customization with a metric: the weights of the CCH against walks in the input graph. *)
From Verif Require Import Base BitVec Graph GraphProof GraphRevProof GraphIdProof GraphSpecProof SpecGraph SpecCCH CCH CCHTheory CCHContractProof CCHBuildProof CCHCustProof.

(** ** Graphs that differ in the weights only *)
Section Topo.
  Context {W V : Type}.
  Variables (adj : list (list (nat * W))) (madj : list (list (nat * V))).
  Hypothesis HT : same_topology adj madj.
  Lemma topo_nth u : map fst (nth u adj []) = map fst (nth u madj []).
  Proof. change (@nil (nat * W)) with ([] : list (nat * W)). rewrite <- (map_nth (map fst)), <- (map_nth (map fst)). cbn. unfold same_topology in HT. rewrite HT. auto. Qed.
  Lemma topo_len : length adj = length madj.
  Proof. rewrite <- (map_length (map fst) adj), HT, map_length. auto. Qed.
  Lemma topo_off u : length (concat (firstn u adj)) = length (concat (firstn u madj)).
  Proof.
    assert (G : map (map fst) (firstn u adj) = map (map fst) (firstn u madj)) by (rewrite <- !firstn_map, HT; auto).
    rewrite <- (map_length fst (concat (firstn u adj))), concat_map, G, <- concat_map, map_length. auto.
  Qed.
  Lemma topo_all : length (concat adj) = length (concat madj).
  Proof. rewrite <- (map_length fst (concat adj)), concat_map, HT, <- concat_map, map_length. auto. Qed.
  Lemma topo_valid : valid_adj adj -> valid_adj madj.
  Proof.
    intros H l v w Hl Hv. destruct (In_nth_error _ _ Hl) as (u & Hu). rewrite <- topo_len.
    assert (Hn : nth u madj [] = l) by (apply nth_error_nth; auto).
    assert (K : In v (map fst (nth u adj []))). { rewrite topo_nth, Hn. apply in_map_iff. exists (v, w). auto. }
    apply in_map_iff in K. destruct K as ([v' w'] & Ev & K). cbn in Ev. subst v'. eapply (H (nth u adj [])); eauto.
    apply nth_In. rewrite topo_len. eapply nth_error_Some_lt; eauto.
  Qed.
  Lemma topo_fits : fits_u32 adj -> fits_u32 madj.
  Proof. unfold fits_u32. rewrite topo_len, topo_all. auto. Qed.
End Topo.

Lemma topo_edge adj madj u i v : same_topology adj madj -> (exists w, adj_edge adj u i v w) -> exists w, adj_edge madj u i v w.
Proof.
  intros HT (w & k & -> & Hk). pose proof (topo_nth adj madj HT u) as E.
  assert (K : nth_error (map fst (nth u madj [])) k = Some v). { rewrite <- E, nth_error_map, Hk. auto. }
  rewrite nth_error_map in K. destruct (nth_error (nth u madj []) k) as [[v' w']|] eqn:Ek; [|discriminate]. injection K as <-.
  exists w', k. split; auto. rewrite (topo_off adj madj HT). auto.
Qed.
Lemma same_topology_sym {W V} (a : list (list (nat * W))) (b : list (list (nat * V))) : same_topology a b -> same_topology b a.
Proof. unfold same_topology. auto. Qed.

Lemma metric_link madj g u e v w : valid_adj madj -> fits_u32 madj -> from_adjacency_lists madj = Some g -> adj_edge madj u e v w -> link g e = Some (v, w).
Proof.
  intros HV HF Hg (k & -> & Hk). destruct (adj_edges madj g binary_search HV HF Hg binary_search_contract) as (t & _ & H). apply (H _ _ _ _ Hk).
Qed.

(** the minimum over the original arcs of an edge *)
Lemma min_arcs (g : fograph N) (ids : list nat) (W : nat -> N) w0 : (forall i, In i ids -> exists h, link g i = Some (h, W i)) ->
  exists w, foldM (fun w e => l <- link g e ;; Some (N.min (snd l) w)) ids w0 = Some w /\ (w <= w0)%N /\ (forall i, In i ids -> (w <= W i)%N) /\ (w = w0 \/ exists i, In i ids /\ w = W i).
Proof.
  revert w0. induction ids as [|i ids IH]; intros w0 H; cbn [foldM]. { exists w0. split; auto. split; [lia|]. split; [intros i []|auto]. }
  destruct (H i) as (h & E); [left; auto|]. rewrite E. cbn [bind snd]. destruct (IH (N.min (W i) w0)) as (w & Ew & L & Hl & Hc). { intros j Hj. apply H. right; auto. }
  exists w. split; auto. split; [lia|]. split. { intros j [<-|Hj]; [lia|auto]. }
  destruct Hc as [->|(j & Hj & ->)]; [|right; exists j; split; [right; auto|auto]].
  destruct (N.min_spec (W i) w0) as [[_ ->]|[_ ->]]; auto. right. exists i. split; [left|]; auto.
Qed.

Section Metric.
  Variable adj : list (list (nat * N)).
  Variables order ranks : list nat.
  Variable nodes : list (list nat).
  Variable c : cch.
  Hypothesis HK : cch_ok adj order ranks nodes c.
  Variable madj : list (list (nat * N)).
  Variable metric : fograph N.
  Hypothesis HT : same_topology adj madj.
  Hypothesis HV : valid_adj madj.
  Hypothesis HF : fits_u32 madj.
  Hypothesis HW : weights_ok madj.
  Hypothesis Hm : from_adjacency_lists madj = Some metric.
  Let n := length adj.
  Let m := length (concat nodes).
  Let HC := co_chordal _ _ _ _ _ HK.

  Lemma adj_edge_arc u e v w : adj_edge madj u e v w -> adj_arc madj u v w.
  Proof using. intros (k & _ & Hk). eapply nth_error_In; eauto. Qed.
  Lemma adj_arc_edge u v w : adj_arc madj u v w -> exists e, adj_edge madj u e v w.
  Proof using. intros H. apply In_nth_error in H. destruct H as (k & Hk). exists (length (concat (firstn u madj)) + k), k. auto. Qed.

  Lemma order_of x : x < n -> exists u, nth_error order x = Some u.
  Proof using HK. intros H. destruct (co_order _ _ _ _ _ HK) as (L & _). apply nth_error_lt. fold n in L. lia. Qed.

  Lemma prepare_ok (orig : list (list nat)) (T : nat -> nat -> nat * nat) : length orig = m ->
    (forall e x y, edge nodes e x y -> exists u v ids, nth_error order x = Some u /\ nth_error order y = Some v /\ nth_error orig e = Some ids /\
       forall i, In i ids <-> exists w, adj_edge adj (fst (T u v)) i (snd (T u v)) w) ->
    exists ws, prepare_weights orig metric (repeat INF m) = Some ws /\ length ws = m /\ (forall e, (nth e ws 0 <= INF)%N) /\
    forall e x y u v, edge nodes e x y -> nth_error order x = Some u -> nth_error order y = Some v ->
      (forall w, adj_arc madj (fst (T u v)) (snd (T u v)) w -> (nth e ws 0 <= w)%N) /\
      (nth e ws 0 = INF \/ adj_arc madj (fst (T u v)) (snd (T u v)) (nth e ws 0))%N.
  Proof using HK HT HV HF Hm.
    intros Lo Ho. unfold prepare_weights.
    set (f := fun '(w, arcs) => foldM (fun w e => l <- link metric e ;; Some (N.min (snd l) w)) arcs w).
    assert (Hf : forall e ids, nth_error orig e = Some ids -> exists w, f (INF, ids) = Some w /\ (w <= INF)%N /\
       forall x y u v, edge nodes e x y -> nth_error order x = Some u -> nth_error order y = Some v ->
         (forall w', adj_arc madj (fst (T u v)) (snd (T u v)) w' -> (w <= w')%N) /\ (w = INF \/ adj_arc madj (fst (T u v)) (snd (T u v)) w)).
    { intros e ids He. destruct (edge_ex nodes e) as (x & y & Hxy). { apply nth_error_Some_lt in He. unfold m in *; lia. }
      destruct (Ho e x y Hxy) as (u & v & ids' & Eu & Ev & He' & Hi). rewrite He in He'. injection He' as <-.
      set (Wf := fun i => match link metric i with Some l => snd l | None => 0%N end).
      assert (HL : forall i, In i ids -> exists w, link metric i = Some (snd (T u v), w) /\ adj_edge madj (fst (T u v)) i (snd (T u v)) w).
      { intros i Hin. apply Hi in Hin. apply (topo_edge _ _ _ _ _ HT) in Hin. destruct Hin as (w & Hw). exists w. split; auto. eapply metric_link; eauto. }
      destruct (min_arcs metric ids Wf INF) as (w & Ew & L1 & L2 & L3).
      { intros i Hin. destruct (HL i Hin) as (w & E & _). unfold Wf. rewrite E. eauto. }
      exists w. split; [exact Ew|]. split; auto. intros x' y' u' v' He' Eu' Ev'. destruct (edge_unique _ _ _ _ _ _ Hxy He') as [<- <-].
      rewrite Eu in Eu'. rewrite Ev in Ev'. injection Eu' as <-. injection Ev' as <-. split.
      - intros w' Hw'. apply adj_arc_edge in Hw'. destruct Hw' as (i & Hi').
        assert (Hin : In i ids) by (apply Hi; apply (topo_edge madj adj); [apply same_topology_sym; auto|eauto]).
        specialize (L2 i Hin). unfold Wf in L2. rewrite (metric_link madj metric _ _ _ _ HV HF Hm Hi') in L2. auto.
      - destruct L3 as [->|(i & Hin & ->)]; auto. right. destruct (HL i Hin) as (w & E & Hw). unfold Wf. rewrite E. eapply adj_edge_arc; eauto. }
    assert (Cn : forall e, nth_error (combine (repeat INF m) orig) e = option_map (fun ids => (INF, ids)) (nth_error orig e)).
    { rewrite <- Lo. clear. induction orig as [|a l IH]; intros [|e]; cbn; auto. }
    destruct (mapM_ok f (combine (repeat INF m) orig)) as (ws & E & F).
    { intros [w ids] Hin. apply In_nth_error in Hin. destruct Hin as (e & He). rewrite Cn in He. destruct (nth_error orig e) eqn:Eo; [|discriminate]. injection He as <- <-.
      destruct (Hf e l Eo) as (w & Ew & _). eauto. }
    pose proof (Forall2_len _ _ _ F) as Lw. rewrite combine_length, repeat_length, Lo, Nat.min_id in Lw.
    exists ws. split; [exact E|]. split; [auto|].
    assert (Hn : forall e, e < m -> exists ids, nth_error orig e = Some ids /\ f (INF, ids) = Some (nth e ws 0%N)).
    { intros e He. destruct (nth_error_lt orig e) as (ids & Ei); [lia|]. exists ids. split; auto.
      destruct (Forall2_nth _ _ _ e (INF, ids) F) as (b & Eb & Hb). { rewrite Cn, Ei. auto. } rewrite (nth_error_nth _ _ _ Eb). auto. }
    split.
    - intros e. destruct (Nat.lt_ge_cases e m) as [He|He]; [|rewrite nth_overflow by lia; lia].
      destruct (Hn e He) as (ids & Ei & Ef). destruct (Hf e ids Ei) as (w & Ew & L & _). rewrite Ew in Ef. injection Ef as <-. auto.
    - intros e x y u v He Eu Ev. destruct (Hn e) as (ids & Ei & Ef). { eapply edge_lt; eauto. }
      destruct (Hf e ids Ei) as (w & Ew & _ & Hw). rewrite Ew in Ef. injection Ef as <-. eapply Hw; eauto.
  Qed.

  (** The result of [customize]. *)
  Record cust_result (up0 dn0 : list N) (s : cst) (k : customized) : Prop := {
    cr_ok : cust_ok adj nodes up0 dn0 s;
    cr_k : k = mkCust (mkFo (c_fo c) (c_head c) (s_up s)) (mkFo (c_fo c) (c_head c) (s_dn s)) (s_upu s) (s_dnu s) (c_tail c) (c_elim c) order ranks;
    cr_le : forall x y u v w, x <> y -> nth_error order x = Some u -> nth_error order y = Some v -> adj_arc madj u v w -> exists w0, init_of nodes up0 dn0 x y w0 /\ (w0 <= w)%N;
    cr_real : forall x y u v w, init_of nodes up0 dn0 x y w -> nth_error order x = Some u -> nth_error order y = Some v -> w = INF \/ adj_arc madj u v w }.

  Lemma fo0 : nth_error (c_fo c) 0 = Some 0.
  Proof using HK. rewrite (co_fo _ _ _ _ _ HK) by lia. reflexivity. Qed.
  Lemma fo_built (ws : list N) : length ws = m -> fo_new (c_fo c) (c_head c) ws = Some (mkFo (c_fo c) (c_head c) ws).
  Proof using HK.
    intros L. destruct (co_fit _ _ _ _ _ HK) as [F1 F2]. pose proof (co_fol _ _ _ _ _ HK) as Lf.
    apply fo_new_ok.
    - rewrite Lf. lia.
    - rewrite (co_head _ _ _ _ _ HK). auto.
    - apply fo0.
    - rewrite Lf, Nat.add_sub, (co_fo _ _ _ _ _ HK) by auto. rewrite (co_head _ _ _ _ _ HK). f_equal. rewrite <- (ch_len _ _ HC). apply off_n.
    - rewrite L, (co_head _ _ _ _ _ HK). auto.
  Qed.

  Lemma customize_ok : exists up0 dn0 s k, customize c metric = Some k /\ cust_result up0 dn0 s k.
  Proof using HK HT HV HF Hm.
    destruct (prepare_ok (c_fw_orig c) (fun u v => (u, v)) (co_fwl _ _ _ _ _ HK) (co_fw _ _ _ _ _ HK)) as (up0 & E1 & L1 & S1 & H1).
    destruct (prepare_ok (c_bw_orig c) (fun u v => (v, u)) (co_bwl _ _ _ _ _ HK) (co_bw _ _ _ _ _ HK)) as (dn0 & E2 & L2 & S2 & H2).
    cbn [fst snd] in H1, H2.
    destruct (customize_basic_ok adj order ranks nodes c HK up0 dn0) as (s & E3 & H3); [split; auto|split; auto|].
    exists up0, dn0, s. unfold customize.
    assert (Em : cch_arcs c = m) by (unfold cch_arcs; rewrite (co_head _ _ _ _ _ HK); reflexivity). rewrite Em, E1. cbn [bind]. rewrite E2. cbn [bind]. rewrite E3. cbn [bind].
    unfold customized_of. pose proof H3 as [((U & _) & (D & _) & _) _]. rewrite !fo_built by auto. cbn [bind].
    eexists; split; [reflexivity|]. constructor; auto.
    - rewrite (co_ord _ _ _ _ _ HK), (co_rks _ _ _ _ _ HK). reflexivity.
    - intros x y u v w Ne Eu Ev Ha.
      assert (Tc : touching adj order x y).
      { destruct (adj_arc_edge _ _ _ Ha) as (e & He). destruct (topo_edge madj adj _ _ _ (same_topology_sym _ _ HT) (ex_intro _ w He)) as (w' & k & _ & Hk).
        exists u, v, w'. split; auto. split; auto. left. eapply nth_error_In; eauto. }
      destruct (co_sup _ _ _ _ _ HK x y Tc Ne) as [K|K]; pose proof (proj1 (ch_up _ _ HC _ _ K)) as L; destruct (In_edge _ _ _ K) as (e & He).
      + exists (nth e up0 0%N). split; [left; eauto|]. apply (proj1 (H1 e x y u v He Eu Ev)); auto.
      + exists (nth e dn0 0%N). split; [right; eauto|]. apply (proj1 (H2 e y x v u He Ev Eu)); auto.
    - intros x y u v w [(L & e & He & ->)|(L & e & He & ->)] Eu Ev.
      + apply (proj2 (H1 e x y u v He Eu Ev)). + apply (proj2 (H2 e y x v u He Ev Eu)).
  Qed.

    (** the arcs of the two customized graphs *)
    Lemma garc_fo (ws : list N) x y w : length ws = m -> garc (link_iter (mkFo (c_fo c) (c_head c) ws)) x y w <-> exists e, edge nodes e x y /\ w = nth e ws 0%N.
    Proof using HK.
      intros L. pose proof (nodes_len _ _ _ _ _ HK) as NL. fold n in NL. unfold garc.
      assert (EL : forall x, x < n -> link_iter (mkFo (c_fo c) (c_head c) ws) x = Some (map (fun p => (fst p, nth (snd p) ws 0%N)) (ids nodes x))).
      { intros z Hz. unfold link_iter, range. cbn [first_out head weight]. rewrite !(co_fo _ _ _ _ _ HK) by (fold n; lia). cbn [bind].
        rewrite (co_head _ _ _ _ _ HK), nbh_slice by lia. cbn [bind]. pose proof (off_le nodes (z + 1) ltac:(lia)). pose proof (off_mono nodes z (z + 1) ltac:(lia) ltac:(lia)).
        rewrite (slice_map _ _ _ 0%N) by (unfold m in *; lia). rewrite (proj2 (Nat.leb_le _ _)) by lia. cbn [bind]. rewrite (off_diff _ _ _ _ _ HK) by auto. f_equal.
        unfold ids. clear. generalize (seq (off nodes z) (length (nbh nodes z))). induction (nbh nodes z); intros [|b r]; cbn; auto. f_equal. auto. }
      split.
      - intros (ls & E & Hin). assert (Hx : x < n).
        { unfold link_iter, range in E. cbn [first_out] in E. destruct (nth_error (c_fo c) (x + 1)) eqn:K.
          - apply nth_error_Some_lt in K. rewrite (co_fol _ _ _ _ _ HK) in K. fold n in K. lia.
          - destruct (nth_error (c_fo c) x); discriminate. }
        rewrite (EL x Hx) in E. injection E as <-. apply in_map_iff in Hin. destruct Hin as ([x' e] & Ep & Hin). cbn in Ep. injection Ep as -> <-. apply ids_In in Hin. eauto.
      - intros (e & He & ->). pose proof (edge_tail_lt _ _ _ _ He). rewrite (EL x) by lia. eexists; split; [reflexivity|]. apply in_map_iff. exists (y, e). split; auto. apply ids_In; auto.
    Qed.
  Section Dist.
    Variables up0 dn0 : list N.
    Variable s : cst.
    Variable k : customized.
    Hypothesis HR : cust_result up0 dn0 s k.
    Let A := carc nodes s.
    Let M := adj_arc madj.

    Lemma m_nodes : length madj = n.
    Proof using HT. symmetry. apply topo_len; auto. Qed.

    (** every arc shorter than INF is a walk *)
    Lemma carc_walk : forall b x y w u v, Nat.min x y < b -> A x y w -> (w < INF)%N -> nth_error order x = Some u -> nth_error order y = Some v -> walk M u v w.
    Proof using HK HR.
      induction b as [|b IH]; intros x y w u v Hb Ha Hw Eu Ev; [lia|].
      destruct (carc_unp nodes s x y (ex_intro _ w Ha)) as (i & Hi).
      destruct (carc_case adj order ranks nodes c HK up0 dn0 s (cr_ok _ _ _ _ HR) x y w i Ha Hi) as [[_ H0]|(z & e1 & e2 & _ & H1 & H2 & -> & _)].
      - destruct (cr_real _ _ _ _ HR _ _ _ _ _ H0 Eu Ev) as [->|H]; [lia|]. apply walk_arc; auto.
      - pose proof (ch_up _ _ HC _ _ (edge_In _ _ _ _ H1)) as Lx. pose proof (ch_up _ _ HC _ _ (edge_In _ _ _ _ H2)) as Ly.
        destruct (order_of z) as (t & Et). { unfold n; lia. }
        apply walk_app with (v := t).
        + apply (IH x z); auto; try lia. right. split; [lia|]. exists e1. auto.
        + apply (IH z y); auto; try lia. left. split; [lia|]. exists e2. auto.
    Qed.
    Lemma cwalk_walk x y l u v : walk A x y l -> (l < INF)%N -> nth_error order x = Some u -> nth_error order y = Some v -> walk M u v l.
    Proof using HK HR.
      intros H. revert u. induction H as [x|x z y w l Ha Hw IH]; intros u Hl Eu Ev. { rewrite Eu in Ev. injection Ev as <-. constructor. }
      destruct (carc_lt _ _ _ _ _ HK _ _ _ _ Ha) as (_ & Hz & _). destruct (order_of z Hz) as (t & Et).
      apply walk_app with (v := t). { eapply (carc_walk (S (Nat.min x z))); eauto. lia. } apply IH; auto. lia.
    Qed.
    (** every walk has a walk in the CCH that is not longer *)
    Lemma walk_cwalk u v l x y : walk M u v l -> nth_error order x = Some u -> nth_error order y = Some v -> exists l', walk A x y l' /\ (l' <= l)%N.
    Proof using HK HT HR HV.
      intros H. revert x. induction H as [u|u t v w l Ha Hw IH]; intros x Eu Ev.
      - destruct (co_order _ _ _ _ _ HK) as (_ & _ & O & _). apply O in Eu, Ev. rewrite Eu in Ev. injection Ev as <-. exists 0%N. split; [constructor|lia].
      - assert (Ht : t < n). { rewrite <- m_nodes. unfold M, adj_arc in Ha. destruct (Nat.lt_ge_cases u (length madj)).
          - eapply HV; eauto. apply nth_In; auto. - rewrite nth_overflow in Ha by auto. destruct Ha. }
        destruct (co_order _ _ _ _ _ HK) as (_ & Lr & _ & O). destruct (nth_error_lt ranks t) as (z & Ez). { fold n in Lr. lia. } pose proof (O _ _ Ez) as Et.
        destruct (IH z Et Ev) as (l' & Hl & L'). destruct (Nat.eq_dec x z) as [->|Ne]. { exists l'. split; [auto|lia]. }
        destruct (cr_le _ _ _ _ HR x z u t w Ne Eu Et Ha) as (w0 & Hi & Lw).
        assert (Hc : exists w1, A x z w1).
        { destruct Hi as [(L & e & He & _)|(L & e & He & _)]; eexists; [left|right]; split; eauto. }
        destruct Hc as (w1 & Hc). pose proof (carc_init adj order ranks nodes c HK up0 dn0 s (cr_ok _ _ _ _ HR) x z w1 w0 Hc Hi) as L1.
        exists (w1 + l')%N. split; [econstructor; eauto|lia].
    Qed.

    Lemma fw_arc x y w : garc (link_iter (k_fw k)) x y w <-> x < y /\ A x y w.
    Proof using HK HR.
      rewrite (cr_k _ _ _ _ HR). cbn [k_fw]. pose proof (cr_ok _ _ _ _ HR) as [((U & _) & _) _]. rewrite garc_fo by auto. split.
      - intros (e & He & ->). pose proof (ch_up _ _ HC _ _ (edge_In _ _ _ _ He)). split; [lia|]. left. split; [lia|]. eauto.
      - intros [L [(_ & H)|(L' & _)]]; [auto|lia].
    Qed.
    Lemma bw_arc x y w : garc (link_iter (k_bw k)) x y w <-> x < y /\ A y x w.
    Proof using HK HR.
      rewrite (cr_k _ _ _ _ HR). cbn [k_bw]. pose proof (cr_ok _ _ _ _ HR) as [(_ & (D & _) & _) _]. rewrite garc_fo by auto. split.
      - intros (e & He & ->). pose proof (ch_up _ _ HC _ _ (edge_In _ _ _ _ He)). split; [lia|]. right. split; [lia|]. eauto.
      - intros [L [(L' & _)|(_ & H)]]; [lia|auto].
    Qed.

    Lemma meets_up_down x y l : meets (garc (link_iter (k_fw k))) (garc (link_iter (k_bw k))) x y l <->
      exists t a b, walk (upa A) x t a /\ walk (dna A) t y b /\ l = (a + b)%N.
    Proof using HK HR.
      unfold meets. split; intros (t & a & b & H1 & H2 & E); exists t, a, b.
      - split. { revert H1. apply walk_mono. intros p q w H. apply fw_arc in H. exact H. } split; auto.
        apply walk_flip_iff. revert H2. apply walk_mono. intros p q w H. apply bw_arc in H. exact H.
      - split. { revert H1. apply walk_mono. intros p q w H. apply fw_arc. exact H. } split; auto.
        apply walk_flip in H2. revert H2. apply walk_mono. intros p q w H. apply bw_arc. exact H.
    Qed.

    Lemma walk_meets u v l x y : nth_error order x = Some u -> nth_error order y = Some v -> walk M u v l ->
      exists l', meets (garc (link_iter (k_fw k))) (garc (link_iter (k_bw k))) x y l' /\ (l' <= l)%N.
    Proof using HK HT HV HR.
      intros Eu Ev H. destruct (walk_cwalk u v l x y H Eu Ev) as (l1 & H1 & L1).
      destruct (up_down A (carc_tri _ _ _ _ _ HK _ _ _ (cr_ok _ _ _ _ HR)) x y l1 H1) as (t & a & b & Hu & Hd & L2).
      exists (a + b)%N. split; [|lia]. apply meets_up_down. exists t, a, b. auto.
    Qed.
    Lemma meets_walk u v l x y : nth_error order x = Some u -> nth_error order y = Some v ->
      meets (garc (link_iter (k_fw k))) (garc (link_iter (k_bw k))) x y l -> (l < INF)%N -> walk M u v l.
    Proof using HK HR.
      intros Eu Ev H Hl. apply meets_up_down in H. destruct H as (t & a & b & Hu & Hd & ->). apply cwalk_walk with (x := x) (y := y); auto.
      apply walk_app with (v := t). { revert Hu. apply walk_mono. intros p q w [_ H]; exact H. } revert Hd. apply walk_mono. intros p q w [_ H]; exact H.
    Qed.
  End Dist.
End Metric.
