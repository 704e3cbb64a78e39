(** The query server works on perfect customizations, see CCHRebuild. *)
From Verif Require Import Base BitVec Graph SpecGraph SpecCCH CCH CCHTheory CCHPathTheory CCHContractProof CCHBuildProof CCHCustProof CCHMetricProof CCHQuery CCHQueryProof CCHViewProof CCHServerProof SepTree CCHPerfect CCHPerfectProof CCHRebuild CCHRebuildProof.

Section PerfectView.
  Variable adj : list (list (nat * N)).
  Variables order ranks : list nat.
  Variable nodes : list (list nat).
  Variable c : cch.
  Hypothesis HK : cch_ok adj order ranks nodes c.
  Variable madj : list (list (nat * N)).
  Hypothesis HT : same_topology adj madj.
  Hypothesis HV : valid_adj madj.
  Variables up0 dn0 : list N.
  Variable s : cst.
  Variable k : customized.
  Hypothesis HR : cust_result adj order ranks nodes c madj up0 dn0 s k.
  Variable S : pshared.
  Hypothesis HL : glens nodes S.
  Hypothesis HF : cell_fin nodes s 0 (length adj) S.
  Let n := length adj.
  Let m := length (concat nodes).
  Let HC := co_chordal _ _ _ _ _ HK.
  Let HO := cr_ok _ _ _ _ _ _ _ _ _ _ HR.
  Let A := carc nodes s.
  Let un := un_of nodes s.
  Let tl (e : nat) := nth e (c_tail c) 0.
  Let us (d : bool) := if d then s_upu s else s_dnu s.
  Let gr (d : bool) := mkFo (c_fo c) (c_head c) (g_w d S).

  Lemma edge_n e x y : edge nodes e x y -> x < y /\ y < n /\ e < m.
  Proof using HK HR HL HF. intros He. pose proof (ch_up _ _ HC _ _ (edge_In _ _ _ _ He)). pose proof (edge_lt _ _ _ _ He). tauto. Qed.
  Lemma edge_to e x y : edge nodes e x y -> nth e (c_head c) 0 = y.
  Proof using HK HR HL HF.
    intros He. assert (E : nth_error (c_head c) e = Some y); [|apply nth_error_nth; auto]. rewrite (co_head _ _ _ _ _ HK). apply (edge_head nodes e x y). auto.
  Qed.
  Lemma us_len d : length (us d) = m.
  Proof using HK HR HL HF. destruct HO as [(_ & _ & U & D & _) _]. unfold us. destruct d; auto. Qed.

  Lemma node_edge i e : i < n -> off nodes i <= e < off nodes (i + 1) -> exists y, edge nodes e i y.
  Proof using HK HR HL HF. intros Hi He. apply range_edge; auto. rewrite (nodes_len _ _ _ _ _ HK). auto. Qed.

  Lemma side_ok d : side_in n (off nodes) tl (gr d) (g_m d S) (us d).
  Proof using HK HR HL HF.
    pose proof (nodes_len _ _ _ _ _ HK) as NL. fold n in NL. destruct (HL d) as [L1 L2]. fold m in L1, L2.
    assert (Om : off nodes n = m) by (unfold m; rewrite <- NL; apply off_n).
    constructor; unfold gr; cbn [first_out head weight]; rewrite ?Om; auto.
    - apply (co_fol _ _ _ _ _ HK).
    - intros i Hi. apply (co_fo _ _ _ _ _ HK). fold n. lia.
    - intros i Hi. apply off_mono; lia.
    - rewrite (co_head _ _ _ _ _ HK). reflexivity.
    - apply us_len.
    - intros i e Hi He. destruct (node_edge i e Hi He) as (y & Hy). unfold tl. apply nth_error_nth. apply (co_tail _ _ _ _ _ HK _ _ _ Hy).
  Qed.
  Lemma kept_iff d e x y : edge nodes e x y -> kept (g_m d S) e = true <-> wt d S e = w0 s d e.
  Proof using HK HR HL HF.
    intros He. destruct (edge_n _ _ _ He) as (L1 & L2 & L3). destruct (HF x e y d ltac:(unfold n in *; lia) He) as [M _].
    unfold kept. rewrite (nth_indep (g_m d S) true false) by (destruct (HL d) as [Q1 Q2]; fold m in Q2; lia). change (nth e (g_m d S) false) with (fl d S e).
    rewrite (mi_fl _ _ _ _ _ _ _ M). pose proof (mi_le _ _ _ _ _ _ _ M). destruct (N.ltb_spec (wt d S e) (w0 s d e)); cbn; split; intros; try discriminate; try lia; auto.
  Qed.
  Lemma low d i e : i < n -> off nodes i <= e < off nodes (i + 1) -> low_unp (off nodes) (off nodes) i (nth e (us d) no_unp).
  Proof using HK HR HL HF.
    intros Hi He. destruct (node_edge i e Hi He) as (y & Hy). destruct (edge_n _ _ _ Hy) as (Ly & Ny & Em).
    assert (G : exists x v w, A x v w /\ unp_of nodes s x v (nth e (us d) no_unp) /\ ((x = i /\ v = y) \/ (x = y /\ v = i))).
    { destruct d; [exists i, y|exists y, i]; eexists; split; [left; split; [lia|eauto]|split; [left; split; [lia|eauto]|auto]|right; split; [lia|eauto]|split; [right; split; [lia|eauto]|auto]]. }
    destruct G as (x & v & w & Ha & Hu & Exv). destruct (carc_case _ _ _ _ _ HK _ _ _ HO x v w _ Ha Hu) as [[E _]|(z & e1 & e2 & E & H1 & H2 & _)]; rewrite E.
    - split; intros q Hq; discriminate.
    - pose proof (nodes_len _ _ _ _ _ HK) as NL. fold n in NL. destruct (edge_n _ _ _ H1) as (B1 & B2 & _), (edge_n _ _ _ H2) as (B3 & B4 & _).
      assert (Lz : z < i) by (destruct Exv as [[-> ->]|[-> ->]]; auto). pose proof (edge_range _ _ _ _ H1). pose proof (edge_range _ _ _ _ H2).
      pose proof (off_mono nodes (z + 1) i ltac:(lia) ltac:(lia)). split; intros q Hq; cbn in Hq; injection Hq as <-; lia.
  Qed.
  Let mu := new_unp (g_m true S) (g_m false S).
  Let sd (d : bool) := side_at (off nodes) tl (gr d) (g_m d S) (us d) mu n (off nodes n).
  Lemma perfect_rebuild : rebuild_seq (gr true) (gr false) (g_m true S) (g_m false S) (us true) (us false) = Some (sd true, sd false).
  Proof using HK HR HL HF. unfold sd, mu. apply rebuild_seq_ok; try apply side_ok; apply low. Qed.
  Definition perfect_cust : customized :=
    mkCust (mkFo (x_fo (sd true)) (x_head (sd true)) (x_wt (sd true))) (mkFo (x_fo (sd false)) (x_head (sd false)) (x_wt (sd false))) (x_unp (sd true)) (x_unp (sd false)) (x_tail (sd false)) (c_elim c) order ranks.
  Let kp := perfect_cust.
  Lemma perfect_of_ok : perfect_of c (sd true, sd false) = Some kp.
  Proof using HK HR HL HF.
    pose proof (nodes_len _ _ _ _ _ HK) as NL. fold n in NL. assert (Om : off nodes n = m) by (unfold m; rewrite <- NL; apply off_n).
    destruct (co_fit _ _ _ _ _ HK) as [F1 F2]. unfold perfect_of, sd. cbn [fst snd].
    rewrite (rebuilt_fo n (off nodes) tl (gr true) (g_m true S) (us true) mu (side_ok true)) by (rewrite ?Om; unfold n, m in *; lia). cbn [bind].
    rewrite (rebuilt_fo n (off nodes) tl (gr false) (g_m false S) (us false) mu (side_ok false)) by (rewrite ?Om; unfold n, m in *; lia). cbn [bind].
    rewrite (co_ord _ _ _ _ _ HK), (co_rks _ _ _ _ _ HK). reflexivity.
  Qed.

  Definition hop' (x y e' : nat) : Prop :=
    (x < y /\ exists e, edge nodes e x y /\ kept (g_m true S) e = true /\ e' = cnt (g_m true S) e) \/
    (y < x /\ exists e, edge nodes e y x /\ kept (g_m false S) e = true /\ e' = cnt (g_m false S) e).
  Lemma kp_larc (d : bool) x e' y w : larc (k_links (if d then k_fw kp else k_bw kp)) x e' y w <->
    exists e, edge nodes e x y /\ kept (g_m d S) e = true /\ e' = cnt (g_m d S) e /\ w = w0 s d e.
  Proof using HK HR HL HF.
    unfold larc, garc_ids, k_links. assert (Eg : (if d then k_fw kp else k_bw kp) = mkFo (x_fo (sd d)) (x_head (sd d)) (x_wt (sd d))) by (destruct d; reflexivity). rewrite Eg.
    assert (Ew : forall e, weight (gr d) = g_w d S /\ (kept (g_m d S) e = true -> edge nodes e x y -> nth e (g_w d S) 0%N = w0 s d e)).
    { intros e. split; [reflexivity|]. intros K He. apply (kept_iff d e x y He). auto. }
    split.
    - intros (ls & E & Hin). assert (Hx : x < n).
      { unfold link_iter_ids, range in E. cbn [first_out] in E. destruct (nth_error (x_fo (sd d)) (x + 1)) eqn:K.
        - apply nth_error_Some_lt in K. unfold sd, side_at in K. cbn [x_fo] in K. rewrite map_length, seq_length in K. lia.
        - destruct (nth_error (x_fo (sd d)) x); discriminate. }
      destruct (rebuilt_links n (off nodes) tl (gr d) (g_m d S) (us d) mu (side_ok d) x Hx) as (ls' & E' & H'). fold (sd d) in E'. rewrite E in E'. injection E' as <-.
      apply H' in Hin. destruct Hin as (e & He & K & -> & Ey & Ew'). destruct (node_edge x e Hx He) as (y' & Hy'). unfold gr in Ey, Ew'. cbn [head weight] in Ey, Ew'. rewrite (edge_to _ _ _ Hy') in Ey. subst y'.
      exists e. repeat split; auto. rewrite Ew'. apply Ew; auto.
    - intros (e & He & K & -> & ->). destruct (edge_n _ _ _ He) as (L1 & L2 & _). assert (Hx : x < n) by lia.
      destruct (rebuilt_links n (off nodes) tl (gr d) (g_m d S) (us d) mu (side_ok d) x Hx) as (ls' & E' & H'). fold (sd d) in E'. exists ls'. split; auto.
      apply H'. exists e. split. { pose proof (edge_range _ _ _ _ He). auto. } split; auto. split; auto. unfold gr. cbn [head weight]. rewrite (edge_to _ _ _ He). split; auto. symmetry. apply Ew; auto.
  Qed.
  Lemma kp_up (d : bool) : up_graph n (c_elim c) (k_links (if d then k_fw kp else k_bw kp)).
  Proof using HK HR HL HF.
    intros x Hx. destruct (rebuilt_links n (off nodes) tl (gr d) (g_m d S) (us d) mu (side_ok d) x Hx) as (ls' & E' & H').
    assert (Eg : (if d then k_fw kp else k_bw kp) = mkFo (x_fo (sd d)) (x_head (sd d)) (x_wt (sd d))) by (destruct d; reflexivity).
    exists ls'. split. { unfold k_links. rewrite Eg. exact E'. } intros y w e' Hin.
    assert (Ha : larc (k_links (if d then k_fw kp else k_bw kp)) x e' y w). { exists ls'. split; auto. unfold k_links. rewrite Eg. exact E'. }
    apply kp_larc in Ha. destruct Ha as (e & He & _ & _ & ->). destruct (edge_n _ _ _ He) as (L1 & L2 & _). split; [auto|]. split; [apply (w0_small adj nodes up0 dn0 s HO)|].
    intros l Hl. eapply (elim_anc adj); eauto. eapply edge_In; eauto.
  Qed.
  (** an edge is kept if and only if it is a shortest walk *)
  Lemma kept_tight (d : bool) e x y w : edge nodes e x y -> (if d then A x y w else A y x w) -> kept (g_m d S) e = true <-> (if d then tight A x y w else tight A y x w).
  Proof using HK HR HL HF.
    intros He Ha. assert (Ew : w = w0 s d e).
    { pose proof (w0_arc adj order ranks nodes c HK up0 dn0 s HO d e x y He) as Hb. destruct d; apply (carc_fun _ _ _ _ _ HK _ _ _ _ _ Ha Hb). }
    destruct (edge_n _ _ _ He) as (L1 & L2 & _). rewrite (kept_iff d e x y He), <- Ew. destruct (HF x e y d ltac:(unfold n in *; lia) He) as [M1 M2].
    pose proof (mi_walk _ _ _ _ _ _ _ M1) as W. pose proof (mi_le _ _ _ _ _ _ _ M1) as L. rewrite <- Ew in L.
    unfold wk in W, M2. fold A in W, M2. destruct d; (split; [intros E; split; [auto|]; intros l Hl; rewrite <- E; apply M2; auto|intros [_ H]; specialize (H _ W); lia]).
  Qed.
  Lemma hop'_kept x y w : A x y w -> tight A x y w -> exists e', hop' x y e'.
  Proof using HK HR HL HF.
    intros [(L & e & He & Ew)|(L & e & He & Ew)] Ht.
    - exists (cnt (g_m true S) e). left. split; auto. exists e. split; auto. split; auto. apply (kept_tight true e x y w); auto. left. split; eauto.
    - exists (cnt (g_m false S) e). right. split; auto. exists e. split; auto. split; auto. apply (kept_tight false e y x w); auto. right. split; eauto.
  Qed.
  Lemma hop'_tight x y w e' : A x y w -> hop' x y e' -> tight A x y w.
  Proof using HK HR HL HF.
    intros Ha [(L & e & He & K & _)|(L & e & He & K & _)].
    - apply (kept_tight true e x y w); auto.
    - apply (kept_tight false e y x w); auto.
  Qed.
  Lemma perfect_spec x v e' w : A x v w -> hop' x v e' ->
    exists r, (if x <? v then unpack_edge (k_upu kp) (k_btail kp) e' else unpack_edge (k_dnu kp) (k_btail kp) e') = Some r /\
    match r with None => un x v None | Some (d, u, z) => un x v (Some z) /\ hop' x z d /\ hop' z v u end.
  Proof using HK HR HL HF.
    intros Ha Hh. pose proof (hop'_tight _ _ _ _ Ha Hh) as Ht. pose proof (nodes_len _ _ _ _ _ HK) as NL. fold n in NL. assert (Om : off nodes n = m) by (unfold m; rewrite <- NL; apply off_n).
    assert (G : forall uu i, nth_error uu e' = Some (mu i) -> unp_of nodes s x v i -> exists r, unpack_edge uu (k_btail kp) e' = Some r /\
      match r with None => un x v None | Some (d, u, z) => un x v (Some z) /\ hop' x z d /\ hop' z v u end).
    { intros uu i Eu Hu. unfold unpack_edge. rewrite Eu. cbn [bind].
      destruct (carc_case _ _ _ _ _ HK _ _ _ HO x v w _ Ha Hu) as [[-> _]|(z & e1 & e2 & -> & H1 & H2 & Ew & _)].
      - exists None. split; [reflexivity|exact Hu].
      - destruct (edge_n _ _ _ H1) as (B1 & B2 & B3), (edge_n _ _ _ H2) as (B4 & B5 & B6).
        assert (Xz : A x z (nth e1 (s_dn s) 0%N)) by (right; split; [lia|eauto]). assert (Zv : A z v (nth e2 (s_up s) 0%N)) by (left; split; [lia|eauto]).
        assert (T1 : tight A x z (nth e1 (s_dn s) 0%N)). { split; auto. intros l Hl. pose proof (proj2 Ht _ (walk_app _ _ _ _ _ _ Hl (walk_1 _ _ _ _ Zv))). lia. }
        assert (T2 : tight A z v (nth e2 (s_up s) 0%N)). { split; auto. intros l Hl. pose proof (proj2 Ht _ (walk_app _ _ _ _ _ _ (walk_1 _ _ _ _ Xz) Hl)). lia. }
        assert (K1 : kept (g_m false S) e1 = true) by (apply (kept_tight false e1 z x _ H1 Xz); auto). assert (K2 : kept (g_m true S) e2 = true) by (apply (kept_tight true e2 z v _ H2 Zv); auto).
        unfold mu, new_unp. cbn [fst snd option_map bind]. unfold new_id. rewrite K1, K2.
        assert (Et : nth_error (k_btail kp) (cnt (g_m false S) e1) = Some z).
        { change (k_btail kp) with (x_tail (sd false)). unfold sd. rewrite (rebuilt_tail n (off nodes) tl (gr false) (g_m false S) (us false) mu (side_ok false)) by (rewrite ?Om; auto).
          unfold tl. f_equal. apply nth_error_nth. apply (co_tail _ _ _ _ _ HK _ _ _ H1). }
        rewrite Et. cbn [bind]. eexists. split; [reflexivity|]. split; [exists e1, e2; auto|]. split; [right|left]; split; try lia; eauto. }
    destruct Hh as [(L & e & He & K & ->)|(L & e & He & K & ->)]; destruct (edge_n _ _ _ He) as (L1 & L2 & L3).
    - rewrite (proj2 (Nat.ltb_lt x v) L). apply (G _ (nth e (us true) no_unp)).
      + change (k_upu kp) with (x_unp (sd true)). unfold sd. apply (rebuilt_unp n (off nodes) tl (gr true) (g_m true S) (us true) mu (side_ok true)); auto. rewrite Om. auto.
      + left. split; [auto|]. exists e. auto.
    - rewrite (proj2 (Nat.ltb_ge x v)) by lia. apply (G _ (nth e (us false) no_unp)).
      + change (k_dnu kp) with (x_unp (sd false)). unfold sd. apply (rebuilt_unp n (off nodes) tl (gr false) (g_m false S) (us false) mu (side_ok false)); auto. rewrite Om. auto.
      + right. split; [auto|]. exists e. auto.
  Qed.

  Lemma perfect_view : view adj order ranks madj kp A un hop'.
  Proof using HK HT HV HR HL HF.
    pose proof (basic_view adj order ranks nodes c HK madj HT HV up0 dn0 s k HR) as BV. fold A un in BV.
    assert (NN : num_nodes (k_fw kp) = n). { unfold num_nodes, kp, perfect_cust, sd, side_at. cbn [k_fw first_out x_fo]. rewrite map_length, seq_length. lia. }
    constructor; try (apply BV; fail).
    - reflexivity.
    - reflexivity.
    - exact NN.
    - apply (elim_len adj order ranks nodes c HK).
    - apply (elim_par adj order ranks nodes c HK).
    - apply (kp_up true).
    - apply (kp_up false).
    - intros x e y w H. apply (kp_larc true) in H. destruct H as (e0 & He & K & -> & ->). destruct (edge_n _ _ _ He) as (L1 & L2 & _).
      split; [split; [lia|]; left; split; [lia|eauto]|left; split; [lia|eauto]].
    - intros x y w [L H] Ht. destruct H as [(_ & e & He & ->)|(L' & _)]; [|lia]. exists (cnt (g_m true S) e). apply (kp_larc true). exists e. split; auto. split; [|auto].
      apply (kept_tight true e x y (nth e (s_up s) 0%N)); auto. left. split; [lia|eauto].
    - intros x e y w H. apply (kp_larc false) in H. destruct H as (e0 & He & K & -> & ->). destruct (edge_n _ _ _ He) as (L1 & L2 & _).
      split; [split; [lia|]; right; split; [lia|eauto]|right; split; [lia|eauto]].
    - intros x y w [L H] Ht. destruct H as [(L' & _)|(_ & e & He & ->)]; [lia|]. exists (cnt (g_m false S) e). apply (kp_larc false). exists e. split; auto. split; [|auto].
      assert (Ha : A y x (nth e (s_dn s) 0%N)) by (right; split; [lia|eauto]). apply (kept_tight false e x y (nth e (s_dn s) 0%N)); auto.
      split; auto. intros l Hl. apply Ht. apply walk_flip. auto.
    - apply perfect_spec.
  Qed.
  (** the entries themselves, with the tails of both graphs *)
  Definition perfect_tail : list nat := x_tail (sd true).
  Lemma perfect_raw x v e' w : A x v w -> hop' x v e' ->
    exists r, (if x <? v then nth_error (k_upu kp) e' else nth_error (k_dnu kp) e') = Some r /\
    (r = (None, None) /\ un x v None \/ exists d u z, r = (Some d, Some u) /\ un x v (Some z) /\ hop' x z d /\ hop' z v u /\ nth_error perfect_tail u = Some z /\ nth_error (k_btail kp) d = Some z).
  Proof using HK HR HL HF.
    intros Ha Hh. pose proof (hop'_tight _ _ _ _ Ha Hh) as Ht. pose proof (nodes_len _ _ _ _ _ HK) as NL. fold n in NL. assert (Om : off nodes n = m) by (unfold m; rewrite <- NL; apply off_n).
    assert (G : forall i, unp_of nodes s x v i -> mu i = (None, None) /\ un x v None \/ exists d u z, mu i = (Some d, Some u) /\ un x v (Some z) /\ hop' x z d /\ hop' z v u /\ nth_error perfect_tail u = Some z /\ nth_error (k_btail kp) d = Some z).
    { intros i Hu. destruct (carc_case _ _ _ _ _ HK _ _ _ HO x v w _ Ha Hu) as [[-> _]|(z & e1 & e2 & -> & H1 & H2 & Ew & _)].
      - left. split; [reflexivity|exact Hu].
      - right. destruct (edge_n _ _ _ H1) as (B1 & B2 & B3), (edge_n _ _ _ H2) as (B4 & B5 & B6).
        assert (Xz : A x z (nth e1 (s_dn s) 0%N)) by (right; split; [lia|eauto]). assert (Zv : A z v (nth e2 (s_up s) 0%N)) by (left; split; [lia|eauto]).
        assert (T1 : tight A x z (nth e1 (s_dn s) 0%N)). { split; auto. intros l Hl. pose proof (proj2 Ht _ (walk_app _ _ _ _ _ _ Hl (walk_1 _ _ _ _ Zv))). lia. }
        assert (T2 : tight A z v (nth e2 (s_up s) 0%N)). { split; auto. intros l Hl. pose proof (proj2 Ht _ (walk_app _ _ _ _ _ _ (walk_1 _ _ _ _ Xz) Hl)). lia. }
        assert (K1 : kept (g_m false S) e1 = true) by (apply (kept_tight false e1 z x _ H1 Xz); auto). assert (K2 : kept (g_m true S) e2 = true) by (apply (kept_tight true e2 z v _ H2 Zv); auto).
        unfold mu, new_unp. cbn [fst snd option_map bind]. unfold new_id. rewrite K1, K2.
        exists (cnt (g_m false S) e1), (cnt (g_m true S) e2), z. split; [reflexivity|]. split; [exists e1, e2; auto|]. split; [right; split; [lia|eauto]|]. split; [left; split; [lia|eauto]|]. split.
        + unfold perfect_tail, sd. rewrite (rebuilt_tail n (off nodes) tl (gr true) (g_m true S) (us true) mu (side_ok true)) by (rewrite ?Om; auto).
          unfold tl. f_equal. apply nth_error_nth. apply (co_tail _ _ _ _ _ HK _ _ _ H2).
        + change (k_btail kp) with (x_tail (sd false)). unfold sd. rewrite (rebuilt_tail n (off nodes) tl (gr false) (g_m false S) (us false) mu (side_ok false)) by (rewrite ?Om; auto).
          unfold tl. f_equal. apply nth_error_nth. apply (co_tail _ _ _ _ _ HK _ _ _ H1). }
    destruct Hh as [(L & e & He & K & ->)|(L & e & He & K & ->)]; destruct (edge_n _ _ _ He) as (L1 & L2 & L3).
    - rewrite (proj2 (Nat.ltb_lt x v) L). exists (mu (nth e (us true) no_unp)). split.
      + change (k_upu kp) with (x_unp (sd true)). unfold sd. apply (rebuilt_unp n (off nodes) tl (gr true) (g_m true S) (us true) mu (side_ok true)); auto. rewrite Om. auto.
      + apply G. left. split; [auto|]. exists e. auto.
    - rewrite (proj2 (Nat.ltb_ge x v)) by lia. exists (mu (nth e (us false) no_unp)). split.
      + change (k_dnu kp) with (x_unp (sd false)). unfold sd. apply (rebuilt_unp n (off nodes) tl (gr false) (g_m false S) (us false) mu (side_ok false)); auto. rewrite Om. auto.
      + apply G. right. split; [auto|]. exists e. auto.
  Qed.
  (** the weight of an arc is stored under its id *)
  Lemma perfect_weight (d : bool) x y e' w : (if d then A x y w else A y x w) -> (if d then hop' x y e' else hop' y x e') -> x < y -> larc (k_links (if d then k_fw kp else k_bw kp)) x e' y w.
  Proof using HK HR HL HF.
    intros Ha Hh L. apply kp_larc. destruct d.
    - destruct Hh as [(_ & e & He & Kk & ->)|(L' & _)]; [|lia]. exists e. split; auto. split; auto. split; auto.
      apply (carc_fun _ _ _ _ _ HK _ _ _ _ _ Ha). apply (w0_arc adj order ranks nodes c HK up0 dn0 s HO true e x y He).
    - destruct Hh as [(L' & _)|(_ & e & He & Kk & ->)]; [lia|]. exists e. split; auto. split; auto. split; auto.
      apply (carc_fun _ _ _ _ _ HK _ _ _ _ _ Ha). apply (w0_arc adj order ranks nodes c HK up0 dn0 s HO false e x y He).
  Qed.
End PerfectView.
