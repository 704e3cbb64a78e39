(** Customized contraction hierarchies are hierarchies in the sense of SpecCH. *)
From Verif Require Import Base Graph SpecGraph SpecCCH SpecCH Dijkstra LoopProof BitVec CCH CCHTheory CCHPathTheory CCHContractProof CCHBuildProof CCHMetricProof CCHQuery CCHQueryProof CCHPathProof CCHViewProof CCHPotProof.

Lemma garc_uarc (g : fograph N) x y w : garc (link_iter g) x y w <-> uarc (k_links g) x y w.
Proof.
  unfold garc, uarc, larc, garc_ids, k_links, link_iter, link_iter_ids. destruct (range g x) as [[a b]|]; cbn [bind].
  2: { split; [intros (? & [=] & _)|intros (? & ? & [=] & _)]. }
  destruct (slice (head g) a b) as [h|] eqn:Eh; cbn [bind].
  2: { split; [intros (? & [=] & _)|intros (? & ? & [=] & _)]. }
  destruct (slice (weight g) a b) as [ws|] eqn:Ew; cbn [bind].
  2: { split; [intros (? & [=] & _)|intros (? & ? & [=] & _)]. }
  assert (L : length (combine h ws) <= length (seq a (b - a))).
  { rewrite seq_length, combine_length. unfold slice in Eh. destruct (andb _ _); [|discriminate]. injection Eh as <-. rewrite firstn_length. lia. }
  split.
  - intros (l & [= <-] & H). apply In_nth_error in H as (i & Hi). destruct (nth_error_lt (seq a (b - a)) i) as (e & He). { apply nth_error_Some_lt in Hi. lia. }
    exists e. eexists. split; [reflexivity|]. revert Hi He. generalize (combine h ws) as p, (seq a (b - a)) as q. clear. induction i as [|i IH]; intros [|c p] [|d q]; cbn; try discriminate.
    + intros [= ->] [= ->]. left; auto.
    + intros H1 H2. right. eauto.
  - intros (e & l & [= <-] & H). eexists. split; [reflexivity|]. apply in_combine_l in H. auto.
Qed.

Section View.
  Variable adj : list (list (nat * N)).
  Variables order ranks : list nat.
  Variable madj : list (list (nat * N)).
  Variable k : customized.
  Variable A : nat -> nat -> N -> Prop.
  Variable un : nat -> nat -> option nat -> Prop.
  Variable hop : nat -> nat -> nat -> Prop.
  Hypothesis HW : view adj order ranks madj k A un hop.
  Let n := length adj.
  Let M := adj_arc madj.

  Lemma vorder_of x : x < n -> exists u, nth_error order x = Some u.
  Proof using HW. intros Hx. destruct (v_order _ _ _ _ _ _ _ _ HW) as (L1 & _). apply nth_error_lt. unfold n in Hx. lia. Qed.

  Lemma varc_walk : forall b x y w u v, Nat.min x y < b -> A x y w -> (w < INF)%N -> nth_error order x = Some u -> nth_error order y = Some v -> walk M u v w.
  Proof using HW.
    induction b as [|b IH]; intros x y w u v Hb Ha Hw Eu Ev; [lia|].
    destruct (v_une _ _ _ _ _ _ _ _ HW x y w Ha) as ([z|] & Hu).
    - destruct (un_mid (v_unp _ _ _ _ _ _ _ _ HW) x y w z Ha Hu) as (Lx & Ly & (w1 & w2 & A1 & A2 & ->) & _).
      destruct (vorder_of z) as (t & Et). { apply (v_dom _ _ _ _ _ _ _ _ HW) in A2. unfold n. tauto. }
      apply walk_app with (v := t); [apply (IH x z)|apply (IH z y)]; auto; lia.
    - apply walk_arc. eapply (v_orig _ _ _ _ _ _ _ _ HW); eauto.
  Qed.
  Lemma vwalk_walk x y l u v : walk A x y l -> (l < INF)%N -> nth_error order x = Some u -> nth_error order y = Some v -> walk M u v l.
  Proof using HW.
    intros H. revert u. induction H as [x|x z y w l Ha Hw IH]; intros u Hl Eu Ev. { rewrite Eu in Ev. injection Ev as <-. constructor. }
    destruct (vorder_of z) as (t & Et). { apply (v_dom _ _ _ _ _ _ _ _ HW) in Ha. unfold n. tauto. }
    apply walk_app with (v := t). { eapply (varc_walk (S (Nat.min x z))); eauto. lia. } apply IH; auto. lia.
  Qed.

  Lemma view_upward g : up_graph n (k_elim k) (k_links g) -> upward n (link_iter g).
  Proof using HW.
    intros H x Hx. destruct (H x Hx) as (ls & E & HL). apply link_iter_of_ids in E as E'. exists (map fst ls). split; auto.
    intros v w Hin. apply in_map_iff in Hin as ([[v' w'] e] & E1 & Hin). cbn in E1. injection E1 as -> ->.
    destruct (HL _ _ _ Hin) as (L1 & L2 & L3). split; auto. split; auto.
    pose proof (v_eliml _ _ _ _ _ _ _ _ HW) as elim_len. pose proof (v_elim _ _ _ _ _ _ _ _ HW) as elim_par. fold n in elim_len, elim_par.
    destruct (rpath_ex n (k_elim k) elim_len elim_par x Hx) as (l & Hl). pose proof (rpath_lt n (k_elim k) elim_len elim_par x l Hl v (L3 l Hl)). lia.
  Qed.

  Lemma view_hierarchy : hierarchy n M order ranks (link_iter (k_fw k)) (link_iter (k_bw k)).
  Proof using HW.
    pose proof (v_fw _ _ _ _ _ _ _ _ HW) as FU. pose proof (v_bw _ _ _ _ _ _ _ _ HW) as BU. fold n in FU, BU.
    pose proof (v_eliml _ _ _ _ _ _ _ _ HW) as elim_len. pose proof (v_elim _ _ _ _ _ _ _ _ HW) as elim_par. fold n in elim_len, elim_par.
    destruct (v_order _ _ _ _ _ _ _ _ HW) as (O1 & O2 & O3 & O4).
    constructor.
    - apply (v_order _ _ _ _ _ _ _ _ HW).
    - apply view_upward; auto.
    - apply view_upward; auto.
    - intros x y u v l Ex Ey (m & a & b & Wa & Wb & ->) Hl. apply (vwalk_walk x y); auto. apply walk_app with (v := m).
      + revert Wa. apply walk_mono. intros p q w H. apply garc_uarc in H as (e & H). apply (v_fl _ _ _ _ _ _ _ _ HW) in H as ((_ & H) & _). exact H.
      + apply walk_flip_iff. revert Wb. apply walk_mono. intros p q w H. apply garc_uarc in H as (e & H). apply (v_bl _ _ _ _ _ _ _ _ HW) in H as ((_ & H) & _). exact H.
    - intros x y u v l Ex Ey Wl Hl.
      assert (Hx : x < n) by (apply nth_error_Some_lt in Ex; unfold n; lia). assert (Hy : y < n) by (apply nth_error_Some_lt in Ey; unfold n; lia).
      destruct (cq_run_ok n (k_elim k) elim_len elim_par _ _ FU BU x y Hx Hy (repeat INF n) (repeat INF n) (repeat (0, 0) n) (repeat (0, 0) n)) as ([[[f b] tent] meet] & E & Q);
        try (apply repeat_length); try (intros z Hz; rewrite nth_error_repeat, (proj2 (Nat.ltb_lt z n) Hz); auto).
      destruct (query_exact n (k_elim k) elim_len elim_par _ _ FU BU x y Hx Hy _ _ _ _ Q) as (X1 & X2 & X3).
      assert (AM : forall l, walk A x y l -> (tent <= l)%N).
      { apply tight_meets. { apply (un_tri (v_unp _ _ _ _ _ _ _ _ HW)). } intros z a b' Wa Wb. apply X2. exists z, a, b'. split; [|split; [|reflexivity]].
        - revert Wa. apply walk_mono. intros p q w [H1 H2]. apply (v_fu _ _ _ _ _ _ _ _ HW); auto.
        - revert Wb. apply walk_mono. intros p q w [H1 H2]. apply (v_bu _ _ _ _ _ _ _ _ HW); auto. }
      destruct (v_walk _ _ _ _ _ _ _ _ HW _ _ _ _ _ Wl Ex Ey) as (l' & Hl' & Ll). pose proof (AM _ Hl') as T.
      exists tent. split; [|lia]. destruct X3 as (m & a & b' & Wa & Wb & Et). { lia. }
      exists m, a, b'. split; [|split; [|auto]].
      + revert Wa. apply walk_mono. intros p q w H. apply garc_uarc. exact H.
      + revert Wb. apply walk_mono. intros p q w H. apply garc_uarc. exact H.
  Qed.
End View.
