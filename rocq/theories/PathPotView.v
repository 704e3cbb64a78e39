(** The path potentials of perfect customizations. *)
From Verif Require Import Base BitVec Graph GraphProof SpecGraph SpecCCH CCH CCHTheory CCHPathTheory CCHContractProof CCHBuildProof CCHCustProof CCHMetricProof Dijkstra CCHQuery CCHQueryProof CCHViewProof CCHServerProof SepTree CCHPerfect CCHPerfectProof CCHRebuild CCHRebuildProof CCHPerfectView CCHPot CCHPotProof PathPot SpecPathPot PathPotProof UBSScanProof.

Lemma nth_error_combine {X Y} (l : list X) (l' : list Y) i p : nth_error (combine l l') i = Some p -> nth_error l i = Some (fst p) /\ nth_error l' i = Some (snd p).
Proof. revert l' i. induction l as [|a l IH]; intros [|b l'] [|i]; cbn; try discriminate. { intros E. injection E as <-. auto. } apply IH. Qed.
Lemma larc_weight (g : fograph N) x e y w : larc (k_links g) x e y w -> nth_error (weight g) e = Some w.
Proof.
  unfold larc, garc_ids, k_links, link_iter_ids. intros (ls & E & Hin). destruct (range g x) as [[a b]|]; cbn [bind] in E; [|discriminate].
  destruct (slice (head g) a b) as [h|] eqn:Eh; cbn [bind] in E; [|discriminate]. destruct (slice (weight g) a b) as [ws|] eqn:Ew; cbn [bind] in E; [|discriminate]. injection E as <-.
  apply In_nth_error in Hin. destruct Hin as (i & Hi). apply nth_error_combine in Hi. cbn [fst snd] in Hi. destruct Hi as [Hi Hs]. apply nth_error_combine in Hi. cbn [fst snd] in Hi. destruct Hi as [_ Hw].
  pose proof (nth_error_Some_lt _ _ _ Hs) as L. rewrite seq_length in L. rewrite (nth_error_nth' _ 0) in Hs by (rewrite seq_length; auto). rewrite seq_nth in Hs by auto. injection Hs as <-.
  unfold slice in Ew. destruct (_ && _)%bool; cbn in Ew; [|discriminate]. injection Ew as <-. rewrite nth_error_slice in Hw. destruct (i <? b - a); [auto|discriminate].
Qed.

Lemma in_nth_list {X} (l : list (list X)) i x : In x (nth i l []) -> In (nth i l []) l.
Proof. intros H. apply nth_In. destruct (Nat.lt_ge_cases i (length l)); auto. rewrite nth_overflow in H by auto. destruct H. Qed.

Section PathView.
  Variable adj : list (list (nat * N)).
  Variables order ranks : list nat.
  Variable nodes : list (list nat).
  Variable c : cch.
  Hypothesis HK : cch_ok adj order ranks nodes c.
  Variable madj : list (list (nat * N)).
  Hypothesis HT : same_topology adj madj.
  Hypothesis HV : valid_adj madj.
  Variables up0 dn0 : list N.
  Variable s : cst.
  Variable k : customized.
  Hypothesis HR : cust_result adj order ranks nodes c madj up0 dn0 s k.
  Variable S : pshared.
  Hypothesis HL : glens nodes S.
  Hypothesis HF : cell_fin nodes s 0 (length adj) S.
  Hypothesis Hpos : positive madj.
  Notation n := (length adj).
  Notation kp := (perfect_cust adj order ranks nodes c s S).
  Notation ft := (perfect_tail adj nodes c s S).
  Notation A := (carc nodes s).
  Notation un := (un_of nodes s).
  Notation hop := (hop' nodes S).
  Notation M := (rank_arc order (adj_arc madj)).
  Let HW := perfect_view adj order ranks nodes c HK madj HT HV up0 dn0 s k HR S HL HF.

  Lemma order_at x : x < n -> exists u, nth_error order x = Some u.
  Proof. intros Hx. destruct (v_order _ _ _ _ _ _ _ _ HW) as (L1 & _). apply nth_error_lt. lia. Qed.
  Lemma order_lt x u : nth_error order x = Some u -> x < n.
  Proof. intros E. apply nth_error_Some_lt in E. destruct (v_order _ _ _ _ _ _ _ _ HW) as (L1 & _). lia. Qed.
  Lemma walk_rank x y l u v : nth_error order x = Some u -> nth_error order y = Some v -> walk (adj_arc madj) u v l <-> walk M x y l.
  Proof.
    destruct (v_order _ _ _ _ _ _ _ _ HW) as (L1 & L2 & O1 & O2). intros Eu Ev. split.
    - intros W. revert x Eu. induction W as [u|u q v w l Ha Hw IH]; intros x Eu.
      + apply O1 in Eu, Ev. rewrite Eu in Ev. injection Ev as <-. constructor.
      + assert (Hq : exists z, nth_error order z = Some q).
        { assert (Lq : q < n). { assert (Lm : length madj = n) by (pose proof (f_equal (@length _) HT) as Q; rewrite !map_length in Q; auto). rewrite <- Lm. unfold adj_arc in Ha. eapply HV; [|exact Ha]. eapply in_nth_list; eauto. }
          destruct (vrank_of _ _ _ _ _ _ _ _ HW q Lq) as (z & _ & _ & Ez). eauto. }
        destruct Hq as (z & Ez). econstructor; [exists u, q; eauto|]. apply IH; auto.
    - intros W. revert u Eu. induction W as [x|x z y w l Ha Hw IH]; intros u Eu.
      + rewrite Eu in Ev. injection Ev as <-. constructor.
      + destruct Ha as (u' & q & E1 & E2 & Ha). rewrite Eu in E1. injection E1 as <-. econstructor; eauto.
  Qed.
  Lemma A_ne x y w : A x y w -> x <> y.
  Proof. intros [(L & _)|(L & _)]; lia. Qed.
  Lemma A_pos x y w : A x y w -> (0 < w)%N.
  Proof.
    intros Ha. destruct (N.lt_ge_cases w INF) as [L|L]; [|unfold INF in L; lia]. destruct (v_dom _ _ _ _ _ _ _ _ HW _ _ _ Ha) as [Hx Hy].
    destruct (order_at x Hx) as (u & Eu), (order_at y Hy) as (v & Ev). pose proof (view_walk _ _ _ _ _ _ _ _ HW x y w (walk_arc _ _ _ _ Ha) L u v Eu Ev) as W.
    inversion W as [|? q ? w1 l Hq]; subst. { exfalso. apply (A_ne _ _ _ Ha). destruct (v_order _ _ _ _ _ _ _ _ HW) as (_ & _ & O1 & _). apply O1 in Eu, Ev. congruence. }
    pose proof (Hpos _ _ _ (in_nth_list _ _ _ Hq) Hq). lia.
  Qed.
  Lemma A_mid x y w z : A x y w -> un x y (Some z) -> z < x /\ z < y /\ exists w1 w2, A x z w1 /\ A z y w2 /\ w = (w1 + w2)%N.
  Proof. intros Ha Hu. destruct (un_mid (v_unp _ _ _ _ _ _ _ _ HW) _ _ _ _ Ha Hu) as (L1 & L2 & H & _). auto. Qed.
  Lemma A_fun x y w w' : A x y w -> A x y w' -> w = w'.
  Proof. apply (carc_fun _ _ _ _ _ HK). Qed.

  Notation PSf := (PS n (k_elim kp) (k_fw kp) (k_bw kp) A un hop (k_upu kp) (k_dnu kp) ft false).
  Notation PSb := (PS n (k_elim kp) (k_bw kp) (k_fw kp) (flip_arc A) (fun x y => un y x) (fun x y => hop y x) (k_dnu kp) (k_upu kp) (k_btail kp) true).

  Lemma spec_f x v e w : A x v w -> hop x v e -> exists r, (if x <? v then nth_error (k_upu kp) e else nth_error (k_dnu kp) e) = Some r /\
    (r = (None, None) /\ un x v None \/ exists d u z w2, r = (Some d, Some u) /\ nth_error ft u = Some z /\ un x v (Some z) /\ hop x z d /\ hop z v u /\
      A z v w2 /\ (z < v -> nth_error (weight (k_fw kp)) u = Some w2)).
  Proof.
    intros Ha Hh. destruct (perfect_raw adj order ranks nodes c HK madj up0 dn0 s k HR S HL HF x v e w Ha Hh) as (r & E & [H|(d & u & z & -> & Hu & H1 & H2 & H3 & H4)]).
    { exists r. auto. }
    eexists. split; [exact E|]. right. destruct (A_mid _ _ _ _ Ha Hu) as (L1 & L2 & w1 & w2 & A1 & A2 & _). exists d, u, z, w2. do 6 (split; [auto|]). intros _.
    apply (larc_weight _ z u v). apply (perfect_weight adj order ranks nodes c HK madj up0 dn0 s k HR S HL HF true); auto.
  Qed.
  Lemma spec_b x v e w : A v x w -> hop v x e -> exists r, (if x <? v then nth_error (k_dnu kp) e else nth_error (k_upu kp) e) = Some r /\
    (r = (None, None) /\ un v x None \/ exists d u z w2, (snd r, fst r) = (Some d, Some u) /\ nth_error (k_btail kp) u = Some z /\ un v x (Some z) /\ hop z x d /\ hop v z u /\
      A v z w2 /\ (z < v -> nth_error (weight (k_bw kp)) u = Some w2)).
  Proof.
    intros Ha Hh. destruct (perfect_raw adj order ranks nodes c HK madj up0 dn0 s k HR S HL HF v x e w Ha Hh) as (r & E & H).
    assert (E' : (if x <? v then nth_error (k_dnu kp) e else nth_error (k_upu kp) e) = Some r).
    { rewrite <- E. pose proof (A_ne _ _ _ Ha). destruct (Nat.ltb_spec x v), (Nat.ltb_spec v x); auto; lia. }
    exists r. split; auto. destruct H as [H|(d & u & z & -> & Hu & H1 & H2 & H3 & H4)]; [auto|]. right. destruct (A_mid _ _ _ _ Ha Hu) as (L1 & L2 & w1 & w2 & A1 & A2 & _). exists u, d, z, w1. do 6 (split; [auto|]). intros _.
    apply (larc_weight _ z d v). apply (perfect_weight adj order ranks nodes c HK madj up0 dn0 s k HR S HL HF false); auto.
  Qed.

  Lemma orig_f x y w : A x y w -> un x y None -> (w < INF)%N -> M x y w.
  Proof.
    intros Ha Hu L. destruct (v_dom _ _ _ _ _ _ _ _ HW _ _ _ Ha) as [Hx Hy]. destruct (order_at x Hx) as (u & Eu), (order_at y Hy) as (v & Ev). exists u, v. split; auto. split; auto.
    eapply (v_orig _ _ _ _ _ _ _ _ HW); eauto.
  Qed.
  Lemma w1_f x y l : walk M x y l -> x < n -> y < n -> exists l', walk A x y l' /\ (l' <= l)%N.
  Proof.
    intros W Hx Hy. destruct (order_at x Hx) as (u & Eu), (order_at y Hy) as (v & Ev). apply (walk_rank _ _ _ _ _ Eu Ev) in W. apply (v_walk _ _ _ _ _ _ _ _ HW _ _ _ _ _ W); auto.
  Qed.
  Lemma w2_f x y l : walk A x y l -> x < n -> y < n -> (l < INF)%N -> walk M x y l.
  Proof.
    intros W Hx Hy L. destruct (order_at x Hx) as (u & Eu), (order_at y Hy) as (v & Ev). apply (walk_rank _ _ _ _ _ Eu Ev). eapply view_walk; eauto.
  Qed.

  Lemma f_fl x e y w : larc (k_links (k_fw kp)) x e y w -> A x y w /\ hop x y e.
  Proof. intros H. apply (v_fl _ _ _ _ _ _ _ _ HW) in H. destruct H as [[_ H] H']. auto. Qed.
  Lemma f_bl x e y w : larc (k_links (k_bw kp)) x e y w -> A y x w /\ hop y x e.
  Proof. intros H. apply (v_bl _ _ _ _ _ _ _ _ HW) in H. destruct H as [[_ H] H']. auto. Qed.

  Lemma num_kp : num_nodes (k_fw kp) = n.
  Proof. apply (v_num _ _ _ _ _ _ _ _ HW). Qed.
  Lemma new_f : PSf (pp_forward (kp, ft)) None.
  Proof. split; [|discriminate]. unfold pp_base, pp_forward. cbn [fst snd pp_fw pp_bw pp_elim pp_fu pp_bu pp_ft pp_flip pp_pots pp_bd pp_par pp_un]. rewrite !repeat_length, num_kp. intuition. Qed.
  Lemma new_b : PSb (pp_backward (kp, ft)) None.
  Proof. split; [|discriminate]. unfold pp_base, pp_backward. cbn [fst snd pp_fw pp_bw pp_elim pp_fu pp_bu pp_ft pp_flip pp_pots pp_bd pp_par pp_un]. rewrite !repeat_length, num_kp. intuition. Qed.

  Lemma hist_f dbg ops p o : PSf p o -> pp_ops_ok n M o ops -> exists p', pp_history dbg p ops = Some p' /\ PSf p' (pp_target o ops).
  Proof.
    apply history_ok.
    - apply (v_eliml _ _ _ _ _ _ _ _ HW).
    - apply (v_elim _ _ _ _ _ _ _ _ HW).
    - apply (v_fw _ _ _ _ _ _ _ _ HW).
    - apply (v_bw _ _ _ _ _ _ _ _ HW).
    - apply (v_dom _ _ _ _ _ _ _ _ HW).
    - apply f_fl.
    - apply f_bl.
    - apply A_pos.
    - apply A_fun.
    - apply A_mid.
    - apply spec_f.
    - apply (un_tri (v_unp _ _ _ _ _ _ _ _ HW)).
    - apply (v_fu _ _ _ _ _ _ _ _ HW).
    - apply (v_bu _ _ _ _ _ _ _ _ HW).
    - apply orig_f.
    - apply w1_f.
    - apply w2_f.
  Qed.
  Lemma ans_f dbg p t x : PSf p (Some t) -> x < n -> path_answer dbg n M p x t.
  Proof.
    apply answer_ok.
    all: try solve [apply (v_eliml _ _ _ _ _ _ _ _ HW) | apply (v_elim _ _ _ _ _ _ _ _ HW) | apply (v_fw _ _ _ _ _ _ _ _ HW) | apply (v_bw _ _ _ _ _ _ _ _ HW) | apply (v_dom _ _ _ _ _ _ _ _ HW)
      | exact f_fl | exact f_bl | exact A_pos | exact A_fun | exact A_mid | exact spec_f | apply (un_tri (v_unp _ _ _ _ _ _ _ _ HW)) | apply (v_fu _ _ _ _ _ _ _ _ HW) | apply (v_bu _ _ _ _ _ _ _ _ HW) | exact orig_f | exact w1_f | exact w2_f].
  Qed.
  (** *** Backwards *)
  Lemma b_mid x y w z : flip_arc A x y w -> un y x (Some z) -> z < x /\ z < y /\ exists w1 w2, flip_arc A x z w1 /\ flip_arc A z y w2 /\ w = (w1 + w2)%N.
  Proof. intros Ha Hu. destruct (A_mid _ _ _ _ Ha Hu) as (L1 & L2 & w1 & w2 & A1 & A2 & ->). split; auto. split; auto. exists w2, w1. split; auto. split; auto. lia. Qed.
  Lemma b_dom x y w : flip_arc A x y w -> x < n /\ y < n.
  Proof. intros H. apply (v_dom _ _ _ _ _ _ _ _ HW) in H. tauto. Qed.
  Lemma b_pos x y w : flip_arc A x y w -> (0 < w)%N.
  Proof. apply A_pos. Qed.
  Lemma b_fun x y w w' : flip_arc A x y w -> flip_arc A x y w' -> w = w'.
  Proof. apply A_fun. Qed.
  Lemma b_fl x e y w : larc (k_links (k_bw kp)) x e y w -> flip_arc A x y w /\ hop y x e.
  Proof. apply f_bl. Qed.
  Lemma b_bl x e y w : larc (k_links (k_fw kp)) x e y w -> flip_arc A y x w /\ hop x y e.
  Proof. apply f_fl. Qed.
  Lemma b_orig x y w : flip_arc A x y w -> un y x None -> (w < INF)%N -> flip_arc M x y w.
  Proof. apply orig_f. Qed.
  Lemma b_w1 x y l : walk (flip_arc M) x y l -> x < n -> y < n -> exists l', walk (flip_arc A) x y l' /\ (l' <= l)%N.
  Proof. intros W Hx Hy. apply walk_flip_iff in W. destruct (w1_f _ _ _ W Hy Hx) as (l' & W' & L). exists l'. split; auto. apply walk_flip_iff. exact W'. Qed.
  Lemma b_w2 x y l : walk (flip_arc A) x y l -> x < n -> y < n -> (l < INF)%N -> walk (flip_arc M) x y l.
  Proof. intros W Hx Hy L. apply walk_flip_iff in W. apply walk_flip_iff. apply w2_f; auto. Qed.
  Lemma b_tf x y w : upa (flip_arc (flip_arc A)) x y w -> tight (flip_arc (flip_arc A)) x y w -> uarc (k_links (k_fw kp)) x y w.
  Proof. apply (v_fu _ _ _ _ _ _ _ _ HW). Qed.
  Lemma hist_b dbg ops p o : PSb p o -> pp_ops_ok n (flip_arc M) o ops -> exists p', pp_history dbg p ops = Some p' /\ PSb p' (pp_target o ops).
  Proof.
    apply history_ok.
    all: try solve [apply (v_eliml _ _ _ _ _ _ _ _ HW) | apply (v_elim _ _ _ _ _ _ _ _ HW) | apply (v_fw _ _ _ _ _ _ _ _ HW) | apply (v_bw _ _ _ _ _ _ _ _ HW) | exact b_dom
      | exact b_fl | exact b_bl | exact b_pos | exact b_fun | exact b_mid | exact spec_b | apply flip_closed, (un_tri (v_unp _ _ _ _ _ _ _ _ HW)) | exact b_tf | apply (v_bu _ _ _ _ _ _ _ _ HW) | exact b_orig | exact b_w1 | exact b_w2].
  Qed.
  Lemma ans_b dbg p t x : PSb p (Some t) -> x < n -> path_answer dbg n (flip_arc M) p x t.
  Proof.
    apply answer_ok.
    all: try solve [apply (v_eliml _ _ _ _ _ _ _ _ HW) | apply (v_elim _ _ _ _ _ _ _ _ HW) | apply (v_fw _ _ _ _ _ _ _ _ HW) | apply (v_bw _ _ _ _ _ _ _ _ HW) | exact b_dom
      | exact b_fl | exact b_bl | exact b_pos | exact b_fun | exact b_mid | exact spec_b | apply flip_closed, (un_tri (v_unp _ _ _ _ _ _ _ _ HW)) | exact b_tf | apply (v_bu _ _ _ _ _ _ _ _ HW) | exact b_orig | exact b_w1 | exact b_w2].
  Qed.
  (** *** Trees *)
  Definition tree_for (dbg : bool) (O : nat -> nat -> N -> Prop) (I : ppot -> Prop) : Prop :=
    forall t p, t < n -> I p -> exists p' D (K : ppot -> Prop), pp_init p t = Some p' /\ K p' /\ (forall q, K q -> I q) /\
    forall x l, x < n -> walk O x t l -> (l < INF)%N -> is_dist O x t (D x) /\
      (forall q, K q -> exists q', pp_dist q x = Some (q', D x) /\ K q' /\ forall v u, gpp q v = Some u -> gpp q' v = Some u) /\
      (forall q, K q -> exists q' path, pp_path dbg q x = Some q' /\ K q' /\ (forall v u, gpp q v = Some u -> gpp q' v = Some u) /\ tpath n O t D (gpp q') x path).
  Definition base_f : ppot -> Prop := pp_base n (k_elim kp) (k_fw kp) (k_bw kp) (k_upu kp) (k_dnu kp) ft false.
  Definition base_b : ppot -> Prop := pp_base n (k_elim kp) (k_bw kp) (k_fw kp) (k_dnu kp) (k_upu kp) (k_btail kp) true.
  Lemma tree_f dbg : tree_for dbg M base_f.
  Proof.
    intros t p Ht Hp. destruct (target_ok n (k_elim kp) (v_eliml _ _ _ _ _ _ _ _ HW) (v_elim _ _ _ _ _ _ _ _ HW) (k_fw kp) (k_bw kp) (v_fw _ _ _ _ _ _ _ _ HW) (v_bw _ _ _ _ _ _ _ _ HW) A un hop (v_dom _ _ _ _ _ _ _ _ HW) f_fl f_bl A_pos A_fun A_mid
      (k_upu kp) (k_dnu kp) ft false spec_f (un_tri (v_unp _ _ _ _ _ _ _ _ HW)) (v_fu _ _ _ _ _ _ _ _ HW) (v_bu _ _ _ _ _ _ _ _ HW) M orig_f w1_f w2_f dbg t p Ht Hp) as (p' & D & H). exists p', D. eexists. exact H.
  Qed.
  Lemma tree_b dbg : tree_for dbg (flip_arc M) base_b.
  Proof.
    intros t p Ht Hp. destruct (target_ok n (k_elim kp) (v_eliml _ _ _ _ _ _ _ _ HW) (v_elim _ _ _ _ _ _ _ _ HW) (k_bw kp) (k_fw kp) (v_bw _ _ _ _ _ _ _ _ HW) (v_fw _ _ _ _ _ _ _ _ HW) (flip_arc A) (fun x y => un y x) (fun x y => hop y x) b_dom b_fl b_bl b_pos b_fun b_mid
      (k_dnu kp) (k_upu kp) (k_btail kp) true spec_b (flip_closed A (un_tri (v_unp _ _ _ _ _ _ _ _ HW))) (v_bu _ _ _ _ _ _ _ _ HW) b_tf (flip_arc M) b_orig b_w1 b_w2 dbg t p Ht Hp) as (p' & D & H). exists p', D. eexists. exact H.
  Qed.
  Lemma pot_data_ok : perfect_weights c (weight (k_fw k)) (weight (k_bw k)) = Some S -> pot_data c k = Some (kp, ft).
  Proof.
    intros E1. unfold pot_data. rewrite E1. cbn [bind]. rewrite (cr_k _ _ _ _ _ _ _ _ _ _ HR). cbn [k_upu k_dnu].
    pose proof (perfect_rebuild adj order ranks nodes c HK madj up0 dn0 s k HR S HL HF) as R. cbn [g_w g_m] in R. rewrite R. cbn [bind].
    pose proof (perfect_of_ok adj order ranks nodes c HK madj up0 dn0 s k HR S HL HF) as Q. cbn [g_w g_m] in Q. rewrite Q. reflexivity.
  Qed.
End PathView.
