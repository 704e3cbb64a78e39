(** The perfect customization computes the shortest distance between the end nodes of every edge, see CCHPerfect. *)
From Verif Require Import Base Graph SpecGraph SpecCCH BitVec CCH CCHTheory CCHPathTheory CCHContractProof CCHBuildProof CCHCustProof CCHMetricProof CCHPerfect.

Lemma prun_app l1 l2 sp : prun (l1 ++ l2) sp = (sp' <- prun l1 sp ;; prun l2 sp').
Proof. unfold prun. apply foldM_app. Qed.

Lemma walk_1 (B : nat -> nat -> N -> Prop) x y w : B x y w -> walk B x y w.
Proof. intros H. rewrite <- (N.add_0_r w). econstructor; [exact H|constructor]. Qed.

Section Perfect.
  Variable adj : list (list (nat * N)).
  Variables order ranks : list nat.
  Variable nodes : list (list nat).
  Variable c : cch.
  Hypothesis HK : cch_ok adj order ranks nodes c.
  Variables iup idn : list N.
  Variable s : cst.
  Hypothesis HO : cust_ok adj nodes iup idn s.
  Let n := length adj.
  Let m := length (concat nodes).
  Let HC := co_chordal _ _ _ _ _ HK.
  Let A := carc nodes s.

  (** weights and flags in one direction *)
  Definition w0 (d : bool) (e : nat) : N := nth e (if d then s_up s else s_dn s) 0%N.
  Definition wk (d : bool) (x y : nat) (l : N) : Prop := if d then walk A x y l else walk A y x l.
  Definition wt (d : bool) (S : pshared) (e : nat) : N := nth e (g_w d S) 0%N.
  Definition fl (d : bool) (S : pshared) (e : nat) : bool := nth e (g_m d S) false.
  Definition glens (S : pshared) : Prop := forall d, length (g_w d S) = m /\ length (g_m d S) = m.

  Record mid (S : pshared) (e x y : nat) (d : bool) : Prop := {
    mi_walk : wk d x y (wt d S e);
    mi_le : (wt d S e <= w0 d e)%N;
    mi_fl : fl d S e = (wt d S e <? w0 d e)%N }.
  Definition fin (S : pshared) (e x y : nat) (d : bool) : Prop := mid S e x y d /\ forall l, wk d x y l -> (wt d S e <= l)%N.
  Definition ini (S : pshared) (e : nat) (d : bool) : Prop := wt d S e = w0 d e /\ fl d S e = false.

  Lemma w0_small d e : (w0 d e <= INF)%N.
  Proof using HO. unfold w0. destruct HO as [((_ & U) & (_ & D) & _) _]. destruct d; auto. Qed.
  Lemma edge_up e x y : edge nodes e x y -> x < y /\ y < n.
  Proof using HK HO. intros He. apply (ch_up _ _ HC), (edge_In _ _ _ _ He). Qed.
  Lemma w0_arc (d : bool) e x y : edge nodes e x y -> if d then A x y (w0 d e) else A y x (w0 d e).
  Proof using HK HO. intros He. pose proof (edge_up _ _ _ He). unfold A, carc, w0. destruct d; [left|right]; split; try lia; eauto. Qed.
  Lemma wk_arc d e x y : edge nodes e x y -> wk d x y (w0 d e).
  Proof using HK HO. intros He. pose proof (w0_arc d e x y He). unfold wk. destruct d; apply walk_1; auto. Qed.
  Lemma wk_app d x v y a b : wk d x v a -> wk d v y b -> wk d x y (a + b)%N.
  Proof using HK HO. unfold wk. destruct d; intros H1 H2; [eapply walk_app; eauto|]. rewrite N.add_comm. eapply walk_app; eauto. Qed.
  Lemma ini_mid S e x y d : edge nodes e x y -> ini S e d -> mid S e x y d.
  Proof using HK HO.
    intros He [H1 H2]. constructor; rewrite ?H1, ?H2. { apply wk_arc; auto. } { lia. } symmetry. apply N.ltb_ge. lia.
  Qed.

  Lemma wt_put d S l d' e : length l = m -> glens S -> wt d' (put_w d S l) e = if Bool.eqb d d' then nth e l 0%N else wt d' S e.
  Proof using HK HO. destruct d, d'; reflexivity. Qed.

  (** one relaxation *)
  Lemma rel_ok d oa scd sc ot S p ea et : glens S -> opnd_id p oa = Some ea -> opnd_id p ot = Some et -> r_oth p <> None -> ea < m -> et < m -> sc < m ->
    (wt d S ea <= INF)%N -> (wt scd S sc <= INF)%N ->
    exists S' p', prun (rel_code d oa scd sc ot) (S, p) = Some (S', p') /\ r_ws p' = r_ws p /\ r_oth p' = r_oth p /\ glens S' /\
      wt d S' et = N.min (wt d S et) (wt d S ea + wt scd S sc) /\
      fl d S' et = ((wt d S ea + wt scd S sc <? wt d S et)%N || fl d S et)%bool /\
      forall d' e', (d', e') <> (d, et) -> wt d' S' e' = wt d' S e' /\ fl d' S' e' = fl d' S e'.
  Proof using HK HO.
    intros HL Ea Et Ho La Lt Ls Ba Bs. destruct (r_oth p) as [oth|] eqn:Eo; [|congruence]. clear Ho.
    assert (NW : forall d e, e < m -> nth_error (g_w d S) e = Some (wt d S e)). { intros d1 e1 H1. unfold wt. apply nth_error_nth_some. rewrite (proj1 (HL d1)). auto. }
    unfold rel_code, prun. cbn [foldM].
    unfold pstep at 1. rewrite Eo, Ea. cbn [bind]. rewrite NW by auto. cbn [bind].
    unfold pstep at 1. cbn [r_oth opnd_id bind]. rewrite NW by auto. cbn [bind].
    unfold pstep at 1. cbn [r_oth r_ws r_a r_b]. cbn [bind].
    assert (Et2 : forall a b c', opnd_id (mkRg (r_ws p) (r_oth p) a b c') ot = Some et). { intros a b c'. destruct ot; cbn in Et |- *; auto. }
    assert (Et' : forall a b c', opnd_id (mkRg (r_ws p) (Some oth) a b c') ot = Some et). { intros a b c'. rewrite <- Eo. apply Et2. }
    rewrite Et'. cbn [bind]. rewrite NW by auto. cbn [bind]. unfold pstep at 1. cbn [r_oth r_ws r_a r_b r_c]. rewrite Et'. cbn [bind].
    assert (CA : cadd (wt d S ea) (wt scd S sc) = Some (wt d S ea + wt scd S sc)%N).
    { unfold cadd. rewrite (proj2 (N.ltb_lt _ _)); auto. unfold INF, U32 in *. lia. }
    rewrite CA. cbn [bind]. destruct (N.ltb_spec (wt d S ea + wt scd S sc) (wt d S et)) as [L|L].
    - rewrite set_at_lt by (rewrite (proj1 (HL d)); auto). cbn [bind]. unfold pstep. cbn [r_oth r_ws r_a r_b r_c]. rewrite Et'. cbn [bind]. rewrite CA. cbn [bind].
      rewrite (proj2 (N.ltb_lt _ _) L).
      assert (GM : forall d', g_m d' (put_w d S (upd (g_w d S) et (wt d S ea + wt scd S sc)%N)) = g_m d' S) by (destruct d, d'; reflexivity).
      rewrite set_at_lt by (rewrite GM, (proj2 (HL d)); auto). cbn [bind]. eexists. eexists. split; [reflexivity|]. split; [reflexivity|]. split; [reflexivity|].
      set (S1 := put_w d S _) in *.
      assert (GW : forall d', g_w d' (put_m d S1 (upd (g_m d S1) et true)) = g_w d' S1) by (destruct d, d'; reflexivity).
      assert (GW1 : forall d', g_w d' S1 = if Bool.eqb d d' then upd (g_w d S) et (wt d S ea + wt scd S sc)%N else g_w d' S) by (destruct d, d'; reflexivity).
      assert (GM1 : forall d', g_m d' (put_m d S1 (upd (g_m d S1) et true)) = if Bool.eqb d d' then upd (g_m d S) et true else g_m d' S).
      { intros d'. rewrite GM. unfold S1. destruct d, d'; reflexivity. }
      split. { intros d'. rewrite GW, GM1, GW1. destruct (HL d), (HL d'). destruct (Bool.eqb d d'); rewrite ?upd_length; auto. }
      split. { unfold wt at 1. rewrite GW, GW1, Bool.eqb_reflx. rewrite (nth_upd_eq (g_w d S)) by (rewrite (proj1 (HL d)); auto). lia. }
      split. { unfold fl at 1. rewrite GM1, Bool.eqb_reflx. rewrite (nth_upd_eq (g_m d S)) by (rewrite (proj2 (HL d)); auto). reflexivity. }
      intros d' e' Hne. unfold wt, fl. rewrite GW, GM1, GW1. destruct (Bool.eqb d d') eqn:Ed; [|auto]. apply Bool.eqb_prop in Ed. subst d'.
      assert (e' <> et) by congruence. rewrite !nth_upd_neq by auto. auto.
    - cbn [bind]. unfold pstep. cbn [r_oth r_ws r_a r_b r_c]. rewrite Et'. cbn [bind]. rewrite CA. cbn [bind]. rewrite (proj2 (N.ltb_ge _ _) L). eexists. eexists. split; [reflexivity|].
      split; [reflexivity|]. split; [reflexivity|]. split; [exact HL|]. split; [lia|]. split; [reflexivity|auto].
  Qed.

  Definition own (cur e : nat) : Prop := off nodes cur <= e < off nodes (cur + 1).
  (** the state while [cur] is processed *)
  Definition inv (cur : nat) (S : pshared) : Prop :=
    glens S /\ (forall d e y, edge nodes e cur y -> mid S e cur y d) /\
    forall v e t d, In v (nbh nodes cur) -> edge nodes e v t -> fin S e v t d.
  Definition same_off (cur : nat) (S S' : pshared) : Prop := forall d e, ~ own cur e -> wt d S' e = wt d S e /\ fl d S' e = fl d S e.
  Definition dec (cur : nat) (S S' : pshared) : Prop := same_off cur S S' /\ forall d e, (wt d S' e <= wt d S e)%N.
  Lemma dec_refl cur S : dec cur S S.
  Proof using HK HO. split; [intros d e _; auto|intros; lia]. Qed.
  Lemma dec_trans cur S1 S2 S3 : dec cur S1 S2 -> dec cur S2 S3 -> dec cur S1 S3.
  Proof using HK HO.
    intros [H1 H2] [H3 H4]. split; [|intros d e; pose proof (H2 d e); pose proof (H4 d e); lia].
    intros d e He. destruct (H1 d e He), (H3 d e He). split; congruence.
  Qed.
  Lemma own_edge cur e y : edge nodes e cur y -> own cur e.
  Proof using HK HO. apply edge_range. Qed.
  Lemma not_own cur e v t : edge nodes e v t -> v <> cur -> cur < n -> ~ own cur e.
  Proof using HK HO.
    intros He Ne Hc Ho. destruct (range_edge nodes cur e) as (y & Hy); [rewrite (ch_len _ _ HC); auto|exact Ho|]. destruct (edge_unique _ _ _ _ _ _ He Hy). congruence.
  Qed.
  Lemma fin_same S S' e v t d : wt d S' e = wt d S e -> fl d S' e = fl d S e -> fin S e v t d -> fin S' e v t d.
  Proof using HK HO. intros E1 E2 [[H1 H2 H3] H4]. split; [constructor|]; rewrite ?E1, ?E2; auto. Qed.
  Lemma mid_same S S' e v t d : wt d S' e = wt d S e -> fl d S' e = fl d S e -> mid S e v t d -> mid S' e v t d.
  Proof using HK HO. intros E1 E2 [H1 H2 H3]. constructor; rewrite ?E1, ?E2; auto. Qed.

  Lemma rel_step cur d oa scd sc ot S p ea et v y : cur < n -> inv cur S -> opnd_id p oa = Some ea -> opnd_id p ot = Some et -> r_oth p <> None ->
    edge nodes ea cur v -> edge nodes et cur y -> ~ own cur sc -> sc < m -> wk d v y (wt scd S sc) -> (wt scd S sc <= INF)%N ->
    exists S' p', prun (rel_code d oa scd sc ot) (S, p) = Some (S', p') /\ r_ws p' = r_ws p /\ r_oth p' = r_oth p /\ inv cur S' /\ dec cur S S' /\
      (wt d S' et <= w0 d ea + wt scd S sc)%N.
  Proof using HK HO.
    intros Hc (HL & HM & HF) Ea Et Ho Ha He Hs Ls Hw Bs.
    pose proof (HM d _ _ Ha) as Ma. pose proof (HM d _ _ He) as Me. pose proof (w0_small d ea) as W1. pose proof (mi_le _ _ _ _ _ Ma) as W2.
    destruct (rel_ok d oa scd sc ot S p ea et HL Ea Et Ho (edge_lt _ _ _ _ Ha) (edge_lt _ _ _ _ He) Ls ltac:(lia) Bs) as (S' & p' & E & P1 & P2 & HL' & Ew & Ef & Eo).
    exists S', p'. split; [exact E|]. split; [exact P1|]. split; [exact P2|].
    assert (D : dec cur S S').
    { split.
      - intros d' e' Hn. apply Eo. intros K. injection K as -> ->. apply Hn. eapply own_edge; eauto.
      - intros d' e'. destruct (Bool.bool_dec d' d) as [->|N1]; [destruct (Nat.eq_dec e' et) as [->|N2]|].
        + rewrite Ew. lia.
        + destruct (Eo d e') as [-> _]; [congruence|lia].
        + destruct (Eo d' e') as [-> _]; [congruence|lia]. }
    split; [|split; [exact D|lia]]. split; [exact HL'|]. split.
    - intros d' e' y' He'. destruct (Bool.bool_dec d' d) as [->|N1]; [destruct (Nat.eq_dec e' et) as [->|N2]|].
      + destruct (edge_unique _ _ _ _ _ _ He He') as [_ <-]. constructor.
        * rewrite Ew. destruct (N.min_spec (wt d S et) (wt d S ea + wt scd S sc)) as [[_ ->]|[_ ->]]; [apply Me|]. eapply wk_app; [apply Ma|exact Hw].
        * pose proof (mi_le _ _ _ _ _ Me). lia.
        * rewrite Ef, (mi_fl _ _ _ _ _ Me), Ew. pose proof (mi_le _ _ _ _ _ Me).
          destruct (N.ltb_spec (wt d S ea + wt scd S sc) (wt d S et)); cbn [orb]; symmetry; [apply N.ltb_lt; lia|]. rewrite N.min_l by lia. reflexivity.
      + destruct (Eo d e') as [E1 E2]; [congruence|]. eapply mid_same; eauto.
      + destruct (Eo d' e') as [E1 E2]; [congruence|]. eapply mid_same; eauto.
    - intros v' e' t' d' Hv' He'. destruct (proj1 D d' e') as [E1 E2]. { eapply not_own; eauto. apply (ch_up _ _ HC) in Hv'. lia. } eapply fin_same; eauto.
  Qed.

  (** the workspace while [cur] is processed *)
  Definition ws_ok (cur : nat) (ws : list (option nat)) : Prop := length ws = n /\ forall t, t < n -> exists o, nth_error ws t = Some o /\ forall e, o = Some e <-> edge nodes e cur t.
  Definition pair_ok (S : pshared) (ev et sc : nat) : Prop :=
    (wt true S et <= w0 true ev + wt true S sc)%N /\ (wt true S ev <= w0 true et + wt false S sc)%N /\
    (wt false S et <= w0 false ev + wt false S sc)%N /\ (wt false S ev <= w0 false et + wt true S sc)%N.
  Lemma pair_dec cur S S' ev et sc : ~ own cur sc -> dec cur S S' -> pair_ok S ev et sc -> pair_ok S' ev et sc.
  Proof using HK HO.
    intros Hs [H1 H2] (P1 & P2 & P3 & P4). unfold pair_ok. destruct (H1 true sc Hs) as [-> _], (H1 false sc Hs) as [-> _].
    pose proof (H2 true et). pose proof (H2 true ev). pose proof (H2 false et). pose proof (H2 false ev). lia.
  Qed.
  Lemma prun_get x code S p : prun (PGet x :: code) (S, p) = (o <- nth_error (r_ws p) x ;; prun code (S, mkRg (r_ws p) o (r_a p) (r_b p) (r_c p))).
  Proof using HK HO. unfold prun. cbn [foldM]. unfold pstep at 1. destruct (nth_error (r_ws p) x); reflexivity. Qed.
  Lemma prun_skip up a scup sc tgt S p : r_oth p = None -> prun (rel_code up a scup sc tgt) (S, p) = Some (S, p).
  Proof using HK HO. intros E. unfold prun, rel_code. cbn [foldM]. unfold pstep. rewrite !E. cbn [bind]. rewrite !E. cbn [bind]. rewrite !E. cbn [bind]. rewrite !E. cbn [bind]. rewrite !E. reflexivity. Qed.

  Lemma tri_step cur S p v ev t sc : cur < n -> inv cur S -> ws_ok cur (r_ws p) -> edge nodes ev cur v -> edge nodes sc v t ->
    exists S' p', prun (tri_code ev (t, sc)) (S, p) = Some (S', p') /\ r_ws p' = r_ws p /\ inv cur S' /\ dec cur S S' /\
      forall et, edge nodes et cur t -> pair_ok S' ev et sc.
  Proof using HK HO.
    intros Hc HI [WL HW] Hv Hs. pose proof (edge_up _ _ _ Hs) as [L1 L2]. pose proof (edge_up _ _ _ Hv) as [L3 L4]. destruct (HW t L2) as (o & Eo & Ho).
    unfold tri_code. rewrite prun_get, Eo. cbn [bind]. set (p0 := mkRg _ _ _ _ _).
    destruct o as [et|].
    2: { assert (E0 : r_oth p0 = None) by reflexivity. exists S, p0. rewrite prun_app, prun_skip by auto. cbn [bind]. rewrite prun_app, prun_skip by auto. cbn [bind].
      rewrite prun_app, prun_skip by auto. cbn [bind]. rewrite prun_skip by auto. split; [reflexivity|]. split; [reflexivity|]. split; [exact HI|]. split; [apply dec_refl|].
      intros et Het. apply Ho in Het. discriminate. }
    assert (Het : edge nodes et cur t) by (apply Ho; auto).
    assert (NO : ~ own cur sc) by (eapply not_own; eauto; lia). pose proof (edge_lt _ _ _ _ Hs) as Lsc. fold m in Lsc.
    assert (SC : forall S', inv cur S' -> forall d, wk d v t (wt d S' sc) /\ wk d t v (wt (negb d) S' sc) /\ (wt d S' sc <= INF)%N /\ (wt (negb d) S' sc <= INF)%N).
    { intros S' (_ & _ & HF) d. destruct (HF v sc t d (edge_In _ _ _ _ Hv) Hs) as [[M1 M2 _] _]. destruct (HF v sc t (negb d) (edge_In _ _ _ _ Hv) Hs) as [[M3 M4 _] _].
      pose proof (w0_small d sc). pose proof (w0_small (negb d) sc). split; [exact M1|]. split; [|lia]. destruct d; exact M3. }
    assert (E0 : r_oth p0 = Some et) by reflexivity.
    destruct (SC S HI true) as (K1 & _ & K3 & _).
    destruct (rel_step cur true (Own ev) true sc Oth S p0 ev et v t Hc HI eq_refl eq_refl ltac:(discriminate) Hv Het NO Lsc K1 K3) as (S1 & p1 & R1 & P1 & O1 & I1 & D1 & B1).
    destruct (SC S1 I1 true) as (_ & K4 & _ & K5).
    destruct (rel_step cur true Oth false sc (Own ev) S1 p1 et ev t v Hc I1 ltac:(cbn; congruence) eq_refl ltac:(congruence) Het Hv NO Lsc K4 K5) as (S2 & p2 & R2 & P2 & O2 & I2 & D2 & B2).
    destruct (SC S2 I2 false) as (K6 & _ & K7 & _).
    destruct (rel_step cur false (Own ev) false sc Oth S2 p2 ev et v t Hc I2 eq_refl ltac:(cbn; congruence) ltac:(congruence) Hv Het NO Lsc K6 K7) as (S3 & p3 & R3 & P3 & O3 & I3 & D3 & B3).
    destruct (SC S3 I3 false) as (_ & K8 & _ & K9).
    destruct (rel_step cur false Oth true sc (Own ev) S3 p3 et ev t v Hc I3 ltac:(cbn; congruence) eq_refl ltac:(congruence) Het Hv NO Lsc K8 K9) as (S4 & p4 & R4 & P4 & O4 & I4 & D4 & B4).
    exists S4, p4. rewrite prun_app, R1. cbn [bind]. rewrite prun_app, R2. cbn [bind]. rewrite prun_app, R3. cbn [bind]. rewrite R4. split; [reflexivity|].
    split; [rewrite P4, P3, P2, P1; reflexivity|]. split; [exact I4|].
    pose proof (dec_trans _ _ _ _ D3 D4) as D34. pose proof (dec_trans _ _ _ _ D2 D34) as D234. pose proof (dec_trans _ _ _ _ D1 D234) as D1234.
    split; [exact D1234|]. intros et' Het'. rewrite <- (edge_inj _ _ _ _ _ (HN _ _ _ _ _ HK _) Het Het'). unfold pair_ok.
    destruct (proj1 D1234 true sc NO) as [X1 _], (proj1 D1234 false sc NO) as [X2 _], (proj1 D1 false sc NO) as [X3 _].
    destruct (proj1 (dec_trans _ _ _ _ D1 D2) false sc NO) as [X4 _]. destruct (proj1 (dec_trans _ _ _ _ D1 (dec_trans _ _ _ _ D2 D3)) true sc NO) as [X5 _].
    pose proof (proj2 D234 true et). pose proof (proj2 D34 true ev). pose proof (proj2 D4 false et). cbn [negb] in *. lia.
  Qed.

  Lemma cch_ids_ok x : x < n -> cch_ids c x = Some (ids nodes x).
  Proof using HK HO.
    intros Hx. unfold cch_ids, cch_range. rewrite !(co_fo _ _ _ _ _ HK) by (fold n; lia). cbn [bind].
    rewrite (co_head _ _ _ _ _ HK), nbh_slice by (rewrite (ch_len _ _ HC); auto). cbn [bind]. rewrite (off_diff _ _ _ _ _ HK) by auto. reflexivity.
  Qed.
  Lemma tris_step cur v ev : cur < n -> edge nodes ev cur v -> forall l, (forall t sc, In (t, sc) l -> edge nodes sc v t) -> forall S p, inv cur S -> ws_ok cur (r_ws p) ->
    exists S' p', prun (flat_map (tri_code ev) l) (S, p) = Some (S', p') /\ r_ws p' = r_ws p /\ inv cur S' /\ dec cur S S' /\
      forall t sc et, In (t, sc) l -> edge nodes et cur t -> pair_ok S' ev et sc.
  Proof using HK HO.
    intros Hc Hv. pose proof (edge_up _ _ _ Hv) as [Lv _]. induction l as [|[t sc] l IH]; intros Hl S p HI HW.
    - exists S, p. split; [reflexivity|]. split; [auto|]. split; [auto|]. split; [apply dec_refl|]. intros ? ? ? [].
    - cbn [flat_map]. rewrite prun_app. pose proof (Hl t sc (or_introl eq_refl)) as Hs. destruct (tri_step cur S p v ev t sc Hc HI HW Hv Hs) as (S1 & p1 & E1 & P1 & I1 & D1 & B1).
      rewrite E1. cbn [bind]. destruct (IH ltac:(intros; apply Hl; right; auto) S1 p1 I1 ltac:(rewrite P1; auto)) as (S2 & p2 & E2 & P2 & I2 & D2 & B2).
      exists S2, p2. split; [exact E2|]. split; [congruence|]. split; [auto|]. split; [eapply dec_trans; eauto|].
      intros t' sc' et [E|Hin] He; [|eapply B2; eauto]. injection E as <- <-. eapply pair_dec; [|exact D2|apply B1; auto]. eapply not_own; eauto. lia.
  Qed.
  Lemma outer_step cur : cur < n -> forall l, (forall v ev, In (v, ev) l -> edge nodes ev cur v) -> exists tri, mapM (fun ve => up <- cch_ids c (fst ve) ;; Some (flat_map (tri_code (snd ve)) up)) l = Some tri /\
    forall S p, inv cur S -> ws_ok cur (r_ws p) ->
    exists S' p', prun (concat tri) (S, p) = Some (S', p') /\ r_ws p' = r_ws p /\ inv cur S' /\ dec cur S S' /\
      forall v ev t sc et, In (v, ev) l -> edge nodes sc v t -> edge nodes et cur t -> pair_ok S' ev et sc.
  Proof using HK HO.
    intros Hc. induction l as [|[v ev] l IH]; intros Hl.
    - exists []. split; [reflexivity|]. intros S p HI HW. exists S, p. split; [reflexivity|]. split; [auto|]. split; [auto|]. split; [apply dec_refl|]. intros ? ? ? ? ? [].
    - destruct (IH ltac:(intros; apply Hl; right; auto)) as (tri & Et & Ht). pose proof (Hl v ev (or_introl eq_refl)) as Hv. pose proof (edge_up _ _ _ Hv) as [Lv Ln].
      exists (flat_map (tri_code ev) (ids nodes v) :: tri). cbn [mapM fst snd]. rewrite cch_ids_ok by auto. cbn [bind]. cbn [fst snd] in Et. rewrite Et. cbn [bind]. split; [reflexivity|].
      intros S p HI HW. cbn [concat]. rewrite prun_app.
      destruct (tris_step cur v ev Hc Hv (ids nodes v) ltac:(intros t sc H; apply ids_In in H; auto) S p HI HW) as (S1 & p1 & E1 & P1 & I1 & D1 & B1).
      rewrite E1. cbn [bind]. destruct (Ht S1 p1 I1 ltac:(rewrite P1; auto)) as (S2 & p2 & E2 & P2 & I2 & D2 & B2).
      exists S2, p2. split; [exact E2|]. split; [congruence|]. split; [auto|]. split; [eapply dec_trans; eauto|].
      intros v' ev' t sc et [E|Hin] Hs He; [|eapply B2; eauto]. injection E as <- <-. eapply pair_dec; [|exact D2|apply (B1 t); auto; apply ids_In; auto]. eapply not_own; eauto. lia.
  Qed.

  (** the workspace *)
  Lemma sets_ok cur S p : cur < n -> r_ws p = repeat None n -> exists p', prun (map (fun ve => PSet (fst ve) (snd ve)) (ids nodes cur)) (S, p) = Some (S, p') /\ ws_ok cur (r_ws p').
  Proof using HK HO.
    intros Hc Ew.
    assert (G : forall l p, (forall x e, In (x, e) l -> edge nodes e cur x) -> length (r_ws p) = n -> exists p', prun (map (fun ve => PSet (fst ve) (snd ve)) l) (S, p) = Some (S, p') /\ length (r_ws p') = n /\
      forall t, t < n -> exists o o', nth_error (r_ws p) t = Some o /\ nth_error (r_ws p') t = Some o' /\ (o' = o /\ (forall e, ~ In (t, e) l) \/ exists e, o' = Some e /\ edge nodes e cur t)).
    { induction l as [|[x e] l IH]; intros q Hl Lq.
      - exists q. split; [reflexivity|]. split; [auto|]. intros t Ht. destruct (nth_error_lt (r_ws q) t ltac:(lia)) as (o & Eo). exists o, o. split; [auto|]. split; [auto|]. left. split; [auto|]. intros e [].
      - pose proof (Hl x e (or_introl eq_refl)) as He. pose proof (edge_up _ _ _ He) as [L1 L2]. unfold prun. cbn [map foldM fst snd]. unfold pstep at 1. rewrite set_at_lt by lia. cbn [bind].
        destruct (IH (mkRg (upd (r_ws q) x (Some e)) (r_oth q) (r_a q) (r_b q) (r_c q)) ltac:(intros; apply Hl; right; auto) ltac:(cbn; rewrite upd_length; auto)) as (q' & E' & L' & H').
        exists q'. split; [exact E'|]. split; [auto|]. intros t Ht. destruct (H' t Ht) as (o & o' & E1 & E2 & E3). cbn [r_ws] in E1.
        destruct (nth_error_lt (r_ws q) t ltac:(lia)) as (o1 & Eo1). exists o1, o'. split; [auto|]. split; [auto|]. destruct E3 as [[-> Hn]|E3]; [|right; auto].
        destruct (Nat.eq_dec t x) as [->|Ne].
        + rewrite nth_error_upd_eq in E1 by lia. injection E1 as <-. right. eauto.
        + rewrite nth_error_upd_neq in E1 by auto. rewrite Eo1 in E1. injection E1 as <-. left. split; [auto|]. intros e' [K|K]; [congruence|eapply Hn; eauto]. }
    destruct (G (ids nodes cur) p) as (p' & E & L & H). { intros x e Hin. apply ids_In in Hin. auto. } { rewrite Ew. apply repeat_length. }
    exists p'. split; [exact E|]. split; [auto|]. intros t Ht. destruct (H t Ht) as (o & o' & E1 & E2 & E3). exists o'. split; [auto|]. intros e.
    destruct E3 as [[-> Hn]|(e' & -> & He')].
    - rewrite Ew, nth_error_repeat in E1. destruct (Nat.ltb_spec t n); [|lia]. injection E1 as <-. split; [discriminate|]. intros He. destruct (Hn e). apply ids_In; auto.
    - split; [intros K; injection K as <-; auto|]. intros He. f_equal. apply (edge_inj _ _ _ _ _ (HN _ _ _ _ _ HK _) He' He).
  Qed.
  Lemma clears_ok cur S p : cur < n -> ws_ok cur (r_ws p) -> exists p', prun (map (fun ve => PClr (fst ve)) (ids nodes cur)) (S, p) = Some (S, p') /\ r_ws p' = repeat None n.
  Proof using HK HO.
    intros Hc [WL HW].
    assert (G : forall l p, (forall x e, In (x, e) l -> edge nodes e cur x) -> length (r_ws p) = n -> exists p', prun (map (fun ve => PClr (fst ve)) l) (S, p) = Some (S, p') /\ length (r_ws p') = n /\
      forall t, t < n -> exists o, nth_error (r_ws p') t = Some o /\ ((o = None) \/ (nth_error (r_ws p) t = Some o /\ forall e, ~ In (t, e) l))).
    { induction l as [|[x e] l IH]; intros q Hl Lq.
      - exists q. split; [reflexivity|]. split; [auto|]. intros t Ht. destruct (nth_error_lt (r_ws q) t ltac:(lia)) as (o & Eo). exists o. split; [auto|]. right. split; [auto|]. intros e [].
      - pose proof (Hl x e (or_introl eq_refl)) as He. pose proof (edge_up _ _ _ He) as [L1 L2]. unfold prun. cbn [map foldM fst snd]. unfold pstep at 1. rewrite set_at_lt by lia. cbn [bind].
        destruct (IH (mkRg (upd (r_ws q) x None) (r_oth q) (r_a q) (r_b q) (r_c q)) ltac:(intros; apply Hl; right; auto) ltac:(cbn; rewrite upd_length; auto)) as (q' & E' & L' & H').
        exists q'. split; [exact E'|]. split; [auto|]. intros t Ht. destruct (H' t Ht) as (o & E1 & [->|[E2 Hn]]); exists (o) || exists None; (split; [auto|]); [left; auto|]. cbn [r_ws] in E2.
        destruct (Nat.eq_dec t x) as [->|Ne].
        + rewrite nth_error_upd_eq in E2 by lia. injection E2 as <-. left. auto.
        + rewrite nth_error_upd_neq in E2 by auto. right. split; [auto|]. intros e' [K|K]; [congruence|eapply Hn; eauto]. }
    destruct (G (ids nodes cur) p) as (p' & E & L & H). { intros x e Hin. apply ids_In in Hin. auto. } { auto. }
    exists p'. split; [exact E|]. apply list_ext. intros t. rewrite nth_error_repeat. destruct (Nat.ltb_spec t n) as [Ht|Ht]; [|apply nth_error_None; lia].
    destruct (H t Ht) as (o & E1 & [->|[E2 Hn]]); [auto|]. destruct (HW t Ht) as (o' & E3 & Ho). rewrite E2 in E3. injection E3 as <-. rewrite E1. f_equal.
    destruct o as [e|]; [|auto]. destruct (Hn e). apply ids_In, Ho. auto.
  Qed.

  (** the first arc of a walk up *)
  Lemma first_hop d cur y l : cur < y -> wk d cur y l -> exists v ev l', edge nodes ev cur v /\ wk d v y l' /\ (w0 d ev + l' <= l)%N.
  Proof using HK HO.
    intros L Hw.
    assert (G : forall B, tri_closed B -> walk B cur y l -> exists v w l', cur < v /\ B cur v w /\ walk B v y l' /\ (w + l' <= l)%N).
    { intros B HB HWk. destruct (up_down B HB cur y l HWk) as (q & a & b & Ha & Hb & Hl). inversion Ha as [|? v ? w a' [Lv Bv] Hr]; subst.
      - apply dna_le in Hb. lia.
      - exists v, w, (a' + b)%N. split; [auto|]. split; [auto|]. split; [|lia]. apply walk_app with (v := q); [revert Hr|revert Hb]; apply walk_mono; intros ? ? ? [_ K]; exact K. }
    pose proof (carc_tri _ _ _ _ _ HK _ _ _ HO) as HT. fold A in HT. destruct d; cbn [wk] in Hw.
    - destruct (G A HT Hw) as (v & w & l' & Lv & Hv & Hl' & Ll). destruct Hv as [(_ & e & He & ->)|(L' & _)]; [|lia]. exists v, e, l'. split; [auto|]. split; [auto|]. exact Ll.
    - apply walk_flip in Hw. destruct (G (flip_arc A) (flip_closed _ HT) Hw) as (v & w & l' & Lv & Hv & Hl' & Ll). destruct Hv as [(L' & _)|(_ & e & He & ->)]; [lia|]. exists v, e, l'. split; [auto|].
      split; [|exact Ll]. apply walk_flip_iff. exact Hl'.
  Qed.

  Lemma node_ok cur : cur < n -> exists code, pnode_code c cur = Some code /\
    forall S p, glens S -> (forall e y d, edge nodes e cur y -> ini S e d) -> (forall v e t d, In v (nbh nodes cur) -> edge nodes e v t -> fin S e v t d) -> r_ws p = repeat None n -> exists S' p', prun code (S, p) = Some (S', p') /\ r_ws p' = repeat None n /\ glens S' /\ same_off cur S S' /\
      forall e y d, edge nodes e cur y -> fin S' e cur y d.
  Proof using HK HO.
    intros Hc. unfold pnode_code. rewrite cch_ids_ok by auto. cbn [bind].
    destruct (outer_step cur Hc (ids nodes cur)) as (tri & Et & Ht). { intros v ev Hin. apply ids_In in Hin. auto. }
    rewrite Et. cbn [bind]. eexists. split; [reflexivity|]. intros S p HL HI HF Ep. destruct (sets_ok cur S p Hc Ep) as (p1 & E1 & W1).
    assert (I0 : inv cur S). { split; [auto|]. split; [|auto]. intros d e y He. apply ini_mid; eauto. }
    destruct (Ht S p1 I0 W1) as (S2 & p2 & E2 & P2 & I2 & D2 & B2). destruct (clears_ok cur S2 p2 Hc ltac:(rewrite P2; auto)) as (p3 & E3 & W3).
    exists S2, p3. rewrite prun_app, E1. cbn [bind]. rewrite prun_app, E2. cbn [bind]. rewrite E3. split; [reflexivity|]. split; [auto|]. destruct I2 as (L2 & M2 & F2). split; [auto|]. split; [apply D2|].
    intros e y d He. split; [apply M2; auto|]. intros l Hl. pose proof (edge_up _ _ _ He) as [Ly _].
    destruct (first_hop d cur y l Ly Hl) as (v & ev & l' & Hev & Hl' & Ll). pose proof (edge_up _ _ _ Hev) as [Lv _].
    destruct (Nat.lt_trichotomy v y) as [Lt|[->|Lt]].
    - assert (Hin : In y (nbh nodes v)) by (eapply (ch_tri _ _ HC cur); eauto; eapply edge_In; eauto). destruct (In_edge _ _ _ Hin) as (sc & Hs).
      destruct (B2 v ev y sc e ltac:(apply ids_In; auto) Hs He) as (Q1 & Q2 & Q3 & Q4).
      destruct (F2 v sc y d (edge_In _ _ _ _ Hev) Hs) as [_ Fm]. specialize (Fm _ Hl'). destruct d; lia.
    - rewrite <- (edge_inj _ _ _ _ _ (HN _ _ _ _ _ HK _) He Hev) in Ll. pose proof (mi_le _ _ _ _ _ (M2 d e y He)). lia.
    - assert (Hin : In v (nbh nodes y)) by (eapply (ch_tri _ _ HC cur); eauto; eapply edge_In; eauto). destruct (In_edge _ _ _ Hin) as (sc & Hs).
      destruct (B2 y e v sc ev ltac:(apply ids_In; auto) Hs Hev) as (Q1 & Q2 & Q3 & Q4).
      destruct (F2 y sc v (negb d) (edge_In _ _ _ _ He) Hs) as [_ Fm]. assert (K : wk (negb d) y v l') by (destruct d; exact Hl'). specialize (Fm _ K). destruct d; cbn [negb] in *; lia.
  Qed.

  (** ** A range of nodes, from high to low *)
  Definition cell_ini (u k : nat) (S : pshared) : Prop := forall x e y d, u <= x < u + k -> edge nodes e x y -> ini S e d.
  Definition cell_fin (u k : nat) (S : pshared) : Prop := forall x e y d, u <= x < u + k -> edge nodes e x y -> fin S e x y d.
  Definition upper_fin (u k : nat) (S : pshared) : Prop := forall x v e t d, u <= x < u + k -> In v (nbh nodes x) -> u + k <= v -> edge nodes e v t -> fin S e v t d.
  Definition in_cell (u k e : nat) : Prop := off nodes u <= e < off nodes (u + k).
  Definition same_cell (u k : nat) (S S' : pshared) : Prop := forall d e, ~ in_cell u k e -> wt d S' e = wt d S e /\ fl d S' e = fl d S e.
  Lemma ini_same S S' e d : wt d S' e = wt d S e -> fl d S' e = fl d S e -> ini S e d -> ini S' e d.
  Proof using HK HO. unfold ini. intros -> ->. auto. Qed.
  Lemma edge_in_cell u k e x y : u + k <= n -> edge nodes e x y -> (in_cell u k e <-> u <= x < u + k).
  Proof using HK HO.
    intros Hk He. pose proof (edge_range _ _ _ _ He) as R. pose proof (edge_tail_lt _ _ _ _ He) as Lx. pose proof (ch_len _ _ HC) as NL. fold n in NL. rewrite NL in Lx. unfold in_cell. split.
    - intros [L1 L2]. split.
      + destruct (Nat.lt_ge_cases x u); auto. pose proof (off_mono nodes (x + 1) u ltac:(lia) ltac:(lia)). lia.
      + destruct (Nat.lt_ge_cases x (u + k)); auto. pose proof (off_mono nodes (u + k) x ltac:(lia) ltac:(lia)). lia.
    - intros [L1 L2]. pose proof (off_mono nodes u x ltac:(lia) ltac:(lia)). pose proof (off_mono nodes (x + 1) (u + k) ltac:(lia) ltac:(lia)). lia.
  Qed.
  Lemma cell_ok u : forall k, u + k <= n -> exists code, pnodes_code c u k = Some code /\
    forall S p, glens S -> cell_ini u k S -> upper_fin u k S -> r_ws p = repeat None n ->
    exists S' p', prun code (S, p) = Some (S', p') /\ r_ws p' = repeat None n /\ glens S' /\ same_cell u k S S' /\ cell_fin u k S'.
  Proof using HK HO.
    induction k as [|k IH]; intros Hk.
    - exists []. split; [reflexivity|]. intros S p HL _ _ Ep. exists S, p. split; [reflexivity|]. split; [auto|]. split; [auto|]. split; [intros d e _; auto|]. intros x e y d Hx. lia.
    - destruct (IH ltac:(lia)) as (code & Ec & Hc). destruct (node_ok (u + k) ltac:(lia)) as (code1 & E1 & H1).
      exists (code1 ++ code). unfold pnodes_code in Ec |- *. rewrite seq_S, rev_app_distr. cbn [rev app mapM]. rewrite E1. cbn [bind]. destruct (mapM (pnode_code c) (rev (seq u k))) as [l|]; [|discriminate].
      cbn [bind] in Ec |- *. injection Ec as <-. split; [reflexivity|]. intros S p HL HI HF Ep.
      destruct (H1 S p HL) as (S1 & p1 & R1 & W1 & L1 & D1 & F1); auto. { intros e y d He. eapply HI; eauto. lia. }
      { intros v e t d Hv. apply (HF (u + k)); auto; [lia|]. apply (ch_up _ _ HC) in Hv. lia. }
      assert (D1' : forall d e x y, edge nodes e x y -> x <> u + k -> wt d S1 e = wt d S e /\ fl d S1 e = fl d S e).
      { intros d e x y He Hx. apply D1. eapply not_own; eauto. lia. }
      destruct (Hc S1 p1 L1) as (S2 & p2 & R2 & W2 & L2 & D2 & F2); auto.
      { intros x e y d Hx He. destruct (D1' d e x y He) as [X1 X2]; [lia|]. eapply ini_same; eauto. eapply HI; eauto. lia. }
      { intros x v e t d Hx Hv Lv He. destruct (Nat.eq_dec v (u + k)) as [->|Ne]; [apply F1; auto|]. destruct (D1' d e v t He Ne) as [X1 X2]. eapply fin_same; eauto. eapply (HF x); eauto; lia. }
      exists S2, p2. rewrite prun_app, R1. cbn [bind]. split; [exact R2|]. split; [auto|]. split; [auto|].
      assert (Lo : off nodes (u + k) <= off nodes (u + k + 1)) by (apply off_mono; rewrite ?(ch_len _ _ HC); fold n; lia).
      assert (Lu : off nodes u <= off nodes (u + k)) by (apply off_mono; rewrite ?(ch_len _ _ HC); fold n; lia).
      replace (u + Datatypes.S k) with (u + k + 1) in * by lia. split.
      + intros d e Hn. unfold in_cell in Hn. destruct (D2 d e) as [X1 X2]. { unfold in_cell. replace (u + Datatypes.S k) with (u + k + 1) in Hn by lia. lia. }
        destruct (D1 d e) as [X3 X4]. { unfold own. replace (u + Datatypes.S k) with (u + k + 1) in Hn by lia. lia. } split; congruence.
      + intros x e y d Hx He. destruct (Nat.eq_dec x (u + k)) as [->|Ne].
        * destruct (D2 d e) as [X1 X2]. { apply own_edge in He. unfold own in He. unfold in_cell. lia. } eapply fin_same; eauto.
        * apply F2; auto. lia.
  Qed.

  Lemma glens_init : glens (psh_init (s_up s) (s_dn s)).
  Proof using HK HO. destruct HO as [((U & _) & (D & _) & _) _]. intros [|]; cbn; rewrite repeat_length; auto. Qed.
  Lemma cell_ini_init u k : cell_ini u k (psh_init (s_up s) (s_dn s)).
  Proof using HK HO. intros x e y d _ _. unfold ini, wt, fl, w0. destruct d; cbn; (split; [reflexivity|]); apply nth_repeat. Qed.

  Lemma perfect_ok : exists S, perfect_weights c (s_up s) (s_dn s) = Some S /\ glens S /\ cell_fin 0 n S.
  Proof using HK HO.
    destruct (cell_ok 0 n ltac:(lia)) as (code & Ec & Hc).
    assert (En : cch_nodes c = n). { unfold cch_nodes. rewrite (co_fol _ _ _ _ _ HK). fold n. lia. }
    unfold perfect_weights. rewrite En, Ec. cbn [bind].
    destruct (Hc (psh_init (s_up s) (s_dn s)) (regs_new (repeat None n)) glens_init (cell_ini_init _ _)) as (S & p & R & _ & L & _ & F).
    { intros x v e t d Hx Hv Lv. apply (ch_up _ _ HC) in Hv. fold n in Hv. lia. } { reflexivity. }
    rewrite R. cbn [bind]. eauto.
  Qed.
  (** the result is determined *)
  Lemma perfect_unique S S' : glens S -> glens S' -> cell_fin 0 n S -> cell_fin 0 n S' -> S = S'.
  Proof using HK HO.
    intros L L' F F'.
    assert (G : forall d, g_w d S = g_w d S' /\ g_m d S = g_m d S').
    { intros d. destruct (L d) as [L1 L2], (L' d) as [L3 L4].
      assert (K : forall e, e < m -> wt d S e = wt d S' e /\ fl d S e = fl d S' e).
      { intros e He. destruct (edge_ex nodes e He) as (x & y & Hxy). pose proof (edge_tail_lt _ _ _ _ Hxy) as Hx. rewrite (ch_len _ _ HC) in Hx. fold n in Hx.
        destruct (F x e y d ltac:(lia) Hxy) as [M1 M2], (F' x e y d ltac:(lia) Hxy) as [M3 M4].
        assert (E : wt d S e = wt d S' e). { pose proof (M2 _ (mi_walk _ _ _ _ _ M3)). pose proof (M4 _ (mi_walk _ _ _ _ _ M1)). lia. }
        split; [auto|]. rewrite (mi_fl _ _ _ _ _ M1), (mi_fl _ _ _ _ _ M3), E. reflexivity. }
      split; [apply list_ext_nth with (d := 0%N)|apply list_ext_nth with (d := false)]; try congruence; intros e He; apply K; congruence. }
    destruct (G true) as [G1 G2], (G false) as [G3 G4]. destruct S, S'. cbn in *. congruence.
  Qed.
End Perfect.
