(** Proofs about the perfect customization with validities. *)
From Verif Require Import Base SpecGraph BitVec GraphProof Graph CCH CCHBuildProof CCHContractProof CCHPerfect SpecValidity Validity.

(** ** The weights are those of the perfect customization *)
Record sim (s : pshared) (p : pregs) (vs : vshared) (vp : vregs) : Prop := {
  sm_w : forall b, v_w b vs = g_w b s;
  sm_l : forall b, length (v_v b vs) = length (g_w b s);
  sm_m : forall b, length (v_v b vs) = length (g_m b s);
  sm_ws : x_ws vp = r_ws p; sm_oth : x_oth vp = r_oth p; sm_a : x_a vp = r_a p; sm_b : x_b vp = r_b p; sm_c : x_c vp = r_c p }.
Lemma v_w_put b u s l : v_w b (v_put_w u s l) = if Bool.eqb b u then l else v_w b s.
Proof. destruct b, u; reflexivity. Qed.
Lemma v_v_put b u s l : v_v b (v_put_v u s l) = if Bool.eqb b u then l else v_v b s.
Proof. destruct b, u; reflexivity. Qed.
Lemma v_wv b u s l : v_w b (v_put_v u s l) = v_w b s.
Proof. destruct b, u; reflexivity. Qed.
Lemma v_vw b u s l : v_v b (v_put_w u s l) = v_v b s.
Proof. destruct b, u; reflexivity. Qed.
Lemma g_w_put b u s l : g_w b (put_w u s l) = if Bool.eqb b u then l else g_w b s.
Proof. destruct b, u; reflexivity. Qed.
Lemma g_m_put b u s l : g_m b (put_m u s l) = if Bool.eqb b u then l else g_m b s.
Proof. destruct b, u; reflexivity. Qed.
Lemma g_wm b u s l : g_w b (put_m u s l) = g_w b s.
Proof. destruct b, u; reflexivity. Qed.
Lemma g_mw b u s l : g_m b (put_w u s l) = g_m b s.
Proof. destruct b, u; reflexivity. Qed.
Lemma bind_inv {A B} (x : option A) (f : A -> option B) r : (a <- x ;; f a) = Some r -> exists a, x = Some a /\ f a = Some r.
Proof. destruct x; cbn; [eauto|discriminate]. Qed.

Lemma step_sim i s p s' p' vs vp : pstep (s, p) i = Some (s', p') -> sim s p vs vp -> exists vs' vp', vstep (vs, vp) i = Some (vs', vp') /\ sim s' p' vs' vp'.
Proof.
  intros E [W L M Ews Eo Ea Eb Ec].
  assert (ID : forall o, v_id vp o = opnd_id p o) by (intros []; cbn; auto).
  destruct i as [x e|x|x|r up o|up o|up o]; cbn [pstep vstep] in *; rewrite ?Ews, ?Eo.
  - apply bind_inv in E. destruct E as (ws & E1 & E). injection E as <- <-. rewrite E1. cbn [bind]. eexists _, _. split; [reflexivity|]. constructor; cbn; auto.
  - apply bind_inv in E. destruct E as (ws & E1 & E). injection E as <- <-. rewrite E1. cbn [bind]. eexists _, _. split; [reflexivity|]. constructor; cbn; auto.
  - apply bind_inv in E. destruct E as (ws & E1 & E). injection E as <- <-. rewrite E1. cbn [bind]. eexists _, _. split; [reflexivity|]. constructor; cbn; auto.
  - destruct (r_oth p) as [ot|] eqn:Er. 2: { injection E as <- <-. exists vs, vp. split; [reflexivity|]. constructor; auto; congruence. }
    apply bind_inv in E. destruct E as (e & E1 & E). apply bind_inv in E. destruct E as (w & E2 & E). injection E as <- <-. rewrite ID, E1. cbn [bind]. rewrite W, E2. cbn [bind].
    rewrite (nth_error_nth' (v_v up vs) 0%N (n := e)) by (rewrite L; eapply nth_error_Some_lt; eauto). cbn [bind]. destruct r; (eexists _, _; split; [reflexivity|]; constructor; cbn; auto; congruence).
  - destruct (r_oth p) as [ot|] eqn:Er. 2: { injection E as <- <-. exists vs, vp. split; [reflexivity|]. constructor; auto; congruence. }
    apply bind_inv in E. destruct E as (e & E1 & E). apply bind_inv in E. destruct E as (t & E2 & E). rewrite ID, E1. cbn [bind]. rewrite Ea, Eb, E2, Ec. cbn [bind].
    destruct (t <? r_c p)%N. 2: { injection E as <- <-. exists vs, vp. split; [reflexivity|]. constructor; auto; congruence. }
    apply bind_inv in E. destruct E as (l & E3 & E). injection E as <- <-. rewrite W, E3. cbn [bind]. eexists _, _. split; [reflexivity|].
    apply set_at_Some in E3. destruct E3 as [Hl ->]. constructor; auto; try congruence; intros b; rewrite ?v_w_put, ?g_w_put, ?v_vw, ?g_mw; auto; destruct (Bool.eqb_spec b up) as [->|]; auto. rewrite upd_length. auto.
  - destruct (r_oth p) as [ot|] eqn:Er. 2: { injection E as <- <-. exists vs, vp. split; [reflexivity|]. constructor; auto; congruence. }
    apply bind_inv in E. destruct E as (e & E1 & E). apply bind_inv in E. destruct E as (t & E2 & E). rewrite ID, E1. cbn [bind]. rewrite Ea, Eb, E2, Ec. cbn [bind].
    destruct (t <? r_c p)%N. 2: { injection E as <- <-. exists vs, vp. split; [reflexivity|]. constructor; auto; congruence. }
    apply bind_inv in E. destruct E as (l & E3 & E). injection E as <- <-. apply set_at_Some in E3. destruct E3 as [Hl ->]. rewrite set_at_lt by (rewrite M; auto). cbn [bind]. eexists _, _. split; [reflexivity|].
    constructor; auto; try congruence; intros b; rewrite ?v_v_put, ?v_wv, ?g_wm, ?g_m_put; auto; destruct (Bool.eqb_spec b up) as [->|]; rewrite ?upd_length; auto.
Qed.
Lemma run_sim code : forall s p s' p' vs vp, prun code (s, p) = Some (s', p') -> sim s p vs vp -> exists vs' vp', vrun code (vs, vp) = Some (vs', vp') /\ sim s' p' vs' vp'.
Proof.
  unfold prun, vrun. induction code as [|i code IH]; intros s p s' p' vs vp E S; cbn [foldM] in *. { injection E as <- <-. eauto. }
  apply bind_inv in E. destruct E as ([s1 p1] & E1 & E). destruct (step_sim _ _ _ _ _ _ _ E1 S) as (vs1 & vp1 & F1 & S1). rewrite F1. cbn [bind]. eapply IH; eauto.
Qed.
Lemma weights_sim c up dn upv dnv s : perfect_weights c up dn = Some s -> length upv = length up -> length dnv = length dn ->
  exists vs, customize_with_validity c up dn upv dnv = Some vs /\ v_up vs = g_up s /\ v_dn vs = g_dn s.
Proof.
  unfold perfect_weights, customize_with_validity. intros E L1 L2. apply bind_inv in E. destruct E as (code & Ec & E). rewrite Ec. cbn [bind]. apply bind_inv in E. destruct E as ([s1 p1] & E1 & [= ->]).
  destruct (run_sim _ _ _ _ _ (mkVsh up dn upv dnv) (vregs_new (repeat None (cch_nodes c))) E1) as (vs & vp & F & S).
  { constructor; try reflexivity; intros []; cbn; rewrite ?repeat_length; auto. }
  rewrite F. cbn [bind]. exists vs. split; auto. split; [apply (sm_w _ _ _ _ S true)|apply (sm_w _ _ _ _ S false)].
Qed.

(** ** The validities *)
Lemma vrun_app l1 l2 s r : vrun (l1 ++ l2) s = Some r -> exists s1, vrun l1 s = Some s1 /\ vrun l2 s1 = Some r.
Proof. unfold vrun. rewrite foldM_app. apply bind_inv. Qed.
Section Sound.
  Variable c : cch.
  Hypothesis Hfun : forall e x y x' y', cch_arc c e x y -> cch_arc c e x' y' -> x = x' /\ y = y'.
  Variable metric : N -> nat -> nat -> N -> Prop.
  Variable s0 : vshared.
  Variable given : list N.
  Definition am (t : N) (b : bool) (x y : nat) (w : N) : Prop := if b then at_most (metric t) x y w else at_most (metric t) y x w.
  Definition cell (b : bool) (e : nat) (w v : N) : Prop :=
    ((w < INF)%N -> forall t x y, (v <= t)%N -> cch_arc c e x y -> am t b x y w) /\ In v given /\
    forall w0 v0, nth_error (v_w b s0) e = Some w0 -> nth_error (v_v b s0) e = Some v0 -> (w <= w0)%N /\ (w = w0 -> v = v0).
  Definition Inv (s : vshared) : Prop :=
    (forall b, length (v_w b s) = length (v_w b s0) /\ length (v_v b s) = length (v_v b s0)) /\
    (forall b e w, nth_error (v_w b s) e = Some w -> (w <= INF)%N) /\
    forall b e w v, nth_error (v_w b s) e = Some w -> nth_error (v_v b s) e = Some v -> cell b e w v.
  Lemma rel_none b a sb sc tgt s p : x_oth p = None -> vrun (rel_code b a sb sc tgt) (s, p) = Some (s, p).
  Proof. intros H. unfold vrun, rel_code. cbn [foldM vstep]. repeat (rewrite H; cbn [bind vstep]). reflexivity. Qed.
  Lemma rel_inv b a sb sc tgt s p s' p' ea et o : x_oth p = Some o -> v_id p a = Some ea -> v_id p tgt = Some et -> Inv s ->
    (forall t wa wb, (forall x y, cch_arc c ea x y -> am t b x y wa) -> (forall x y, cch_arc c sc x y -> am t sb x y wb) -> forall x y, cch_arc c et x y -> am t b x y (wa + wb)) ->
    vrun (rel_code b a sb sc tgt) (s, p) = Some (s', p') -> Inv s' /\ x_oth p' = Some o /\ x_ws p' = x_ws p.
  Proof.
    intros Ho Ia It (HL & HI & HC) Comp E. unfold vrun, rel_code in E. cbn [foldM] in E. unfold vstep at 1 in E. rewrite Ho, Ia in E. cbn [bind] in E.
    destruct (nth_error (v_w b s) ea) as [wa|] eqn:Wa; [|discriminate]. cbn [bind] in E. destruct (nth_error (v_v b s) ea) as [va|] eqn:Va; [|discriminate]. cbn [bind] in E.
    unfold vstep at 1 in E. cbn [x_oth v_id] in E. try rewrite Ho in E. cbn [bind] in E.
    destruct (nth_error (v_w sb s) sc) as [wb|] eqn:Wb; [|discriminate]. cbn [bind] in E. destruct (nth_error (v_v sb s) sc) as [vb|] eqn:Vb; [|discriminate]. cbn [bind] in E.
    unfold vstep at 1 in E. cbn [x_oth x_ws x_a x_b x_va x_vb x_c] in E. try rewrite Ho in E. assert (It' : forall q, x_oth q = x_oth p -> v_id q tgt = Some et). { intros q Hq. destruct tgt; cbn in *; congruence. }
    rewrite It' in E by (cbn; congruence). cbn [bind] in E. destruct (nth_error (v_w b s) et) as [wc|] eqn:Wc; [|discriminate]. cbn [bind] in E. destruct (nth_error (v_v b s) et) as [vc|] eqn:Vc; [|discriminate]. cbn [bind] in E.
    unfold vstep at 1 in E. cbn [x_oth x_ws x_a x_b x_va x_vb x_c] in E. rewrite It' in E by (cbn; congruence). cbn [bind] in E. destruct (cadd wa wb) as [t|] eqn:Et; [|discriminate]. cbn [bind] in E.
    assert (t = (wa + wb)%N). { unfold cadd in Et. destruct (_ <? _)%N in Et; congruence. } subst t.
    destruct (N.ltb_spec (wa + wb) wc) as [Hlt|Hge].
    - rewrite set_at_lt in E by (eapply nth_error_Some_lt; eauto). cbn [bind] in E. unfold vstep in E. cbn [x_oth x_ws x_a x_b x_va x_vb x_c] in E. rewrite It' in E by (cbn; congruence). cbn [bind] in E. rewrite Et in E. cbn [bind] in E.
      rewrite (proj2 (N.ltb_lt _ _) Hlt) in E. rewrite v_vw, set_at_lt in E by (eapply nth_error_Some_lt; eauto). cbn [bind] in E. injection E as <- <-. cbn [x_oth x_ws]. split; [|auto].
      pose proof (nth_error_Some_lt _ _ _ Wc) as LW. pose proof (nth_error_Some_lt _ _ _ Vc) as LV. pose proof (HI _ _ _ Wc) as Hc.
      split; [|split].
      + intros b'. rewrite v_wv, v_w_put, v_v_put, v_vw. destruct (HL b') as [L1 L2]. destruct (Bool.eqb_spec b' b) as [->|]; rewrite ?upd_length; auto.
      + intros b' e w. rewrite v_wv, v_w_put. destruct (Bool.eqb_spec b' b) as [->|]; [|apply HI]. destruct (Nat.eq_dec et e) as [<-|Ne]; [rewrite nth_error_upd_eq by auto; intros [= <-]; lia|rewrite nth_error_upd_neq by auto; apply HI].
      + intros b' e w v. rewrite v_wv, v_w_put, v_v_put, v_vw. destruct (Bool.eqb_spec b' b) as [->|]; [|apply HC].
        destruct (Nat.eq_dec et e) as [<-|Ne]; [|rewrite !nth_error_upd_neq by auto; apply HC]. rewrite !nth_error_upd_eq by auto. intros [= <-] [= <-].
        destruct (HC _ _ _ _ Wa Va) as (A1 & A2 & A3), (HC _ _ _ _ Wb Vb) as (B1 & B2 & B3), (HC _ _ _ _ Wc Vc) as (C1 & C2 & C3). split; [|split].
        * intros _ t x y Ht Hxy. apply (Comp t wa wb); auto; intros x' y' H; [apply A1|apply B1]; auto; lia.
        * destruct (N.max_spec va vb) as [[_ ->]|[_ ->]]; auto.
        * intros w0 v0 H1 H2. destruct (C3 _ _ H1 H2). split; [lia|intros; lia].
    - cbn [bind] in E. unfold vstep in E. cbn [x_oth x_ws x_a x_b x_va x_vb x_c] in E. rewrite It' in E by (cbn; congruence). cbn [bind] in E. rewrite Et in E. cbn [bind] in E.
      rewrite (proj2 (N.ltb_ge _ _) Hge) in E. cbn [bind] in E. injection E as <- <-. cbn [x_oth x_ws]. split; [|auto]. split; auto.
  Qed.
  Definition ws_in (cur : nat) (ws : list (option nat)) : Prop := forall x oth, nth_error ws x = Some (Some oth) -> cch_arc c oth cur x.
  Lemma at_most_trans arc x y z a b : at_most arc x y a -> at_most arc y z b -> at_most arc x z (a + b).
  Proof. intros (l1 & W1 & L1) (l2 & W2 & L2). exists (l1 + l2)%N. split; [eapply walk_app; eauto|lia]. Qed.
  Lemma tri_inv cur node e t sc s p s' p' : cch_arc c e cur node -> cch_arc c sc node t -> ws_in cur (x_ws p) -> Inv s -> vrun (tri_code e (t, sc)) (s, p) = Some (s', p') -> Inv s' /\ x_ws p' = x_ws p.
  Proof.
    intros He Hs Hw HI E. unfold tri_code in E. change (vrun ([PGet t] ++ (rel_code true (Own e) true sc Oth ++ rel_code true Oth false sc (Own e) ++ rel_code false (Own e) false sc Oth ++ rel_code false Oth true sc (Own e))) (s, p) = Some (s', p')) in E.
    apply vrun_app in E. destruct E as ([s1 p1] & E0 & E). unfold vrun in E0. cbn [foldM] in E0. apply bind_inv in E0. destruct E0 as ([s1' p1'] & E0 & E0'). injection E0' as -> ->. cbn [vstep] in E0. apply bind_inv in E0. destruct E0 as (o & Eo & E0). injection E0 as <- <-.
    apply vrun_app in E. destruct E as ([s2 p2] & E1 & E). apply vrun_app in E. destruct E as ([s3 p3] & E2 & E). apply vrun_app in E. destruct E as ([s4 p4] & E3 & E4).
    destruct o as [oth|].
    2: { rewrite rel_none in E1 by reflexivity. injection E1 as <- <-. rewrite rel_none in E2 by reflexivity. injection E2 as <- <-. rewrite rel_none in E3 by reflexivity. injection E3 as <- <-. rewrite rel_none in E4 by reflexivity. injection E4 as <- <-. auto. }
    pose proof (Hw _ _ Eo) as Ho.
    destruct (rel_inv true (Own e) true sc Oth s (mkVr (x_ws p) (Some oth) (x_a p) (x_b p) (x_c p) (x_va p) (x_vb p)) s2 p2 e oth oth eq_refl eq_refl eq_refl HI) with (2 := E1) as (I2 & O2 & W2).
    { intros t0 wa wb A B x y Hxy. destruct (Hfun _ _ _ _ _ Hxy Ho) as [-> ->]. exact (at_most_trans _ _ _ _ _ _ (A _ _ He) (B _ _ Hs)). }
    destruct (rel_inv true Oth false sc (Own e) s2 p2 s3 p3 oth e oth O2 O2 eq_refl I2) with (2 := E2) as (I3 & O3 & W3).
    { intros t0 wa wb A B x y Hxy. destruct (Hfun _ _ _ _ _ Hxy He) as [-> ->]. exact (at_most_trans _ _ _ _ _ _ (A _ _ Ho) (B _ _ Hs)). }
    destruct (rel_inv false (Own e) false sc Oth s3 p3 s4 p4 e oth oth O3 eq_refl O3 I3) with (2 := E3) as (I4 & O4 & W4).
    { intros t0 wa wb A B x y Hxy. destruct (Hfun _ _ _ _ _ Hxy Ho) as [-> ->]. rewrite N.add_comm. exact (at_most_trans _ _ _ _ _ _ (B _ _ Hs) (A _ _ He)). }
    destruct (rel_inv false Oth true sc (Own e) s4 p4 s' p' oth e oth O4 O4 eq_refl I4) with (2 := E4) as (I5 & O5 & W5).
    { intros t0 wa wb A B x y Hxy. destruct (Hfun _ _ _ _ _ Hxy He) as [-> ->]. rewrite N.add_comm. exact (at_most_trans _ _ _ _ _ _ (B _ _ Hs) (A _ _ Ho)). }
    split; auto. cbn [x_ws] in *. congruence.
  Qed.
  Lemma ids_arc x l y e : cch_ids c x = Some l -> In (y, e) l -> cch_arc c e x y.
  Proof.
    unfold cch_ids, cch_range. intros E Hin. apply bind_inv in E. destruct E as ([a b] & E1 & E). apply bind_inv in E1. destruct E1 as (a' & Ea & E1). apply bind_inv in E1. destruct E1 as (b' & Eb & [= -> ->]).
    apply bind_inv in E. destruct E as (h & Eh & [= <-]). apply In_nth_error in Hin. destruct Hin as (i & Hi). unfold slice in Eh. destruct ((a <=? b) && (b <=? length (c_head c))) eqn:G; cbn [guard bind] in Eh; [|discriminate]. injection Eh as <-.
    apply andb_true_iff in G. rewrite !Nat.leb_le in G.
    assert (H : nth_error (firstn (b - a) (skipn a (c_head c))) i = Some y /\ nth_error (seq a (b - a)) i = Some e).
    { revert Hi. generalize (firstn (b - a) (skipn a (c_head c))) (seq a (b - a)). intros l1. revert i. induction l1 as [|v l1 IH]; intros i l2 Hi; [destruct i; discriminate|]. destruct l2 as [|v2 l2]; [destruct i; discriminate|]. destruct i; cbn in *; [injection Hi as <- <-; auto|auto]. }
    destruct H as [H1 H2]. pose proof (nth_error_Some_lt _ _ _ H2) as Li. rewrite seq_length in Li. pose proof (nth_error_nth _ _ 0 H2) as Es. rewrite seq_nth in Es by auto. subst e.
    exists a, b. split; auto. split; auto. split; [lia|]. rewrite <- H1. rewrite <- (firstn_skipn (b - a) (skipn a (c_head c))) in *. 
    assert (nth_error (c_head c) (a + i) = nth_error (skipn a (c_head c)) i) as ->. { clear. generalize (c_head c). induction a; intros l; destruct l; cbn; auto. destruct i; auto. }
    rewrite <- (firstn_skipn (b - a) (skipn a (c_head c))) at 1. rewrite nth_error_app1; [|rewrite firstn_length, skipn_length; lia]. rewrite firstn_skipn. reflexivity.
  Qed.
  Lemma tris_inv cur node e : cch_arc c e cur node -> forall l, (forall t sc, In (t, sc) l -> cch_arc c sc node t) -> forall s p s' p', ws_in cur (x_ws p) -> Inv s ->
    vrun (flat_map (tri_code e) l) (s, p) = Some (s', p') -> Inv s' /\ x_ws p' = x_ws p.
  Proof.
    intros He. induction l as [|[t sc] l IH]; intros Hl s p s' p' Hw HI E. { cbn in E. injection E as <- <-. auto. }
    cbn [flat_map] in E. apply vrun_app in E. destruct E as ([s1 p1] & E1 & E). destruct (tri_inv cur node e t sc s p s1 p1 He (Hl _ _ (or_introl eq_refl)) Hw HI E1) as [I1 W1].
    destruct (IH ltac:(intros; apply Hl; cbn; auto) s1 p1 s' p' ltac:(rewrite W1; auto) I1 E) as [I2 W2]. split; auto. congruence.
  Qed.
  Lemma sets_inv cur : forall own, (forall x e, In (x, e) own -> cch_arc c e cur x) -> forall s p s' p', ws_in cur (x_ws p) -> vrun (map (fun ve => PSet (fst ve) (snd ve)) own) (s, p) = Some (s', p') ->
    s' = s /\ ws_in cur (x_ws p') /\ forall x, nth_error (x_ws p) x = Some None -> nth_error (x_ws p') x = Some None \/ In x (map fst own).
  Proof.
    induction own as [|[x e] own IH]; intros Ho s p s' p' Hw E; cbn [map] in E. { cbn in E. injection E as <- <-. auto. }
    unfold vrun in E. cbn [foldM] in E. apply bind_inv in E. destruct E as ([s1 p1] & E1 & E). cbn [vstep fst snd] in E1. apply bind_inv in E1. destruct E1 as (ws & E1 & E2). injection E2 as <- <-. apply set_at_Some in E1. destruct E1 as [Hx ->].
    destruct (IH ltac:(intros; apply Ho; cbn; auto) s (mkVr (upd (x_ws p) x (Some e)) (x_oth p) (x_a p) (x_b p) (x_c p) (x_va p) (x_vb p)) s' p') with (2 := E) as (E3 & Hw' & Hk).
    { cbn [x_ws]. intros y oth Hy. destruct (Nat.eq_dec x y) as [<-|Ne]; [rewrite nth_error_upd_eq in Hy by auto; injection Hy as <-; apply Ho; cbn; auto|rewrite nth_error_upd_neq in Hy by auto; auto]. }
    split; auto. split; auto. intros y Hy. cbn [x_ws map fst] in *. destruct (Nat.eq_dec x y) as [<-|Ne]; [right; cbn; auto|]. destruct (Hk y) as [H|H]; [rewrite nth_error_upd_neq by auto; auto|auto|right; cbn; auto].
  Qed.
  Lemma clrs_inv : forall own s p s' p', vrun (map (fun ve : nat * nat => PClr (fst ve)) own) (s, p) = Some (s', p') ->
    s' = s /\ length (x_ws p') = length (x_ws p) /\ forall x, nth_error (x_ws p) x = Some None \/ (x < length (x_ws p) /\ In x (map fst own)) -> nth_error (x_ws p') x = Some None.
  Proof.
    induction own as [|[x e] own IH]; intros s p s' p' E; cbn [map] in E. { cbn in E. injection E as <- <-. split; auto. split; auto. intros x [H|[_ []]]; auto. }
    unfold vrun in E. cbn [foldM] in E. apply bind_inv in E. destruct E as ([s1 p1] & E1 & E). cbn [vstep fst snd] in E1. apply bind_inv in E1. destruct E1 as (ws & E1 & E2). injection E2 as <- <-. apply set_at_Some in E1. destruct E1 as [Hx ->].
    destruct (IH s _ s' p' E) as (E3 & Hl & Hk). cbn [x_ws] in *. rewrite upd_length in *. split; auto. split; auto. intros y Hy. apply Hk. cbn [map fst] in Hy. destruct (Nat.eq_dec x y) as [<-|Ne]; [left; apply nth_error_upd_eq; auto|].
    rewrite nth_error_upd_neq by auto. destruct Hy as [Hy|[Hy [Hi|Hi]]]; auto. contradiction.
  Qed.
  Definition all_clear (ws : list (option nat)) : Prop := forall x, x < length ws -> nth_error ws x = Some None.
  Lemma sets_len : forall own s p s' p', vrun (map (fun ve : nat * nat => PSet (fst ve) (snd ve)) own) (s, p) = Some (s', p') -> length (x_ws p') = length (x_ws p).
  Proof.
    induction own as [|[x e] own IH]; intros s p s' p' E; cbn [map] in E. { cbn in E. injection E as <- <-. auto. }
    unfold vrun in E. cbn [foldM] in E. apply bind_inv in E. destruct E as ([s1 p1] & E1 & E). cbn [vstep fst snd] in E1. apply bind_inv in E1. destruct E1 as (ws & E1 & E2). injection E2 as <- <-. apply set_at_Some in E1. destruct E1 as [Hx ->].
    rewrite (IH _ _ _ _ E). cbn [x_ws]. apply upd_length.
  Qed.
  Lemma node_inv cur code s p s' p' : pnode_code c cur = Some code -> all_clear (x_ws p) -> Inv s -> vrun code (s, p) = Some (s', p') -> Inv s' /\ all_clear (x_ws p').
  Proof.
    unfold pnode_code. intros E Hc HI R. apply bind_inv in E. destruct E as (own & Eo & E). apply bind_inv in E. destruct E as (tri & Et & E). injection E as <-.
    assert (Ho : forall x e, In (x, e) own -> cch_arc c e cur x) by (intros; eapply ids_arc; eauto).
    apply vrun_app in R. destruct R as ([s1 p1] & R1 & R). apply vrun_app in R. destruct R as ([s2 p2] & R2 & R3).
    destruct (sets_inv cur own Ho s p s1 p1) with (2 := R1) as (-> & Hw & Hk). { intros x oth H. rewrite Hc in H by (eapply nth_error_Some_lt; eauto). discriminate. }
    pose proof (sets_len _ _ _ _ _ R1) as Ls.
    assert (H2 : Inv s2 /\ x_ws p2 = x_ws p1).
    { apply mapM_inv in Et. clear R1 R3 Eo Hk Ls. revert p1 Hw s HI R2. induction Et as [|[x e] code own tri E1 Et IH]; intros p1 Hw s HI R2; cbn [concat] in R2. { cbn in R2. injection R2 as <- <-. auto. }
      apply vrun_app in R2. destruct R2 as ([s3 p3] & R2 & R4). cbn [fst snd] in E1. apply bind_inv in E1. destruct E1 as (up & Eu & [= <-]).
      destruct (tris_inv cur x e (Ho _ _ (or_introl eq_refl)) up ltac:(intros; eapply ids_arc; eauto) s p1 s3 p3 Hw HI R2) as [I3 W3].
      destruct (IH ltac:(intros; apply Ho; cbn; auto) p3 ltac:(rewrite W3; auto) s3 I3 R4) as [I4 W4]. split; auto. congruence. }
    destruct H2 as [I2 W2]. destruct (clrs_inv _ _ _ _ _ R3) as (-> & L3 & K3). split; auto. intros x Hx. rewrite L3, W2 in Hx. apply K3. rewrite W2.
    destruct (Hk x) as [H|H]; [apply Hc; lia|auto|auto].
  Qed.
  Lemma nodes_inv u k code s p s' p' : pnodes_code c u k = Some code -> all_clear (x_ws p) -> Inv s -> vrun code (s, p) = Some (s', p') -> Inv s'.
  Proof.
    unfold pnodes_code. intros E Hc HI R. apply bind_inv in E. destruct E as (l & El & [= <-]). apply mapM_inv in El. revert s p Hc HI R. induction El as [|cur code nodes l E1 El IH]; intros s p Hc HI R; cbn [concat] in R. { cbn in R. injection R as <- <-. auto. }
    apply vrun_app in R. destruct R as ([s1 p1] & R1 & R). destruct (node_inv cur code s p s1 p1 E1 Hc HI R1) as [I1 C1]. eapply IH; eauto.
  Qed.
End Sound.

Lemma validity_sound c metric up dn upv dnv vs : (forall e x y x' y', cch_arc c e x y -> cch_arc c e x' y' -> x = x' /\ y = y') ->
  length upv = length up -> length dnv = length dn -> (forall w, In w up \/ In w dn -> (w <= INF)%N) ->
  customize_with_validity c up dn upv dnv = Some vs -> valid_bounds metric c up dn upv dnv ->
  valid_bounds metric c (v_up vs) (v_dn vs) (v_upv vs) (v_dnv vs) /\ refines (upv ++ dnv) up upv (v_up vs) (v_upv vs) /\ refines (upv ++ dnv) dn dnv (v_dn vs) (v_dnv vs).
Proof.
  intros Hf L1 L2 HW E HB. unfold customize_with_validity in E. apply bind_inv in E. destruct E as (code & Ec & E). apply bind_inv in E. destruct E as ([s p] & Er & [= ->]).
  set (s0 := mkVsh up dn upv dnv) in *.
  assert (HI : Inv c metric s0 (upv ++ dnv) vs).
  { eapply (nodes_inv c Hf metric s0 (upv ++ dnv) 0 (cch_nodes c) code s0 _ vs p Ec); [| |exact Er].
    - cbn [vregs_new x_ws]. intros x Hx. rewrite repeat_length in Hx. rewrite nth_error_repeat, (proj2 (Nat.ltb_lt _ _)) by auto. reflexivity.
    - split; [auto|]. split. { intros [] e w H; apply nth_error_In in H; apply HW; auto. }
      intros b e w v Hw Hv. split; [|split].
      + intros Hlt t x y Ht Hxy. destruct (HB _ _ _ Hxy) as [H1 H2]. destruct b; [eapply H1|eapply H2]; eauto.
      + apply in_or_app. destruct b; [left|right]; eapply nth_error_In; eauto.
      + intros w0 v0 H1 H2. split; [assert (w = w0) by congruence; lia|intros; congruence]. }
  destruct HI as (HL & _ & HC). split; [|split].
  - intros e x y Hxy. split; intros w v t Hw Hv Hlt Ht; [apply (HC true e w v Hw Hv)|apply (HC false e w v Hw Hv)]; auto.
  - destruct (HL true) as [A B]. split; auto. split; auto. intros e w v w' v' H1 H2 H3 H4. destruct (HC true e w' v' H3 H4) as (_ & I & C). destruct (C _ _ H1 H2). auto.
  - destruct (HL false) as [A B]. split; auto. split; auto. intros e w v w' v' H1 H2 H3 H4. destruct (HC false e w' v' H3 H4) as (_ & I & C). destruct (C _ _ H1 H2). auto.
Qed.
