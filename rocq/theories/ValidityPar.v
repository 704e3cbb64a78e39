(** Parallel perfect customization with validities: every interleaving gives the result of the sequential routine. *)
From Verif Require Import Base BitVec Graph SpecGraph SpecCCH CCH CCHTheory CCHContractProof CCHBuildProof CCHCustProof CCHPathTheory NodeOrder SepTree SepTreeProof CCHPar CCHParProof CCHParTreeProof CCHPerfect CCHPerfectProof CCHPerfectPar Validity ValidityProof.

Lemma vtask_ind2 (P : vtask -> Prop) : (forall code subs, Forall P subs -> P (VExec code subs)) -> (forall p code subs, Forall P subs -> P (VRun p code subs)) ->
  (forall subs, Forall P subs -> P (VScope subs)) -> forall t, P t.
Proof.
  intros H1 H2 H3. fix IH 1. intros [code subs|p code subs|subs]; [apply H1|apply H2|apply H3]; induction subs; constructor; try apply IH; assumption.
Qed.
Fixpoint vsize (t : vtask) : nat :=
  match t with
  | VExec code subs => 2 + length code + list_sum (map vsize subs)
  | VRun _ code subs => 1 + length code + list_sum (map vsize subs)
  | VScope subs => list_sum (map vsize subs)
  end.
Lemma vtstep_size s t s' t' : vtstep s t s' t' -> vsize t' < vsize t.
Proof.
  induction 1; cbn [vsize length]; try lia. rewrite !map_app, !list_sum_app. cbn [map list_sum fold_right]. unfold list_sum in *. cbn [fold_right]. lia.
Qed.
Lemma vtsteps_size k s t s' t' : vtsteps k s t s' t' -> k + vsize t' <= vsize t.
Proof. induction 1; [lia|]. apply vtstep_size in H. lia. Qed.
Fixpoint vrunning (t : vtask) : nat :=
  match t with
  | VExec _ _ => 0
  | VRun _ _ _ => 1
  | VScope subs => list_sum (map vrunning subs)
  end.

(** ** instructions only touch the edges they may *)
Definition vag (R : nat -> Prop) (S1 S2 : vshared) : Prop :=
  forall d, length (v_w d S1) = length (v_w d S2) /\ length (v_v d S1) = length (v_v d S2) /\
    forall e, R e -> nth_error (v_w d S1) e = nth_error (v_w d S2) e /\ nth_error (v_v d S1) e = nth_error (v_v d S2) e.
Lemma vag_refl R S : vag R S S.
Proof. intros d. auto. Qed.
Lemma vag_sym R S1 S2 : vag R S1 S2 -> vag R S2 S1.
Proof. intros H d. destruct (H d) as (A & B & C). split; [auto|]. split; [auto|]. intros e He. destruct (C e He). auto. Qed.
Lemma vag_trans R S1 S2 S3 : vag R S1 S2 -> vag R S2 S3 -> vag R S1 S3.
Proof.
  intros H H' d. destruct (H d) as (A & B & C), (H' d) as (A' & B' & C'). split; [congruence|]. split; [congruence|].
  intros e He. destruct (C e He), (C' e He). split; congruence.
Qed.
Lemma vag_sub (R R' : nat -> Prop) S1 S2 : (forall e, R' e -> R e) -> vag R S1 S2 -> vag R' S1 S2.
Proof. intros H A d. destruct (A d) as (X & Y & Z). auto. Qed.
Lemma vag_or (R R1 R2 : nat -> Prop) S1 S2 : (forall e, R e -> R1 e \/ R2 e) -> vag R1 S1 S2 -> vag R2 S1 S2 -> vag R S1 S2.
Proof. intros H A B d. destruct (A d) as (X & Y & Z), (B d) as (_ & _ & Z'). split; [auto|]. split; [auto|]. intros e He. destruct (H e He); auto. Qed.
Definition vrok (W : nat -> Prop) (p : vregs) : Prop :=
  (forall x e, nth_error (x_ws p) x = Some (Some e) -> W e) /\ (forall e, x_oth p = Some e -> W e).

Lemma vput_w_agree R d S1 S2 e t : vag R S1 S2 -> vag R (v_put_w d S1 (upd (v_w d S1) e t)) (v_put_w d S2 (upd (v_w d S2) e t)).
Proof.
  intros H d'. rewrite !v_w_put, !v_vw. destruct (H d') as (A & B & C). destruct (Bool.eqb_spec d' d) as [->|]; [|auto].
  rewrite !upd_length. split; [auto|]. split; [auto|]. intros e' He'. destruct (C e' He') as [C1 C2]. split; [|auto]. rewrite !nth_error_upd, <- A. rewrite C1. reflexivity.
Qed.
Lemma vput_v_agree R d S1 S2 e t : vag R S1 S2 -> vag R (v_put_v d S1 (upd (v_v d S1) e t)) (v_put_v d S2 (upd (v_v d S2) e t)).
Proof.
  intros H d'. rewrite !v_v_put, !v_wv. destruct (H d') as (A & B & C). destruct (Bool.eqb_spec d' d) as [->|]; [|auto].
  rewrite !upd_length. split; [auto|]. split; [auto|]. intros e' He'. destruct (C e' He') as [C1 C2]. split; [auto|]. rewrite !nth_error_upd, <- B. rewrite C2. reflexivity.
Qed.
Lemma vput_w_out (W : nat -> Prop) d S e t : W e -> vag (fun e => ~ W e) S (v_put_w d S (upd (v_w d S) e t)).
Proof.
  intros He d'. rewrite !v_w_put, !v_vw. destruct (Bool.eqb_spec d' d) as [->|]; [|auto].
  rewrite !upd_length. split; [auto|]. split; [auto|]. intros e' He'. split; [|auto]. rewrite nth_error_upd_neq; auto. intros ->. auto.
Qed.
Lemma vput_v_out (W : nat -> Prop) d S e t : W e -> vag (fun e => ~ W e) S (v_put_v d S (upd (v_v d S) e t)).
Proof.
  intros He d'. rewrite !v_v_put, !v_wv. destruct (Bool.eqb_spec d' d) as [->|]; [|auto].
  rewrite !upd_length. split; [auto|]. split; [auto|]. intros e' He'. split; [auto|]. rewrite nth_error_upd_neq; auto. intros ->. auto.
Qed.

Lemma vstep_frame (R W : nat -> Prop) S1 S2 p i S1' p' : (forall e, W e -> R e) -> vag R S1 S2 -> iok R W i -> vrok W p -> vstep (S1, p) i = Some (S1', p') ->
  exists S2', vstep (S2, p) i = Some (S2', p') /\ vag R S1' S2' /\ vag (fun e => ~ W e) S2 S2' /\ vrok W p'.
Proof.
  intros WR HA HI [K1 K2] E. destruct i as [x e|x|x|r up o|up o|up o]; cbn [vstep iok] in E, HI |- *.
  - destruct (set_at (x_ws p) x (Some e)) as [ws|] eqn:Ew; cbn [bind] in E |- *; [|discriminate]. injection E as <- <-. exists S2. split; [reflexivity|]. split; [auto|]. split; [apply vag_refl|].
    apply set_at_Some in Ew as [Lx ->]. split; cbn [x_ws x_oth]; [|auto]. intros x' e' H. rewrite nth_error_upd in H. destruct ((x =? x') && _) eqn:B; [injection H as <-; auto|eauto].
  - destruct (set_at (x_ws p) x None) as [ws|] eqn:Ew; cbn [bind] in E |- *; [|discriminate]. injection E as <- <-. exists S2. split; [reflexivity|]. split; [auto|]. split; [apply vag_refl|].
    apply set_at_Some in Ew as [Lx ->]. split; cbn [x_ws x_oth]; [|auto]. intros x' e' H. rewrite nth_error_upd in H. destruct ((x =? x') && _) eqn:B; [discriminate|eauto].
  - destruct (nth_error (x_ws p) x) as [ws|] eqn:Ew; cbn [bind] in E |- *; [|discriminate]. injection E as <- <-. exists S2. split; [reflexivity|]. split; [auto|]. split; [apply vag_refl|].
    split; cbn [x_ws x_oth]; [auto|]. intros e ->. eauto.
  - destruct (x_oth p) as [eo|] eqn:Eo. 2: { injection E as <- <-. exists S2. split; [reflexivity|]. split; [auto|]. split; [apply vag_refl|]. split; [auto|rewrite Eo; auto]. }
    destruct (v_id p o) as [e|] eqn:Ei; cbn [bind] in E |- *; [|discriminate].
    assert (Re : R e). { destruct o; cbn [v_id ook] in Ei, HI; [injection Ei as <-; auto|]. rewrite Eo in Ei. injection Ei as <-. auto. }
    destruct (HA up) as (_ & _ & C). destruct (C e Re) as [<- <-]. destruct (nth_error (v_w up S1) e) as [w|]; cbn [bind] in E |- *; [|discriminate].
    destruct (nth_error (v_v up S1) e) as [v|]; cbn [bind] in E |- *; [|discriminate].
    injection E as <- <-. exists S2. split; [reflexivity|]. split; [auto|]. split; [apply vag_refl|]. destruct r; split; cbn [x_ws x_oth]; auto; congruence.
  - destruct (x_oth p) as [eo|] eqn:Eo. 2: { injection E as <- <-. exists S2. split; [reflexivity|]. split; [auto|]. split; [apply vag_refl|]. split; [auto|rewrite Eo; auto]. }
    destruct (v_id p o) as [e|] eqn:Ei; cbn [bind] in E |- *; [|discriminate].
    assert (We : W e). { destruct o; cbn [v_id ook] in Ei, HI; [injection Ei as <-; auto|]. rewrite Eo in Ei. injection Ei as <-. auto. }
    destruct (cadd (x_a p) (x_b p)) as [t|]; cbn [bind] in E |- *; [|discriminate]. destruct (t <? x_c p)%N.
    2: { injection E as <- <-. exists S2. split; [reflexivity|]. split; [auto|]. split; [apply vag_refl|]. split; [auto|rewrite Eo; auto]. }
    destruct (set_at (v_w up S1) e t) as [l|] eqn:Es; cbn [bind] in E; [|discriminate]. destruct (HA up) as (A & _ & _).
    destruct (set_at_agree _ _ _ _ _ A Es) as (-> & -> & Le). cbn [bind]. injection E as <- <-. eexists. split; [reflexivity|].
    split; [apply vput_w_agree; auto|]. split; [apply vput_w_out; auto|]. split; [auto|rewrite Eo; auto].
  - destruct (x_oth p) as [eo|] eqn:Eo. 2: { injection E as <- <-. exists S2. split; [reflexivity|]. split; [auto|]. split; [apply vag_refl|]. split; [auto|rewrite Eo; auto]. }
    destruct (v_id p o) as [e|] eqn:Ei; cbn [bind] in E |- *; [|discriminate].
    assert (We : W e). { destruct o; cbn [v_id ook] in Ei, HI; [injection Ei as <-; auto|]. rewrite Eo in Ei. injection Ei as <-. auto. }
    destruct (cadd (x_a p) (x_b p)) as [t|]; cbn [bind] in E |- *; [|discriminate]. destruct (t <? x_c p)%N.
    2: { injection E as <- <-. exists S2. split; [reflexivity|]. split; [auto|]. split; [apply vag_refl|]. split; [auto|rewrite Eo; auto]. }
    destruct (set_at (v_v up S1) e _) as [l|] eqn:Es; cbn [bind] in E; [|discriminate]. destruct (HA up) as (_ & A & _).
    destruct (set_at_agree _ _ _ _ _ A Es) as (-> & -> & Le). cbn [bind]. injection E as <- <-. eexists. split; [reflexivity|].
    split; [apply vput_v_agree; auto|]. split; [apply vput_v_out; auto|]. split; [auto|rewrite Eo; auto].
Qed.
Lemma vrun_frame (R W : nat -> Prop) code : (forall e, W e -> R e) -> Forall (iok R W) code -> forall S1 S2 p S1' p', vag R S1 S2 -> vrok W p -> vrun code (S1, p) = Some (S1', p') ->
  exists S2', vrun code (S2, p) = Some (S2', p') /\ vag R S1' S2' /\ vag (fun e => ~ W e) S2 S2' /\ vrok W p'.
Proof.
  intros WR F. unfold vrun. induction F as [|i code Hi F IH]; intros S1 S2 p S1' p' A K E; cbn [foldM] in *.
  - injection E as <- <-. exists S2. split; [reflexivity|]. split; [auto|]. split; [apply vag_refl|auto].
  - apply bind_inv in E. destruct E as ([S3 p3] & E1 & E). destruct (vstep_frame R W S1 S2 p i S3 p3) as (S4 & E2 & A2 & O2 & K2); auto. rewrite E2. cbn [bind].
    destruct (IH S3 S4 p3 S1' p' A2 K2 E) as (S5 & E5 & A5 & O5 & K5). exists S5. split; [auto|]. split; [auto|]. split; [|auto]. eapply vag_trans; eauto.
Qed.

(** ** the routine does not depend on what is left in the variables of its body *)
Definition indep (code : list pinstr) : Prop := forall S p q S' p', x_ws p = x_ws q -> vrun code (S, p) = Some (S', p') ->
  exists q', vrun code (S, q) = Some (S', q') /\ x_ws p' = x_ws q'.
Lemma indep_nil : indep [].
Proof. intros S p q S' p' H E. injection E as <- <-. exists q. auto. Qed.
Lemma indep_app a b : indep a -> indep b -> indep (a ++ b).
Proof.
  intros Ha Hb S p q S' p' H E. apply vrun_app in E. destruct E as ([S1 p1] & E1 & E2). destruct (Ha S p q S1 p1 H E1) as (q1 & F1 & H1). destruct (Hb _ _ _ _ _ H1 E2) as (q2 & F2 & H2).
  exists q2. split; [|auto]. unfold vrun in *. rewrite foldM_app, F1. exact F2.
Qed.
Lemma indep_concat l : Forall indep l -> indep (concat l).
Proof. induction 1; [apply indep_nil|]. cbn [concat]. apply indep_app; auto. Qed.
Lemma indep_map {A} (f : A -> list pinstr) l : (forall a, In a l -> indep (f a)) -> indep (flat_map f l).
Proof. induction l as [|a l IH]; intros H; [apply indep_nil|]. cbn [flat_map]. apply indep_app; [apply H; left; auto|apply IH; intros; apply H; right; auto]. Qed.
Lemma indep_set x e : indep [PSet x e].
Proof.
  intros S p q S' p' H E. unfold vrun in *. cbn [foldM vstep] in *. rewrite <- H. destruct (set_at (x_ws p) x (Some e)); cbn [bind] in *; [|discriminate]. injection E as <- <-. eexists. split; [reflexivity|reflexivity].
Qed.
Lemma indep_clr x : indep [PClr x].
Proof.
  intros S p q S' p' H E. unfold vrun in *. cbn [foldM vstep] in *. rewrite <- H. destruct (set_at (x_ws p) x None); cbn [bind] in *; [|discriminate]. injection E as <- <-. eexists. split; [reflexivity|reflexivity].
Qed.
Lemma rel_indep up a scup sc tgt S p q S' p' : x_ws p = x_ws q -> x_oth p = x_oth q -> vrun (rel_code up a scup sc tgt) (S, p) = Some (S', p') ->
  exists q', vrun (rel_code up a scup sc tgt) (S, q) = Some (S', q') /\ x_ws p' = x_ws q' /\ x_oth p' = x_oth q'.
Proof.
  destruct p as [ws o a1 b1 c1 d1 e1], q as [ws' o' a2 b2 c2 d2 e2]. cbn [x_ws x_oth]. intros <- <- E. unfold vrun, rel_code in *. destruct o as [eo|].
  2: { cbn in *. injection E as <- <-. eexists. split; [reflexivity|]. auto. }
  cbn [foldM vstep x_oth x_ws x_a x_b x_c x_va x_vb v_id] in *.
  assert (V : forall o x y z u v x' y' z' u' v', v_id (mkVr ws (Some eo) x y z u v) o = v_id (mkVr ws (Some eo) x' y' z' u' v') o) by (intros []; reflexivity).
  rewrite (V a a2 b2 c2 d2 e2 a1 b1 c1 d1 e1). destruct (v_id (mkVr ws (Some eo) a1 b1 c1 d1 e1) a) as [ea|]; cbn [bind] in *; [|discriminate].
  destruct (nth_error (v_w up S) ea) as [wa|]; cbn [bind] in *; [|discriminate]. destruct (nth_error (v_v up S) ea) as [va|]; cbn [bind] in *; [|discriminate].
  cbn [foldM vstep x_oth x_ws x_a x_b x_c x_va x_vb v_id bind] in *.
  destruct (nth_error (v_w scup S) sc) as [wb|]; cbn [bind] in *; [|discriminate]. destruct (nth_error (v_v scup S) sc) as [vb|]; cbn [bind] in *; [|discriminate].
  cbn [foldM vstep x_oth x_ws x_a x_b x_c x_va x_vb v_id bind] in *.
  rewrite (V tgt wa wb c2 va vb wa wb c1 va vb). destruct (v_id (mkVr ws (Some eo) wa wb c1 va vb) tgt) as [et|]; cbn [bind] in *; [|discriminate].
  destruct (nth_error (v_w up S) et) as [wt|]; cbn [bind] in *; [|discriminate]. destruct (nth_error (v_v up S) et) as [vt|]; cbn [bind] in *; [|discriminate].
  exists p'. split; [exact E|auto].
Qed.
Lemma tri_indep e ts : indep (tri_code e ts).
Proof.
  intros S p q S' p' H E. destruct ts as [t sc]. cbn [tri_code] in *. unfold vrun in E |- *. cbn [foldM] in E |- *. cbn [vstep] in E |- *. rewrite <- H. destruct (nth_error (x_ws p) t) as [o|]; cbn [bind] in E |- *; [|discriminate].
  repeat match type of E with foldM vstep ((rel_code ?u ?a ?b ?d ?g) ++ ?r) ?x = _ => idtac end.
  change (foldM vstep) with vrun in *.
  assert (G : forall l S p q S' p', Forall (fun x => exists u a b d g, x = rel_code u a b d g) l -> x_ws p = x_ws q -> x_oth p = x_oth q -> vrun (concat l) (S, p) = Some (S', p') ->
    exists q', vrun (concat l) (S, q) = Some (S', q') /\ x_ws p' = x_ws q' /\ x_oth p' = x_oth q').
  { clear. induction l as [|x l IH]; intros S p q S' p' F H1 H2 E; cbn [concat] in *. { injection E as <- <-. exists q. auto. }
    apply Forall_cons_iff in F as [(u & a & b & d & g & ->) F]. apply vrun_app in E. destruct E as ([S1 p1] & E1 & E2).
    destruct (rel_indep _ _ _ _ _ _ _ _ _ _ H1 H2 E1) as (q1 & F1 & K1 & K2). destruct (IH _ _ _ _ _ F K1 K2 E2) as (q2 & F2 & K). exists q2. split; [|auto]. unfold vrun in *. rewrite foldM_app, F1. exact F2. }
  specialize (G [rel_code true (Own e) true sc Oth; rel_code true Oth false sc (Own e); rel_code false (Own e) false sc Oth; rel_code false Oth true sc (Own e)]).
  cbn [concat] in G. rewrite app_nil_r in G. match type of E with vrun _ (_, ?p0) = _ => match goal with |- exists q', vrun _ (_, ?q0) = _ /\ _ => destruct (G S p0 q0 S' p') as (q' & F & K & _) end end; auto.
  - repeat (constructor; [eauto 7|]). constructor.
  - exists q'. auto.
Qed.
Lemma node_indep c x code : pnode_code c x = Some code -> indep code.
Proof.
  unfold pnode_code. intros E. apply bind_inv in E. destruct E as (own & _ & E). apply bind_inv in E. destruct E as (tri & Et & [= <-]).
  assert (M : forall (f : nat * nat -> pinstr) l, (forall a, indep [f a]) -> indep (map f l)).
  { intros f l H. induction l as [|a l IH]; [apply indep_nil|]. cbn [map]. apply (indep_app [f a]); auto. }
  apply indep_app; [apply M; intros; apply indep_set|]. apply indep_app; [|apply M; intros; apply indep_clr].
  apply indep_concat. revert tri Et. induction own as [|ve own IH]; intros tri Et; cbn [mapM] in Et; [injection Et as <-; constructor|].
  apply bind_inv in Et. destruct Et as (y & Ey & Et). apply bind_inv in Et. destruct Et as (l & El & [= <-]). constructor; [|auto].
  apply bind_inv in Ey. destruct Ey as (up & _ & [= <-]). apply indep_map. intros; apply tri_indep.
Qed.
Lemma nodes_indep c u k code : pnodes_code c u k = Some code -> indep code.
Proof.
  unfold pnodes_code. intros E. apply bind_inv in E. destruct E as (l & El & [= <-]). apply indep_concat. revert l El. induction (rev (seq u k)) as [|x xs IH]; intros l El; cbn [mapM] in El; [injection El as <-; constructor|].
  apply bind_inv in El. destruct El as (y & Ey & El). apply bind_inv in El. destruct El as (l' & El & [= <-]). constructor; [eapply node_indep; eauto|auto].
Qed.
Lemma pnodes_app c u k k' a b : pnodes_code c (u + k) k' = Some a -> pnodes_code c u k = Some b -> pnodes_code c u (k + k') = Some (a ++ b).
Proof.
  unfold pnodes_code. intros Ea Eb. apply bind_inv in Ea. destruct Ea as (la & Ea & [= <-]). apply bind_inv in Eb. destruct Eb as (lb & Eb & [= <-]).
  rewrite seq_app, rev_app_distr, mapM_app, Ea. cbn [bind]. rewrite Eb. cbn [bind]. rewrite concat_app. reflexivity.
Qed.

Section ValPar.
  Variable adj : list (list (nat * N)).
  Variables order ranks : list nat.
  Variable nodes : list (list nat).
  Variable c : cch.
  Hypothesis HK : cch_ok adj order ranks nodes c.
  Variables iup idn : list N.
  Variable s : cst.
  Hypothesis HO : cust_ok adj nodes iup idn s.
  Variables upv dnv : list N.
  Hypothesis Lu : length upv = length (s_up s).
  Hypothesis Ld : length dnv = length (s_dn s).
  Notation n := (length adj).
  Notation NL := (nodes_len adj order ranks nodes c HK).
  Notation rset := (rset nodes).
  Notation in_cell := (in_cell nodes).
  Notation edge_cell := (edge_in_cell adj order ranks nodes c HK iup idn s HO).

  (** ** the sequential execution *)
  Definition vini : vshared := mkVsh (s_up s) (s_dn s) upv dnv.
  Definition fresh : vregs := vregs_new (repeat None n).
  Definition vtail (j : nat) : option (vshared * vregs) := code <- pnodes_code c j (n - j) ;; vrun code (vini, fresh).
  (** the state when all nodes from [j] on are done *)
  Definition T (j : nat) : vshared := match vtail j with Some r => fst r | None => vini end.
  Lemma vtail_ok j : j <= n -> exists p, vtail j = Some (T j, p) /\ x_ws p = repeat None n.
  Proof using HK HO Lu Ld.
    intros Hj. destruct (cell_ok adj order ranks nodes c HK iup idn s HO j (n - j) ltac:(lia)) as (code & Ec & Hf).
    destruct (Hf (psh_init (s_up s) (s_dn s)) (regs_new (repeat None n))) as (S' & p' & R' & W' & _).
    { eapply glens_init; eauto. } { eapply cell_ini_init; eauto. } { intros x v e t d Hx Hv Lv He. pose proof (edge_tail_lt _ _ _ _ He). rewrite NL in *. lia. } { reflexivity. }
    destruct (run_sim _ _ _ _ _ vini fresh R') as (vs & vp & F & S). { constructor; try reflexivity; intros []; cbn; rewrite ?repeat_length; auto. }
    assert (X : vtail j = Some (vs, vp)) by (unfold vtail; rewrite Ec; exact F). exists vp. unfold T. rewrite X. split; [reflexivity|]. rewrite (sm_ws _ _ _ _ S). exact W'.
  Qed.
  Lemma vtail_cell u k : u + k <= n -> exists code p', pnodes_code c u k = Some code /\ vrun code (T (u + k), fresh) = Some (T u, p') /\ x_ws p' = repeat None n.
  Proof using HK HO Lu Ld.
    intros Hk. destruct (vtail_ok (u + k) Hk) as (p1 & E1 & W1). destruct (vtail_ok u ltac:(lia)) as (p2 & E2 & W2). unfold vtail in E1, E2.
    apply bind_inv in E1. destruct E1 as (c1 & C1 & E1). apply bind_inv in E2. destruct E2 as (c2 & C2 & E2).
    destruct (cell_ok adj order ranks nodes c HK iup idn s HO u k Hk) as (code & Ec & _). pose proof (pnodes_app c u k (n - (u + k)) c1 code C1 Ec) as X. replace (k + (n - (u + k))) with (n - u) in X by lia.
    rewrite C2 in X. injection X as ->. apply vrun_app in E2. destruct E2 as (sp & E3 & E4). rewrite E1 in E3. injection E3 as <-.
    destruct (nodes_indep c u k code Ec (T (u + k)) p1 fresh (T u) p2 W1 E4) as (q' & F & K). exists code, q'. split; [auto|]. split; [auto|]. congruence.
  Qed.
  Lemma fresh_rok W : vrok W fresh.
  Proof using. split; cbn [fresh vregs_new x_ws x_oth]; [|discriminate]. intros x e H. rewrite nth_error_repeat in H. destruct (x <? n); discriminate. Qed.
  Lemma T_out u k : u + k <= n -> vag (fun e => ~ in_cell u k e) (T (u + k)) (T u).
  Proof using HK HO Lu Ld.
    intros Hk. destruct (vtail_cell u k Hk) as (code & p' & Ec & E & _). pose proof (code_iok adj order ranks nodes c HK iup idn s HO u k code Hk Ec) as IK.
    destruct (vrun_frame (rset u k) (in_cell u k) code ltac:(left; auto) IK _ (T (u + k)) _ _ _ (vag_refl _ _) (fresh_rok _) E) as (S2 & E2 & _ & O & _). rewrite E in E2. injection E2 as <-. exact O.
  Qed.
  Lemma T_n : T n = vini.
  Proof using. unfold T, vtail. rewrite Nat.sub_diag. reflexivity. Qed.
  Notation fin := (T 0).

  Definition vci (o k : nat) (S : vshared) : Prop := vag (in_cell o k) vini S.
  Definition vcf (o k : nat) (S : vshared) : Prop := vag (in_cell o k) fin S.
  Definition vuf (o k : nat) (S : vshared) : Prop := vag (fun e => rset o k e /\ ~ in_cell o k e) fin S.
  Lemma cell_dec o k e : in_cell o k e \/ ~ in_cell o k e.
  Proof using. clear. unfold CCHPerfectProof.in_cell. lia. Qed.
  Lemma upper_edge u k e : u + k <= n -> rset u k e -> ~ in_cell u k e -> exists x v t, u <= x < u + k /\ In v (nbh nodes x) /\ edge nodes e v t /\ u + k <= v.
  Proof using HK HO Lu Ld.
    intros Hk [H|(x & v & t & Hx & Hv & He)] Hn; [tauto|]. exists x, v, t. split; [auto|]. split; [auto|]. split; [auto|]. rewrite (edge_cell u k e v t Hk He) in Hn.
    pose proof (ch_up _ _ (co_chordal _ _ _ _ _ HK) _ _ Hv). lia.
  Qed.
  (** before the routine runs on a cell, the edges it reads are as in the sequential execution *)
  Lemma cell_start u k S : u + k <= n -> vci u k S -> vuf u k S -> vag (rset u k) (T (u + k)) S.
  Proof using HK HO Lu Ld.
    intros Hk I U. pose proof (T_out (u + k) (n - (u + k)) ltac:(lia)) as A. replace (u + k + (n - (u + k))) with n in A by lia. rewrite T_n in A.
    pose proof (T_out 0 (u + k) ltac:(lia)) as B. cbn [Nat.add] in B.
    apply (vag_or _ (in_cell u k) (fun e => rset u k e /\ ~ in_cell u k e)). { intros e He. destruct (cell_dec u k e); auto. }
    - eapply vag_trans; [|exact I]. apply vag_sym. eapply vag_sub; [|exact A]. intros e He Hn. unfold CCHPerfectProof.in_cell in *. lia.
    - eapply vag_trans; [|exact U]. eapply vag_sub; [|exact B]. intros e [He Hn] Hc. destruct (upper_edge u k e Hk He Hn) as (x & v & t & _ & _ & Hv & Lv).
      apply (edge_cell 0 (u + k) e v t ltac:(lia) Hv) in Hc. lia.
  Qed.
  (** and afterwards its edges are final *)
  Lemma cell_end u k S : u + k <= n -> vag (rset u k) (T u) S -> vcf u k S.
  Proof using HK HO Lu Ld.
    intros Hk A. pose proof (T_out 0 u ltac:(lia)) as B. cbn [Nat.add] in B. unfold vcf. eapply vag_trans; [apply vag_sym; eapply vag_sub; [|exact B]|eapply vag_sub; [|exact A]].
    - intros e He Hn. unfold CCHPerfectProof.in_cell in *. cbn [Nat.add] in Hn. lia.
    - intros e He. left. exact He.
  Qed.

  (** ** the invariant *)
  Inductive vpend : nat -> nat -> vtask -> Prop :=
  | vpd_intro o u k l code subs : closed_cell adj nodes o k -> o <= u <= o + k -> pnodes_code c u (o + k - u) = Some code -> cells o l u ->
      Forall2 (fun a t => vpend (fst a) (snd a) t) l subs -> vpend o k (VExec code subs).
  Definition vwaiting (o u k : nat) (l : list (nat * nat)) (subs : list vtask) (S : vshared) : Prop :=
    closed_cell adj nodes o k /\ o <= u <= o + k /\ cells o l u /\ Forall2 (fun a t => vpend (fst a) (snd a) t) l subs /\ vci o (u - o) S /\ vuf o k S.
  Inductive vinv (S : vshared) : nat -> nat -> vtask -> Prop :=
  | vi_exec o u k l code subs : vwaiting o u k l subs S -> pnodes_code c u (o + k - u) = Some code -> vci u (o + k - u) S -> vinv S o k (VExec code subs)
  | vi_run o u k l subs pre S1 p code : vwaiting o u k l subs S -> pnodes_code c u (o + k - u) = Some (pre ++ code) ->
      vrun pre (T (o + k), fresh) = Some (S1, p) -> vag (rset u (o + k - u)) S1 S -> vrok (in_cell u (o + k - u)) p ->
      vinv S o k (VRun p code subs)
  | vi_scope o u k l subs : closed_cell adj nodes o k -> o <= u <= o + k -> cells o l u -> Forall2 (fun a t => vinv S (fst a) (snd a) t) l subs ->
      vcf u (o + k - u) S -> vuf o k S -> vinv S o k (VScope subs).

  Lemma vsub_upper o u k S : closed_cell adj nodes o k -> o <= u <= o + k -> vuf o k S -> vuf u (o + k - u) S.
  Proof using HK HO Lu Ld.
    intros [Hk _] Hu H. eapply vag_sub; [|exact H]. cbn beta. intros e [He Hn]. destruct (upper_edge u (o + k - u) e ltac:(lia) He Hn) as (x & v & t & Hx & Hv & Ht & Lv). split.
    - right. exists x, v, t. split; [lia|auto].
    - rewrite (edge_cell o k e v t Hk Ht). lia.
  Qed.
  Lemma vinv_closed S o k t : vinv S o k t -> closed_cell adj nodes o k /\ vuf o k S.
  Proof using. intros H. destruct H as [? ? ? ? ? ? (? & ? & ? & ? & ? & ?)|? ? ? ? ? ? ? ? ? (? & ? & ? & ? & ? & ?)|]; auto. Qed.

  Lemma vwaiting_agree o u k l subs S S' : vag (rset o k) S S' -> vwaiting o u k l subs S -> vwaiting o u k l subs S'.
  Proof using HK HO Lu Ld.
    intros A (C & Hu & Hc & F & I & U). pose proof C as [Hk _]. split; [auto|]. split; [auto|]. split; [auto|]. split; [auto|]. split.
    - eapply vag_trans; [exact I|]. eapply vag_sub; [|exact A]. intros e He. apply (rset_sub adj order ranks nodes c HK iup idn s HO o k o (u - o)); try lia. left; auto.
    - eapply vag_trans; [exact U|]. eapply vag_sub; [|exact A]. tauto.
  Qed.

  Lemma vinv_agree t : forall S S' o k, vinv S o k t -> vag (rset o k) S S' -> vinv S' o k t.
  Proof using HK HO Lu Ld.
    induction t as [code subs IH|p code subs IH|subs IH] using vtask_ind2; intros S S' o k H A.
    - inversion H as [o' u k' l code' subs' Hw E I X1 X2 X3| |]; subst. pose proof Hw as ([Hk _] & Hu & _). eapply (vi_exec S' o u k l); eauto. { eapply vwaiting_agree; eauto. }
      eapply vag_trans; [exact I|]. eapply vag_sub; [|exact A]. intros e He. apply (rset_sub adj order ranks nodes c HK iup idn s HO o k u (o + k - u)); try lia. left; auto.
    - inversion H as [|o' u k' l subs' pre S1 p' code' Hw E R0 A0 K0|]; subst. pose proof Hw as ([Hk _] & Hu & _). eapply (vi_run S' o u k l subs pre S1); eauto. { eapply vwaiting_agree; eauto. }
      eapply vag_trans; [exact A0|]. eapply vag_sub; [|exact A]. intros e He. apply (rset_sub adj order ranks nodes c HK iup idn s HO o k u (o + k - u)); try lia. auto.
    - inversion H as [| |o' u k' l subs' C Hu Hc F CF UF]; subst. pose proof C as [Hk _]. eapply (vi_scope S' o u k l); eauto.
      + rewrite Forall_forall in IH. assert (G : forall a j, In (a, j) l -> o <= a /\ a + j <= u) by (intros; eapply cells_range; eauto).
        clear -F IH A G Hu Hk HK HO Lu Ld. induction F as [|[a j] t l ts Ht F IHF]; constructor.
        * cbn [fst snd] in *. apply (IH t (or_introl eq_refl) S); auto. destruct (G a j (or_introl eq_refl)). eapply vag_sub; [|exact A]. intros e He. apply (rset_sub adj order ranks nodes c HK iup idn s HO o k a j); auto; lia.
        * apply IHF. { intros; eapply IH; eauto. right; auto. } intros; apply G; right; auto.
      + eapply vag_trans; [exact CF|]. eapply vag_sub; [|exact A]. intros e He. apply (rset_sub adj order ranks nodes c HK iup idn s HO o k u (o + k - u)); try lia. left; auto.
      + eapply vag_trans; [exact UF|]. eapply vag_sub; [|exact A]. tauto.
  Qed.

  (** the cells of the parts cover the cell *)
  Lemma cells_cover u : forall l o e, cells o l u -> u <= n -> in_cell o (u - o) e -> o <= u -> exists a j, In (a, j) l /\ in_cell a j e.
  Proof using. clear Lu Ld HO HK.
    induction l as [|[a j] l IHl]; intros o e Hc Hn He Ho; cbn [cells] in Hc.
    - subst. unfold CCHPerfectProof.in_cell in He. replace (u + (u - u)) with u in He by lia. lia.
    - destruct Hc as [-> Hc]. destruct (cell_dec o j e) as [H|H]. { exists o, j. split; [left; auto|auto]. }
      assert (Lj : o + j <= u). { clear -Hc. revert Hc. generalize (o + j). induction l as [|[a i] l IH]; cbn [cells]; intros q Hc; [lia|]. destruct Hc as [-> Hc]. apply IH in Hc. lia. }
      destruct (IHl (o + j) e Hc Hn) as (a & i & Hi & Ha); [|auto|exists a, i; split; [right; auto|auto]].
      unfold CCHPerfectProof.in_cell in *. replace (o + (u - o)) with u in He by lia. replace (o + j + (u - (o + j))) with u by lia. lia.
  Qed.

  (** all of the cell is done at the end *)
  Lemma vinv_finished t : forall S o k, vinv S o k t -> vfinished t -> vcf o k S.
  Proof using HK HO Lu Ld.
    induction t as [code subs IH|p code subs IH|subs IH] using vtask_ind2; intros S o k H F; inversion F; subst.
    inversion H as [| |o' u k' l subs' C Hu Hc F2 CF UF]; subst. rewrite Forall_forall in IH, H1. pose proof C as [Hk _].
    pose proof CF as CF0. intros d. destruct (CF0 d) as (X1 & X2 & X3). split; [auto|]. split; [auto|]. intros e He. destruct (cell_dec u (o + k - u) e) as [Hc'|Hc']; [auto|].
    destruct (cells_cover u l o e Hc ltac:(lia)) as (a & j & Hi & Ha); [|lia|].
    { unfold CCHPerfectProof.in_cell in *. replace (o + (u - o)) with u by lia. replace (u + (o + k - u)) with (o + k) in Hc' by lia. lia. }
    destruct (Forall2_In_l _ _ _ _ F2 Hi) as (t & Ht & Hi'). apply (IH t Ht S a j Hi' (H1 t Ht) d). exact Ha.
  Qed.

  (** when the separator is done the waiting calls may start *)
  Lemma vwaiting_scope o u k l subs S : vwaiting o u k l subs S -> vcf u (o + k - u) S -> vinv S o k (VScope subs).
  Proof using HK HO Lu Ld.
    intros (C & Hu & Hc & F & I & U) CF. pose proof C as [Hk _]. eapply (vi_scope S o u k l); eauto.
    assert (G : forall a j, In (a, j) l -> o <= a /\ a + j <= u) by (intros; eapply cells_range; eauto).
    assert (AP : forall a j b i x, In (a, j) l -> In (b, i) l -> a <= x < a + j -> b <= x < b + i -> (a, j) = (b, i)).
    { clear -Hc. revert o Hc. induction l as [|[a' j'] l IHl]; intros o Hc a j b i x Ha Hb Xa Xb; [destruct Ha|]. cbn [cells] in Hc. destruct Hc as [-> Hc].
      destruct Ha as [Ea|Ha], Hb as [Eb|Hb].
      - congruence.
      - injection Ea as <- <-. pose proof (cells_range _ _ _ _ _ Hc Hb). lia.
      - injection Eb as <- <-. pose proof (cells_range _ _ _ _ _ Hc Ha). lia.
      - eapply IHl; eauto. }
    assert (CC : forall a j, In (a, j) l -> closed_cell adj nodes a j). { intros a j Hi. destruct (Forall2_In_l _ _ _ _ F Hi) as (t & _ & P). inversion P; subst; auto. }
    assert (CX : forall l o, cells o l u -> forall v, o <= v < u -> exists a j, In (a, j) l /\ a <= v < a + j).
    { clear. induction l as [|[a j] l IHl]; intros o Hc v Hv; cbn [cells] in Hc; [lia|]. destruct Hc as [-> Hc]. destruct (Nat.lt_ge_cases v (o + j)).
      - exists o, j. split; [left; auto|lia].
      - destruct (IHl _ Hc v) as (a & j' & Hi & Ha); [lia|]. exists a, j'. split; [right; auto|auto]. }
    assert (UF : forall a j, In (a, j) l -> vuf a j S).
    { intros a j Hi. destruct (G a j Hi) as [G1 G2]. apply (vag_or _ (in_cell u (o + k - u)) (fun e => rset o k e /\ ~ in_cell o k e)); [|exact CF|exact U].
      intros e [He Hn]. destruct (upper_edge a j e ltac:(lia) He Hn) as (x & v & t & Hx & Hv & Ht & Lv).
      destruct (Nat.lt_ge_cases v u) as [Lu'|Lu'].
      - exfalso. destruct (CX l o Hc v) as (b & i & Hb & Rb); [lia|]. pose proof (ch_up _ _ (co_chordal _ _ _ _ _ HK) _ _ Hv) as Xv. pose proof (proj2 (CC b i Hb) x v Hv Rb).
        assert ((a, j) = (b, i)) as E by (eapply (AP a j b i x); eauto; lia). injection E as -> ->. lia.
      - destruct (Nat.lt_ge_cases v (o + k)); [left; apply (edge_cell u (o + k - u) e v t ltac:(lia) Ht); lia|right]. split; [right; exists x, v, t; split; [lia|auto]|]. rewrite (edge_cell o k e v t Hk Ht). lia. }
    assert (IN : forall a j b i, In (a, j) l -> a <= b -> b + i <= a + j -> vci b i S).
    { intros a j b i Hi Hb Hj. destruct (G a j Hi). eapply vag_sub; [|exact I]. intros e He. unfold CCHPerfectProof.in_cell in *. replace (o + (u - o)) with u by lia.
      pose proof (off_mono nodes o b ltac:(lia) ltac:(rewrite NL; lia)). pose proof (off_mono nodes (b + i) u ltac:(lia) ltac:(rewrite NL; lia)). lia. }
    clear AP CX Hc. assert (Q : forall a j t, In (a, j) l -> vpend a j t -> vinv S a j t).
    { intros a j t Hi P. inversion P as [o' u' k' l' code subs' C' Hu' E' Hc' F']; subst. eapply (vi_exec S a u' j l'); eauto.
      - split; [auto|]. split; [auto|]. split; [auto|]. split; [auto|]. split; [|auto]. apply (IN a j); auto; lia.
      - apply (IN a j); auto; lia. }
    clear -F Q. induction F as [|[a j] t l ts Ht F IHF]; constructor.
    - cbn [fst snd] in *. apply Q; auto. left; auto.
    - apply IHF. intros; apply Q; auto. right; auto.
  Qed.

  Lemma vrun_next u k pre S1 p i code : u + k <= n -> pnodes_code c u k = Some (pre ++ i :: code) -> vrun pre (T (u + k), fresh) = Some (S1, p) -> exists S1' p', vstep (S1, p) i = Some (S1', p').
  Proof using HK HO Lu Ld.
    intros Hk Ec R. destruct (vtail_cell u k Hk) as (full & p' & Ef & E & _). assert (full = pre ++ i :: code) as -> by congruence. apply vrun_app in E. destruct E as (sp & E1 & E2).
    rewrite R in E1. injection E1 as <-. unfold vrun in E2. cbn [foldM] in E2. apply bind_inv in E2. destruct E2 as ([a b] & E2 & _). eauto.
  Qed.

  Lemma vtstep_inv sp t sp' t' : vtstep sp t sp' t' -> forall o k, clean adj (snd sp) -> vinv (fst sp) o k t ->
    clean adj (snd sp') /\ vinv (fst sp') o k t' /\ vag (fun e => ~ in_cell o k e) (fst sp) (fst sp') /\ length (snd sp') + vrunning t' = length (snd sp) + vrunning t.
  Proof using HK HO Lu Ld.
    induction 1 as [S pool1 ws pool2 code subs|S pool p i code subs S' p' E|S pool p subs|S pool l1 t l2 S' pool' t' Hs IH]; intros o k HC H; cbn [fst snd] in *.
    - unfold clean in *. apply Forall_app in HC as [HC1 HC2]. apply Forall_cons_iff in HC2 as [-> HC2]. split; [apply Forall_app; auto|]. split; [|split; [apply vag_refl|cbn [vrunning]; rewrite !app_length; cbn [length]; lia]].
      inversion H as [o' u k' l code' subs' Hw E I X1 X2 X3| |]; subst. pose proof Hw as (C & Hu & _ & _ & _ & U). pose proof C as [Hk _]. eapply (vi_run S o u k l subs [] (T (o + k)) fresh); eauto.
      + pose proof (cell_start u (o + k - u) S ltac:(lia) I (vsub_upper _ _ _ _ C Hu U)) as X. replace (u + (o + k - u)) with (o + k) in X by lia. exact X.
      + apply fresh_rok.
    - split; [auto|]. inversion H as [|o' u k' l subs' pre S1 p1 code' Hw Ec R0 A0 K0|]; subst. pose proof Hw as ([Hk _] & Hu & _).
      destruct (vrun_next u (o + k - u) pre S1 p i code) as (S1' & p1' & X); auto; [lia|replace (u + (o + k - u)) with (o + k) by lia; auto|].
      pose proof (code_iok adj order ranks nodes c HK iup idn s HO u (o + k - u) _ ltac:(lia) Ec) as IK. apply Forall_app in IK as [_ IK]. apply Forall_cons_iff in IK as [IK _].
      destruct (vstep_frame (rset u (o + k - u)) (in_cell u (o + k - u)) S1 S p i S1' p1') as (S2 & E2 & A2 & O2 & K2); auto. { intros e He. left; auto. }
      rewrite E2 in E. injection E as <- <-. pose proof (off_mono nodes o u ltac:(lia) ltac:(rewrite NL; lia)) as Mo.
      split; [|split; [|reflexivity]].
      + eapply (vi_run S2 o u k l subs (pre ++ [i]) S1'); eauto.
        * destruct Hw as (C & _ & Hc & F & I & U). split; [auto|]. split; [auto|]. split; [auto|]. split; [auto|]. split.
          -- eapply vag_trans; [exact I|]. eapply vag_sub; [|exact O2]. intros e He. unfold CCHPerfectProof.in_cell in *. replace (o + (u - o)) with u in He by lia. lia.
          -- eapply vag_trans; [exact U|]. eapply vag_sub; [|exact O2]. intros e [_ He] Hn. apply He. unfold CCHPerfectProof.in_cell in *. replace (u + (o + k - u)) with (o + k) in Hn by lia. lia.
        * rewrite <- app_assoc. auto.
        * unfold vrun in *. rewrite foldM_app, R0. cbn [bind foldM]. rewrite X. reflexivity.
      + eapply vag_sub; [|exact O2]. intros e He Hn. apply He. unfold CCHPerfectProof.in_cell in *. replace (u + (o + k - u)) with (o + k) in Hn by lia. lia.
    - inversion H as [|o' u k' l subs' pre S1 p1 code' Hw Ec R0 A0 K0|]; subst. rewrite app_nil_r in Ec. pose proof Hw as (C & Hu & Hc & F & _). pose proof C as [Hk _].
      destruct (vtail_cell u (o + k - u) ltac:(lia)) as (full & p' & Ef & Hf & W'). assert (full = pre) as -> by congruence. replace (u + (o + k - u)) with (o + k) in Hf by lia.
      rewrite R0 in Hf. injection Hf as -> <-.
      split; [constructor; auto|]. split; [|split; [apply vag_refl|]].
      + eapply vwaiting_scope; eauto. apply cell_end; [lia|exact A0].
      + cbn [vrunning length]. assert (Z : forall l ts, Forall2 (fun a t => vpend (fst a) (snd a) t) l ts -> list_sum (map vrunning ts) = 0).
        { clear. induction 1 as [|a t l ts Ht _ IH]; [reflexivity|]. inversion Ht; subst. cbn in *. auto. }
        rewrite (Z _ _ F). lia.
    - inversion H as [| |o' u k' l subs' C Hu Hc F CF UF]; subst. pose proof C as [Hk _]. destruct (Forall2_mid _ _ _ _ _ F) as (a1 & [a j] & a2 & -> & F1 & Ht & F2). cbn [fst snd] in Ht.
      destruct (IH _ _ HC Ht) as (HC' & Ht' & O & EQ). split; [auto|].
      assert (Ra : o <= a /\ a + j <= u). { eapply cells_range; eauto. apply in_or_app. right; left; auto. }
      destruct (vinv_closed _ _ _ _ Ht) as (Ca & _).
      assert (Mo : off nodes o <= off nodes a /\ off nodes (a + j) <= off nodes u /\ off nodes u <= off nodes (o + k)) by (repeat split; apply off_mono; rewrite ?NL; lia).
      assert (On : vag (fun e => ~ in_cell o k e) S S'). { eapply vag_sub; [|exact O]. intros e He Hn. apply He. unfold CCHPerfectProof.in_cell in *. lia. }
      split; [|split; [auto|]].
      + eapply (vi_scope S' o u k (a1 ++ (a, j) :: a2)); eauto.
        * apply cells_app in Hc as (v & Hc1 & Hc2). cbn [cells] in Hc2. destruct Hc2 as [-> Hc2].
          assert (N1 : forall b i, In (b, i) a1 -> o <= b /\ b + i <= v) by (intros; eapply cells_range; eauto).
          assert (N2 : forall b i, In (b, i) a2 -> v + j <= b /\ b + i <= u) by (intros; eapply cells_range; eauto).
          apply Forall2_app; [|constructor].
          -- clear -F1 N1 O Hk Ca Ra HK HO Lu Ld Hu. induction F1 as [|[b i] t l ts H1 F IHF]; constructor; [|apply IHF; intros; apply N1; right; auto].
             cbn [fst snd] in *. eapply vinv_agree; eauto. eapply vag_sub; [|exact O]. intros e He. destruct (N1 b i (or_introl eq_refl)). apply (apart adj order ranks nodes c HK iup idn s HO b i v j e Ca); auto; lia.
          -- cbn [fst snd]. auto.
          -- clear -F2 N2 O Hk Ca Ra HK HO Lu Ld Hu. induction F2 as [|[b i] t l ts H1 F IHF]; constructor; [|apply IHF; intros; apply N2; right; auto].
             cbn [fst snd] in *. eapply vinv_agree; eauto. eapply vag_sub; [|exact O]. intros e He. destruct (N2 b i (or_introl eq_refl)). apply (apart adj order ranks nodes c HK iup idn s HO b i v j e Ca); auto; lia.
        * eapply vag_trans; [exact CF|]. eapply vag_sub; [|exact O]. intros e He. unfold CCHPerfectProof.in_cell in *. lia.
        * eapply vag_trans; [exact UF|]. eapply vag_sub; [|exact On]. tauto.
      + cbn [vrunning]. rewrite !map_app, !list_sum_app. cbn [map]. unfold list_sum in *. cbn [fold_right]. lia.
  Qed.

  (** no step panics, and as long as some call is not finished there is a next step *)
  Lemma vinv_safe t : forall S o k, vinv S o k t -> ~ vpanic S t.
  Proof using HK HO Lu Ld.
    induction t as [code subs IH|p code subs IH|subs IH] using vtask_ind2; intros S o k H P; inversion P; subst.
    - inversion H as [|o' u k' l subs' pre S1 p1 code' Hw Ec R0 A0 K0|]; subst. pose proof Hw as ([Hk _] & Hu & _).
      destruct (vrun_next u (o + k - u) pre S1 p i code0) as (S1' & p1' & X); auto; [lia|replace (u + (o + k - u)) with (o + k) by lia; auto|].
      pose proof (code_iok adj order ranks nodes c HK iup idn s HO u (o + k - u) _ ltac:(lia) Ec) as IK. apply Forall_app in IK as [_ IK]. apply Forall_cons_iff in IK as [IK _].
      destruct (vstep_frame (rset u (o + k - u)) (in_cell u (o + k - u)) S1 S p i S1' p1') as (S2 & E2 & _); auto. { intros e He. left; auto. } congruence.
    - inversion H as [| |o' u k' l subs' C Hu Hc F CF UF]; subst. rewrite Forall_forall in IH. assert (Hin : In t (l1 ++ t :: l2)) by (apply in_or_app; right; left; auto).
      destruct (Forall2_In_r _ _ _ _ F Hin) as (a & _ & Ha). eapply (IH t Hin); eauto.
  Qed.
  Lemma vfinished_dec t : {vfinished t} + {~ vfinished t}.
  Proof using.
    revert t. fix IH 1. intros [code subs|p code subs|subs]; [right; intros H; inversion H|right; intros H; inversion H|].
    assert (D : {Forall vfinished subs} + {~ Forall vfinished subs}).
    { induction subs as [|t subs IHs]; [left; constructor|]. destruct (IH t) as [F|F]; [|right; intros H; inversion H; auto]. destruct IHs as [G|G]; [left; constructor; auto|right; intros H; inversion H; auto]. }
    destruct D; [left; constructor; auto|right; intros H; inversion H; auto].
  Qed.
  Lemma vprogress_sub S pool l1 t l2 : (exists S' pool' t', vtstep (S, pool) t (S', pool') t') -> exists S' pool' t', vtstep (S, pool) (VScope (l1 ++ t :: l2)) (S', pool') t'.
  Proof using. intros (S' & pool' & t' & H). exists S', pool', (VScope (l1 ++ t' :: l2)). constructor; auto. Qed.
  Lemma vrunning_step t : forall S pool o k, vinv S o k t -> vrunning t <> 0 -> exists S' pool' t', vtstep (S, pool) t (S', pool') t'.
  Proof using HK HO Lu Ld.
    induction t as [code subs IH|p code subs IH|subs IH] using vtask_ind2; intros S pool o k H Hr; cbn [vrunning] in Hr; [lia| |].
    - destruct code as [|i code]. { exists S, (x_ws p :: pool), (VScope subs). constructor. }
      destruct (vstep (S, p) i) as [[S' p']|] eqn:E. { exists S', pool, (VRun p' code subs). constructor; auto. }
      exfalso. eapply vinv_safe; [exact H|]. constructor; auto.
    - inversion H as [| |o' u k' l subs' C Hu Hc F CF UF]; subst. rewrite Forall_forall in IH.
      assert (Q : exists t, In t subs /\ vrunning t <> 0).
      { clear -Hr. induction subs as [|t subs IHs]; [cbn in Hr; lia|]. destruct (Nat.eq_dec (vrunning t) 0) as [E|E]; [|exists t; split; [left|]; auto].
        destruct IHs as (t' & Hi & Ht'). { unfold list_sum in *. cbn [map fold_right] in Hr. lia. } exists t'. split; [right|]; auto. }
      destruct Q as (t & Hi & Ht). destruct (Forall2_In_r _ _ _ _ F Hi) as (a & _ & Ha). destruct (IH t Hi S pool _ _ Ha Ht) as (S' & pool' & t' & Hs).
      apply in_split in Hi as (l1 & l2 & ->). apply vprogress_sub. eauto.
  Qed.
  Lemma vpool_step t : forall S pool o k, vinv S o k t -> pool <> [] -> vfinished t \/ exists S' pool' t', vtstep (S, pool) t (S', pool') t'.
  Proof using HK HO Lu Ld.
    induction t as [code subs IH|p code subs IH|subs IH] using vtask_ind2; intros S pool o k H Hp.
    - right. destruct pool as [|ws pool]; [congruence|]. exists S, pool, (VRun (vregs_new ws) code subs). apply (vs_start S [] ws pool).
    - right. eapply vrunning_step; eauto. cbn. lia.
    - destruct (vfinished_dec (VScope subs)) as [F|F]; [left; auto|right]. inversion H as [| |o' u k' l subs' C Hu Hc F2 CF UF]; subst. rewrite Forall_forall in IH.
      assert (Q : exists t, In t subs /\ ~ vfinished t).
      { destruct (Forall_Exists_dec vfinished vfinished_dec subs) as [G|G]; [exfalso; apply F; constructor; auto|]. apply Exists_exists in G. auto. }
      destruct Q as (t & Hi & Ht). destruct (Forall2_In_r _ _ _ _ F2 Hi) as (a & _ & Ha). destruct (IH t Hi S pool _ _ Ha Hp) as [|Q]; [tauto|].
      apply in_split in Hi as (l1 & l2 & ->). apply vprogress_sub. auto.
  Qed.
  Lemma vinv_progress t S pool o k : vinv S o k t -> length pool + vrunning t <> 0 -> vfinished t \/ exists S' pool' t', vtstep (S, pool) t (S', pool') t'.
  Proof using HK HO Lu Ld.
    intros H Hp. destruct (Nat.eq_dec (vrunning t) 0) as [E|E]; [|right; eapply vrunning_step; eauto]. eapply vpool_step; eauto. intros ->. cbn in Hp. lia.
  Qed.
  Lemma vtsteps_inv j : forall sp t sp' t', vtsteps j sp t sp' t' -> forall o k, clean adj (snd sp) -> vinv (fst sp) o k t ->
    clean adj (snd sp') /\ vinv (fst sp') o k t' /\ length (snd sp') + vrunning t' = length (snd sp) + vrunning t.
  Proof using HK HO Lu Ld.
    induction j; intros sp t sp' t' H o k HC Hi; inversion H; subst; auto.
    match goal with X : vtstep _ _ _ _ |- _ => destruct (vtstep_inv _ _ _ _ X o k HC Hi) as (C1 & I1 & _ & E1) end.
    match goal with X : vtsteps _ _ _ _ _ |- _ => destruct (IHj _ _ _ _ X o k C1 I1) as (C2 & I2 & E2) end. split; [auto|]. split; [auto|lia].
  Qed.

  (** ** the tree *)
  Lemma pend_vpend t : forall o k, pend adj nodes c o k t -> vpend o k (vtask_of t).
  Proof using.
    induction t as [code subs IH|p code subs IH|subs IH] using qtask_ind2; intros o k P; inversion P as [o' u' k' l' code' subs' C' Hu' E' Hc' F']; subst. cbn [vtask_of].
    eapply (vpd_intro o u' k l'); eauto. clear -F' IH. induction F' as [|a t l ts Ht F IHF]; constructor; apply Forall_cons_iff in IH as [H1 H2]; auto.
  Qed.
  Lemma par_validity_ok threads sep : sep_new (c_elim c) = Some sep -> validate sep = Some tt ->
    exists tk, par_validity c threads sep = Some tk /\ vinv vini 0 n tk /\ vrunning tk = 0.
  Proof using HK HO Lu Ld.
    intros E V. destruct (root_cells _ _ _ _ _ HK sep E V) as [C L]. pose proof (root_nums adj order ranks nodes c HK sep E) as Hn.
    assert (En : cch_nodes c = n). { unfold cch_nodes. rewrite (co_fol _ _ _ _ _ HK). lia. }
    destruct (perf_tree_ok adj order ranks nodes c HK iup idn s HO (cch_nodes c / (32 * threads)) sep 0 C Hn) as (tk & Et & P). rewrite L in *. cbn [Nat.add] in Et.
    exists (vtask_of tk). unfold par_validity, par_perfect. rewrite En in *. rewrite Et. split; [reflexivity|]. apply pend_vpend in P.
    inversion P as [o' u' k' l' code subs' C' Hu' E' Hc' F']; subst. split; [|reflexivity]. eapply (vi_exec _ 0 u' n l'); eauto.
    - split; [auto|]. split; [auto|]. split; [auto|]. split; [auto|]. split; [apply vag_refl|].
      pose proof (T_out 0 n ltac:(lia)) as B. cbn [Nat.add] in B. rewrite T_n in B. apply vag_sym. eapply vag_sub; [|exact B]. cbn beta. tauto.
    - apply vag_refl.
  Qed.
  Lemma vcf_unique S : vcf 0 n S -> S = fin.
  Proof using HK HO Lu Ld.
    intros F. assert (G : forall d, v_w d S = v_w d fin /\ v_v d S = v_v d fin).
    { intros d. destruct (F d) as (A & B & Z). pose proof (T_out 0 n ltac:(lia) d) as (A' & B' & _). cbn [Nat.add] in A', B'. rewrite T_n in A', B'.
      assert (M : forall e, e < length (v_w d fin) \/ e < length (v_v d fin) -> in_cell 0 n e).
      { intros e He. unfold CCHPerfectProof.in_cell. cbn [Nat.add]. rewrite <- NL, off_n. pose proof (glens_init adj order ranks nodes c HK iup idn s HO) as GL. destruct (GL d) as [G1 _].
        unfold off. split; [|destruct d; cbn in *; lia]. cbn. lia. }
      split; apply list_ext; intros e.
      - destruct (Nat.lt_ge_cases e (length (v_w d fin))) as [H|H]; [symmetry; apply Z; auto|]. rewrite !(proj2 (nth_error_None _ _)) by lia. reflexivity.
      - destruct (Nat.lt_ge_cases e (length (v_v d fin))) as [H|H]; [symmetry; apply Z; auto|]. rewrite !(proj2 (nth_error_None _ _)) by lia. reflexivity. }
    destruct (G true) as [G1 G2], (G false) as [G3 G4]. destruct S as [a1 a2 a3 a4], fin as [b1 b2 b3 b4]. cbn in *. congruence.
  Qed.
  Lemma fin_seq : customize_with_validity c (s_up s) (s_dn s) upv dnv = Some fin.
  Proof using HK HO Lu Ld.
    assert (En : cch_nodes c = n). { unfold cch_nodes. rewrite (co_fol _ _ _ _ _ HK). lia. }
    destruct (vtail_ok 0 ltac:(lia)) as (p & E & _). unfold vtail in E. rewrite Nat.sub_0_r in E. apply bind_inv in E. destruct E as (code & Ec & E).
    unfold customize_with_validity. rewrite En, Ec. cbn [bind]. fold vini fresh. rewrite E. reflexivity.
  Qed.
End ValPar.
