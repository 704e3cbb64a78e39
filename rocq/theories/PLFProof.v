(** Evaluation of piecewise linear functions meets the specification; bounds, FIFO, ranges. *)
From Verif Require Import Base BitVec SpecTTF PLF.

(** Contract of slice::binary_search on a sorted slice of u32. *)
Definition ascendingN (l : list N) : Prop := forall i j a b, i <= j -> nth_error l i = Some a -> nth_error l j = Some b -> (a <= b)%N.
Definition nbs_contract (bs : list N -> N -> option (nat + nat)) : Prop :=
  forall l x, ascendingN l -> exists r, bs l x = Some r /\
    match r with
    | inl i => nth_error l i = Some x
    | inr i => i <= length l /\ (forall j y, j < i -> nth_error l j = Some y -> (y < x)%N) /\ (forall j y, i <= j -> nth_error l j = Some y -> (x < y)%N)
    end.

(** ** The line *)
Section Line.
  Variables d v d' v' : Z.
  Hypothesis Hd : (0 <= d < d')%Z.
  Hypothesis Hv : (0 <= v)%Z.
  Hypothesis Hv' : (0 <= v')%Z.
  Hypothesis Hf : (d + v <= d' + v')%Z.
  Let X r := (v * (d' - r) + v' * (r - d))%Z.
  Let D := (d' - d)%Z.

  Lemma X_arr r : (r * D + X r = (d + v) * D + (d' + v' - (d + v)) * (r - d))%Z.
  Proof using. unfold X, D. ring. Qed.

  Lemma line_fifo r w r' w' : (d <= r <= r' -> D * w <= X r -> X r' < D * (w' + 1) -> r + w <= r' + w')%Z.
  Proof using Hd Hv Hv' Hf.
    intros Hr H1 H2. pose proof (X_arr r) as E1. pose proof (X_arr r') as E2. fold D in E1, E2.
    assert ((d' + v' - (d + v)) * (r - d) <= (d' + v' - (d + v)) * (r' - d))%Z by (apply Z.mul_le_mono_nonneg_l; lia).
    assert (D * (r + w) < D * (r' + w' + 1))%Z by (ring_simplify; lia).
    assert (0 < D)%Z by (unfold D; lia). apply Z.mul_lt_mono_pos_l in H0; lia.
  Qed.

  Lemma line_det r w w' : (D * w <= X r < D * (w + 1) -> D * w' <= X r < D * (w' + 1) -> w = w')%Z.
  Proof using Hd. intros H1 H2. assert (0 < D)%Z by (unfold D; lia). nia. Qed.

  Lemma line_lo r w m : (d <= r <= d' -> m <= v -> m <= v' -> X r < D * (w + 1) -> m <= w)%Z.
  Proof using Hd.
    intros Hr H1 H2 H. assert (0 < D)%Z by (unfold D; lia).
    assert (D * m <= X r)%Z. { unfold D, X. nia. }
    nia.
  Qed.
  Lemma line_hi r w m : (d <= r <= d' -> v <= m -> v' <= m -> D * w <= X r -> w <= m)%Z.
  Proof using Hd.
    intros Hr H1 H2 H. assert (0 < D)%Z by (unfold D; lia).
    assert (X r <= D * m)%Z. { unfold D, X. nia. }
    nia.
  Qed.

  (** The code's computation: the arrival times are interpolated. *)
  Lemma line_code r : (d <= r <= d' -> let q := (r - d) * (d' + v' - (d + v)) / D in
    r <= d + v + q /\ d + v + q <= d' + v' /\ D * (d + v + q - r) <= X r < D * (d + v + q - r + 1))%Z.
  Proof using Hd Hv Hv' Hf.
    intros Hr q. assert (0 < D)%Z as HD by (unfold D; lia).
    assert (D * q <= (r - d) * (d' + v' - (d + v)) < D * (q + 1))%Z as Hq.
    { unfold q. pose proof (Z.mul_div_le ((r - d) * (d' + v' - (d + v))) D HD). pose proof (Z.mul_succ_div_gt ((r - d) * (d' + v' - (d + v))) D HD). unfold Z.succ in *. lia. }
    pose proof (X_arr r) as E. fold D in E.
    assert (r * D <= r * D + X r)%Z as H0. { unfold X. nia. }
    assert ((r - d) * (d' + v' - (d + v)) <= D * (d' + v' - (d + v)))%Z as H1 by (unfold D; nia).
    repeat split.
    - assert (D * r < D * (d + v + q + 1))%Z by (ring_simplify; lia). apply Z.mul_lt_mono_pos_l in H; lia.
    - assert (D * q < D * (d' + v' - (d + v) + 1))%Z by (ring_simplify; lia). apply Z.mul_lt_mono_pos_l in H; lia.
    - ring_simplify. lia.
    - ring_simplify. lia.
  Qed.
End Line.

Lemma on_line_Z p q r w : (fst p < fst q)%N -> (fst p <= r <= fst q)%N ->
  on_line p q r w <->
  (let d := Z.of_N (fst p) in let d' := Z.of_N (fst q) in let v := Z.of_N (snd p) in let v' := Z.of_N (snd q) in
   (d' - d) * Z.of_N w <= v * (d' - Z.of_N r) + v' * (Z.of_N r - d) < (d' - d) * (Z.of_N w + 1))%Z.
Proof.
  intros H1 H2. unfold on_line. cbv zeta.
  replace (Z.of_N (fst q) - Z.of_N (fst p))%Z with (Z.of_N (fst q - fst p)) by lia.
  replace (Z.of_N (fst q) - Z.of_N r)%Z with (Z.of_N (fst q - r)) by lia.
  replace (Z.of_N r - Z.of_N (fst p))%Z with (Z.of_N (r - fst p)) by lia.
  replace (Z.of_N w + 1)%Z with (Z.of_N (w + 1)) by lia.
  split.
  - intros (_ & A & B). rewrite <- !N2Z.inj_mul, <- N2Z.inj_add. lia.
  - intros (A & B). rewrite <- !N2Z.inj_mul, <- N2Z.inj_add in *. split; auto. lia.
Qed.

Lemma on_line_det p q r w w' : (fst p < fst q)%N -> on_line p q r w -> on_line p q r w' -> w = w'.
Proof.
  intros Hpq H H'. pose proof (proj1 H) as R. apply on_line_Z in H; auto. apply on_line_Z in H'; auto.
  cbv zeta in *. apply N2Z.inj. eapply line_det with (d := Z.of_N (fst p)) (d' := Z.of_N (fst q)); try apply H; try apply H'; lia.
Qed.
Lemma on_line_fifo p q r w r' w' : (fst p < fst q)%N -> (fst p + snd p <= fst q + snd q)%N -> (r <= r')%N ->
  on_line p q r w -> on_line p q r' w' -> (r + w <= r' + w')%N.
Proof.
  intros Hpq HF HR H H'. pose proof (proj1 H) as R. pose proof (proj1 H') as R'. apply on_line_Z in H; auto. apply on_line_Z in H'; auto.
  cbv zeta in *. enough (Z.of_N r + Z.of_N w <= Z.of_N r' + Z.of_N w')%Z by lia.
  eapply line_fifo with (d := Z.of_N (fst p)) (d' := Z.of_N (fst q)) (v := Z.of_N (snd p)) (v' := Z.of_N (snd q)); try apply H; try apply H'; lia.
Qed.
Lemma on_line_lo p q r w m : (fst p < fst q)%N -> (m <= snd p)%N -> (m <= snd q)%N -> on_line p q r w -> (m <= w)%N.
Proof.
  intros Hpq H1 H2 H. pose proof (proj1 H) as R. apply on_line_Z in H; auto. cbv zeta in *.
  enough (Z.of_N m <= Z.of_N w)%Z by lia.
  eapply line_lo with (d := Z.of_N (fst p)) (d' := Z.of_N (fst q)) (r := Z.of_N r); try apply H; lia.
Qed.
Lemma on_line_hi p q r w m : (fst p < fst q)%N -> (snd p <= m)%N -> (snd q <= m)%N -> on_line p q r w -> (w <= m)%N.
Proof.
  intros Hpq H1 H2 H. pose proof (proj1 H) as R. apply on_line_Z in H; auto. cbv zeta in *.
  enough (Z.of_N w <= Z.of_N m)%Z by lia.
  eapply line_hi with (d := Z.of_N (fst p)) (d' := Z.of_N (fst q)) (r := Z.of_N r); try apply H; lia.
Qed.
Lemma on_line_left p q w : (fst p < fst q)%N -> on_line p q (fst p) w <-> w = snd p.
Proof.
  intros Hpq. assert (on_line p q (fst p) (snd p)) by (unfold on_line; nia).
  split; [intros H'; eapply on_line_det; eauto | intros ->; auto].
Qed.
Lemma on_line_right p q w : (fst p < fst q)%N -> on_line p q (fst q) w <-> w = snd q.
Proof.
  intros Hpq. assert (on_line p q (fst q) (snd q)) by (unfold on_line; nia).
  split; [intros H'; eapply on_line_det; eauto | intros ->; auto].
Qed.

Lemma interpolate_ok debug p q r : (fst p < fst q)%N -> (fst p + snd p <= fst q + snd q)%N -> (fst q + snd q < INF)%N ->
  (fst p <= r <= fst q)%N ->
  exists w, interpolate debug (fst p) (snd p) (fst q) (snd q) r = Some w /\ on_line p q r w.
Proof.
  intros Hpq HF HI HR. unfold interpolate, dassert, cadd, csubN.
  assert (INF < U32)%N as IU by reflexivity.
  set (qq := ((r - fst p) * (fst q + snd q - (fst p + snd p)) / (fst q - fst p))%N).
  assert (Z.of_N qq = ((Z.of_N r - Z.of_N (fst p)) * (Z.of_N (fst q) + Z.of_N (snd q) - (Z.of_N (fst p) + Z.of_N (snd p))) / (Z.of_N (fst q) - Z.of_N (fst p))))%Z as EQ.
  { unfold qq. rewrite N2Z.inj_div, N2Z.inj_mul. do 2 f_equal; try f_equal; lia. }
  pose proof (line_code (Z.of_N (fst p)) (Z.of_N (snd p)) (Z.of_N (fst q)) (Z.of_N (snd q)) ltac:(lia) ltac:(lia) ltac:(lia) ltac:(lia) (Z.of_N r) ltac:(lia)) as L.
  cbv zeta in L. rewrite <- EQ in L. destruct L as (L1 & L2 & L3).
  assert (r <= fst p + snd p + qq)%N by lia. assert (fst p + snd p + qq <= fst q + snd q)%N by lia.
  exists (fst p + snd p + qq - r)%N. split.
  - destruct (fst p + snd p <? U32)%N eqn:E1; [|lia]. destruct (fst q + snd q <? U32)%N eqn:E2; [|lia].
    destruct (fst p <=? fst q)%N eqn:E3; [|lia]. destruct (fst p + snd p <=? fst q + snd q)%N eqn:E4; [|lia].
    destruct (fst p <=? r)%N eqn:E5; [|lia]. destruct (fst p <? fst q)%N eqn:E6; [|lia].
    destruct (fst q - fst p =? 0)%N eqn:E7; [lia|]. cbn [guard negb].
    replace (if debug then Some tt else Some tt) with (Some tt) by (destruct debug; auto). cbn [bind].
    rewrite E4. cbn [guard]. replace (if debug then Some tt else Some tt) with (Some tt) by (destruct debug; auto). cbn [bind].
    rewrite E7. cbn [negb bind]. fold qq. destruct (fst p + snd p + qq <? INF)%N eqn:E8; [|lia]. cbn [guard].
    replace (if debug then Some tt else Some tt) with (Some tt) by (destruct debug; auto). cbn [bind].
    rewrite N.mod_small by lia. destruct (r <=? fst p + snd p + qq)%N eqn:E9; [auto|lia].
  - apply on_line_Z; auto. cbv zeta. replace (Z.of_N (fst p + snd p + qq - r)) with (Z.of_N (fst p) + Z.of_N (snd p) + Z.of_N qq - Z.of_N r)%Z by lia. lia.
Qed.

(** ** One function *)
Section Fun.
  Variable bs : list N -> N -> option (nat + nat).
  Variable P : N.
  Variable debug : bool.
  Variable f : ttf.
  Hypothesis HB : nbs_contract bs.
  Hypothesis HP : (0 < P)%N.
  Hypothesis HV : valid_ttf P f.
  Hypothesis HS : forall p, In p f -> (fst p + snd p < INF)%N.

  Notation DT := (map fst f).
  Notation TT := (map snd f).

  Lemma DT_nth i p : nth_error f i = Some p -> nth_error DT i = Some (fst p).
  Proof using HB HP HV HS. intros. rewrite nth_error_map, H. auto. Qed.
  Lemma TT_nth i p : nth_error f i = Some p -> nth_error TT i = Some (snd p).
  Proof using HB HP HV HS. intros. rewrite nth_error_map, H. auto. Qed.
  Lemma DT_inv i d : nth_error DT i = Some d -> exists p, nth_error f i = Some p /\ fst p = d.
  Proof using HB HP HV HS. rewrite nth_error_map. destruct (nth_error f i); cbn; intros; inversion H; eauto. Qed.

  Lemma f_nonempty : 1 <= length f.
  Proof using HB HP HV HS. destruct (vt_start _ _ HV) as (w0 & E). apply nth_error_Some_lt in E. lia. Qed.

  Lemma pt_small i p : nth_error f i = Some p -> (fst p + snd p < INF)%N.
  Proof using HB HP HV HS. intros E. apply HS. eapply nth_error_In; eauto. Qed.

  Lemma pt_asc i j p q : i < j -> nth_error f i = Some p -> nth_error f j = Some q -> (fst p < fst q)%N /\ (fst p + snd p <= fst q + snd q)%N.
  Proof using HB HP HV HS.
    intros L Hp. revert q. induction L as [|j L IH]; intros q Hq.
    - split; [eapply (vt_asc _ _ HV)|eapply (vt_fifo _ _ HV)]; exists i; eauto.
    - destruct (nth_error f j) as [m|] eqn:Em; [|apply nth_error_None in Em; apply nth_error_Some_lt in Hq; lia].
      destruct (IH _ eq_refl) as (A & B).
      assert (consec f m q) as C by (exists j; eauto).
      pose proof (vt_asc _ _ HV _ _ C). pose proof (vt_fifo _ _ HV _ _ C). lia.
  Qed.

  Lemma DT_asc : ascendingN DT.
  Proof using HB HP HV HS.
    intros i j a b L Ha Hb. apply DT_inv in Ha, Hb. destruct Ha as (p & Hp & <-), Hb as (q & Hq & <-).
    apply Nat.le_lteq in L. destruct L as [L|<-].
    - pose proof (pt_asc _ _ _ _ L Hp Hq). lia.
    - rewrite Hp in Hq. inversion Hq; subst. lia.
  Qed.

  Definition w_first : N := match f with [] => 0%N | p :: _ => snd p end.
  Lemma first_pt : nth_error f 0 = Some (0%N, w_first).
  Proof using HB HP HV HS. destruct (vt_start _ _ HV) as (w0 & E). rewrite E. unfold w_first. destruct f; inversion E; subst. auto. Qed.
  Lemma last_pt : 2 <= length f -> nth_error f (length f - 1) = Some (P, w_first).
  Proof using HB HP HV HS.
    intros L. destruct (vt_end _ _ HV) as (p0 & p & E0 & El & W & [O|O]); [lia|]. rewrite El. rewrite first_pt in E0. inversion E0; subst p0.
    destruct p as (x, y). cbn in *. subst. auto.
  Qed.

  (** [r] (within the period) has value [w]. *)
  Definition val (r w : N) : Prop :=
    (f = [(0%N, w)]) \/ exists i p q, nth_error f i = Some p /\ nth_error f (S i) = Some q /\ on_line p q r w.

  Lemma one_or_more : (exists w, f = [(0%N, w)]) \/ 2 <= length f.
  Proof using HB HP HV HS.
    pose proof first_pt as F. pose proof f_nonempty. remember w_first as w0 eqn:Ew. clear Ew.
    destruct f as [|p [|q l]]; cbn in *; [lia| |right; lia]. inversion F. eauto.
  Qed.

  Lemma val_len1 w w' r : f = [(0%N, w)] -> val r w' -> w' = w.
  Proof using HB HP HV HS. intros E [H|(i & p & q & _ & H & _)]. - congruence. - rewrite E in H. destruct i; discriminate. Qed.

  Lemma seg_on_line i p q r w : nth_error f i = Some p -> nth_error f (S i) = Some q -> (fst p <= r <= fst q)%N -> val r w -> on_line p q r w.
  Proof using HB HP HV HS.
    intros Hp Hq R [H|(j & p' & q' & Hp' & Hq' & L)].
    { rewrite H in Hq. destruct i; discriminate. }
    assert (fst p < fst q)%N as PQ by (eapply (pt_asc i (S i)); eauto).
    assert (fst p' < fst q')%N as PQ' by (eapply (pt_asc j (S j)); eauto).
    destruct (Nat.lt_total i j) as [K|[<-|K]].
    - assert (fst q <= fst p')%N.
      { destruct (Nat.eq_dec (S i) j) as [<-|]. - rewrite Hp' in Hq. inversion Hq. lia.
        - assert (S i < j) as K' by lia. pose proof (pt_asc _ _ _ _ K' Hq Hp'). lia. }
      assert (r = fst q /\ r = fst p') as (E1 & E2) by (destruct L as (L & _); lia).
      assert (p' = q) as ->.
      { destruct (Nat.eq_dec (S i) j) as [<-|]. - congruence.
        - assert (S i < j) as K' by lia. pose proof (pt_asc _ _ _ _ K' Hq Hp'). lia. }
      rewrite E2 in L. apply on_line_left in L; auto. rewrite E1. apply on_line_right; auto.
    - rewrite Hp in Hp'. rewrite Hq in Hq'. inversion Hp'; inversion Hq'; subst. auto.
    - assert (fst q' <= fst p)%N.
      { destruct (Nat.eq_dec (S j) i) as [<-|]. - rewrite Hp in Hq'. inversion Hq'. lia.
        - assert (S j < i) as K' by lia. pose proof (pt_asc _ _ _ _ K' Hq' Hp). lia. }
      assert (r = fst p /\ r = fst q') as (E1 & E2) by (destruct L as (L & _); lia).
      assert (q' = p) as ->.
      { destruct (Nat.eq_dec (S j) i) as [<-|]. - congruence.
        - assert (S j < i) as K' by lia. pose proof (pt_asc _ _ _ _ K' Hq' Hp). lia. }
      rewrite E2 in L. apply on_line_right in L; auto. rewrite E1. apply on_line_left; auto.
  Qed.

  Lemma val_det r w w' : val r w -> val r w' -> w = w'.
  Proof using HB HP HV HS.
    intros H H'. destruct H as [H|(i & p & q & Hp & Hq & L)]. - symmetry. eapply val_len1; eauto.
    - assert (on_line p q r w') as L' by (eapply seg_on_line; eauto; apply L).
      eapply on_line_det; eauto. eapply (pt_asc i (S i)); eauto.
  Qed.

  Lemma val_pt i p : nth_error f i = Some p -> val (fst p) (snd p).
  Proof using HB HP HV HS.
    intros Hp. destruct one_or_more as [(w & E)|L].
    - left. rewrite E in Hp. destruct i as [|[]]; cbn in Hp; inversion Hp. subst. cbn. auto.
    - right. destruct (Nat.eq_dec (S i) (length f)) as [K|K].
      + destruct i as [|i]; [lia|]. destruct (nth_error f i) as [o|] eqn:Eo; [|apply nth_error_None in Eo; lia].
        exists i, o, p. split; auto. split; auto. apply on_line_right; auto. eapply (pt_asc i (S i)); eauto.
      + apply nth_error_Some_lt in Hp as L'. destruct (nth_error f (S i)) as [q|] eqn:Eq; [|apply nth_error_None in Eq; lia].
        exists i, p, q. split; auto. split; auto. apply on_line_left; auto. eapply (pt_asc i (S i)); eauto.
  Qed.

  (** A segment around every time. *)
  Lemma seg_ex r : 2 <= length f -> (r <= P)%N -> exists i p q, nth_error f i = Some p /\ nth_error f (S i) = Some q /\ (fst p <= r <= fst q)%N.
  Proof using HB HP HV HS.
    intros L R.
    enough (forall k, k < length f -> forall p, nth_error f k = Some p -> (r <= fst p)%N -> 1 <= k ->
      exists i p q, nth_error f i = Some p /\ nth_error f (S i) = Some q /\ (fst p <= r <= fst q)%N) as G.
    { eapply (G (length f - 1)); [lia|apply last_pt; auto|cbn; lia|lia]. }
    induction k as [|k IH]; intros K p Hp Rp K1; [lia|].
    destruct (nth_error f k) as [o|] eqn:Eo; [|apply nth_error_None in Eo; lia].
    destruct (N.le_gt_cases r (fst o)) as [C|C].
    - destruct k as [|k].
      + exists 0, o, p. repeat split; auto. rewrite first_pt in Eo. inversion Eo; subst. cbn in *. lia.
      + eapply IH; eauto; lia.
    - exists k, o, p. repeat split; auto. lia.
  Qed.

  Lemma locate_ok r : 2 <= length f -> (r <= P)%N ->
    exists l, locate bs P debug DT r = Some l /\
    match l with
    | On i => exists p, nth_error f i = Some p /\ fst p = r
    | Between lo up => up = S lo /\ exists p q, nth_error f lo = Some p /\ nth_error f up = Some q /\ (fst p < r < fst q)%N
    end.
  Proof using HB HP HV HS.
    intros L R. unfold locate. rewrite map_length.
    destruct (r =? 0)%N eqn:E0.
    { eexists; split; [reflexivity|]. cbn. eexists; split; [apply first_pt|]. cbn. lia. }
    destruct (r =? P)%N eqn:EP.
    { destruct (length f =? 0) eqn:E; [lia|]. eexists; split; [reflexivity|]. eexists; split; [apply last_pt; auto|]. cbn. lia. }
    destruct (HB DT r DT_asc) as (res & -> & C). cbn [bind]. destruct res as [i|u].
    { apply DT_inv in C. destruct C as (p & Hp & E). eexists; split; [reflexivity|]. exists p. auto. }
    rewrite map_length in C. destruct C as (C1 & C2 & C3).
    assert (0 < u) as U0. { destruct u; [|lia]. specialize (C3 0 0%N ltac:(lia)). rewrite (DT_nth _ _ first_pt) in C3. specialize (C3 eq_refl). lia. }
    assert (u < length f) as UL.
    { destruct (Nat.eq_dec u (length f)) as [->|]; [|lia]. specialize (C2 (length f - 1) P ltac:(lia)). rewrite (DT_nth _ _ (last_pt L)) in C2. specialize (C2 eq_refl). lia. }
    unfold dassert. destruct (0 <? u) eqn:E1; [|lia]. destruct (u <? length f) eqn:E2; [|lia]. cbn [guard].
    replace (if debug then Some tt else Some tt) with (Some tt) by (destruct debug; auto). cbn [bind].
    destruct (u =? 0) eqn:E3; [lia|]. eexists; split; [reflexivity|]. cbn. split; [lia|].
    destruct (nth_error f (u - 1)) as [p|] eqn:Ep; [|apply nth_error_None in Ep; lia].
    destruct (nth_error f u) as [q|] eqn:Eq; [|apply nth_error_None in Eq; lia].
    exists p, q. repeat split; auto.
    - apply (C2 (u - 1)); [lia|]. apply DT_nth; auto.
    - apply (C3 u); [lia|]. apply DT_nth; auto.
  Qed.

  Lemma evaluate_ok r : (r <= P)%N -> exists w, evaluate bs P debug DT TT r = Some w /\ val r w.
  Proof using HB HP HV HS.
    intros R. unfold evaluate. rewrite map_length. unfold dassert at 1. destruct (r <=? P)%N eqn:ER; [|lia]. cbn [guard].
    replace (if debug then Some tt else Some tt) with (Some tt) by (destruct debug; auto). cbn [bind].
    destruct (length f <=? 2) eqn:EL.
    - exists w_first. split; [apply (TT_nth _ (0%N, w_first)); apply first_pt|].
      destruct one_or_more as [(w & E)|L].
      + left. assert (w_first = w) as -> by (unfold w_first; rewrite E; auto). exact E.
      + right. assert (length f = 2) as L2 by lia. pose proof (last_pt L) as LP. rewrite L2 in LP.
        exists 0, (0%N, w_first), (P, w_first). split; [apply first_pt|]. split; auto. unfold on_line; cbn. nia.
    - destruct (locate_ok r ltac:(lia) R) as (l & -> & C). cbn [bind]. destruct l as [i|lo up].
      + destruct C as (p & Hp & <-). exists (snd p). split; [apply TT_nth; auto|]. eapply val_pt; eauto.
      + destruct C as (-> & p & q & Hp & Hq & R'). rewrite (DT_nth _ _ Hp), (TT_nth _ _ Hp), (DT_nth _ _ Hq), (TT_nth _ _ Hq). cbn [bind].
        destruct (pt_asc lo (S lo) p q ltac:(lia) Hp Hq) as (A & B).
        destruct (interpolate_ok debug p q r A B (pt_small _ _ Hq) ltac:(lia)) as (w & E & L). exists w. split; auto.
        right. exists lo, p, q. auto.
  Qed.

  Lemma val_bounds r w lo hi : val r w -> (forall p, In p f -> lo <= snd p <= hi)%N -> (lo <= w <= hi)%N.
  Proof using HB HP HV HS.
    intros [->|(i & p & q & Hp & Hq & L)] H.
    - apply (H (0%N, w)). left; auto.
    - pose proof (H p (nth_error_In _ _ Hp)). pose proof (H q (nth_error_In _ _ Hq)).
      assert (fst p < fst q)%N by (eapply (pt_asc i (S i)); eauto).
      split; [eapply on_line_lo with (p := p) (q := q); eauto; lia | eapply on_line_hi with (p := p) (q := q); eauto; lia].
  Qed.

  Lemma val_fifo r w r' w' : (r <= r')%N -> val r w -> val r' w' -> (r + w <= r' + w')%N.
  Proof using HB HP HV HS.
    intros R H H'. destruct H as [H|(i & p & q & Hp & Hq & L)]; [rewrite (val_len1 _ _ _ H H'); lia|].
    destruct H' as [H'|(j & p' & q' & Hp' & Hq' & L')]; [rewrite H' in Hq; destruct i; discriminate|].
    destruct (pt_asc i (S i) p q ltac:(lia) Hp Hq) as (A & B).
    destruct (pt_asc j (S j) p' q' ltac:(lia) Hp' Hq') as (A' & B').
    destruct (Nat.lt_total i j) as [K|[<-|K]].
    - assert (r + w <= fst q + snd q)%N. { eapply on_line_fifo; [| | |apply L|apply on_line_right]; auto. apply L. }
      assert (fst p' + snd p' <= r' + w')%N. { eapply on_line_fifo; [| | |apply on_line_left|apply L']; auto. apply L'. }
      assert (fst q + snd q <= fst p' + snd p')%N.
      { destruct (Nat.eq_dec (S i) j) as [<-|]. - rewrite Hp' in Hq. inversion Hq. lia.
        - assert (S i < j) as K' by lia. pose proof (pt_asc _ _ _ _ K' Hq Hp'). lia. }
      lia.
    - rewrite Hp in Hp'. rewrite Hq in Hq'. inversion Hp'; inversion Hq'; subst. eapply on_line_fifo; [| | |apply L|apply L']; auto.
    - assert (fst q' <= fst p)%N.
      { destruct (Nat.eq_dec (S j) i) as [<-|]. - rewrite Hp in Hq'. inversion Hq'. lia.
        - assert (S j < i) as K' by lia. pose proof (pt_asc _ _ _ _ K' Hq' Hp). lia. }
      assert (r = r') by (destruct L as (L & _), L' as (L' & _); lia). subst r'.
      assert (w = w'). { eapply val_det; right; [exists i, p, q|exists j, p', q']; eauto. } lia.
  Qed.

  Lemma eval_ok t : exists w, plf_eval bs P debug DT TT t = Some w /\ val (t mod P)%N w.
  Proof using HB HP HV HS.
    unfold plf_eval. destruct (P =? 0)%N eqn:E; [lia|]. cbn [negb guard bind]. apply evaluate_ok.
    pose proof (N.mod_lt t P ltac:(lia)). lia.
  Qed.

  Lemma eval_val t w : plf_eval bs P debug DT TT t = Some w -> val (t mod P)%N w.
  Proof using HB HP HV HS. destruct (eval_ok t) as (w' & E & H). rewrite E. intros [= ->]. auto. Qed.

  Lemma val_P w : val P w -> w = w_first.
  Proof using HB HP HV HS.
    intros H. destruct one_or_more as [(w' & E)|L].
    - rewrite (val_len1 _ _ _ E H). unfold w_first. rewrite E. auto.
    - eapply val_det; eauto. apply (val_pt _ _ (last_pt L)).
  Qed.
  Lemma val_0 : val 0 w_first.
  Proof using HB HP HV HS. apply (val_pt _ _ first_pt). Qed.

  Lemma eval_fifo t w t' w' : (t <= t')%N -> plf_eval bs P debug DT TT t = Some w -> plf_eval bs P debug DT TT t' = Some w' -> (t + w <= t' + w')%N.
  Proof using HB HP HV HS.
    intros T H H'. apply eval_val in H, H'.
    pose proof (N.div_mod t P ltac:(lia)) as E. pose proof (N.div_mod t' P ltac:(lia)) as E'.
    pose proof (N.mod_lt t P ltac:(lia)). pose proof (N.mod_lt t' P ltac:(lia)).
    assert (t / P <= t' / P)%N as Q by (apply N.div_le_mono; lia).
    apply N.le_lteq in Q. destruct Q as [Q|Q].
    - assert (t mod P + w <= P + w_first)%N.
      { destruct (evaluate_ok P ltac:(lia)) as (wP & _ & HvP). pose proof (val_P _ HvP) as ->. eapply val_fifo; eauto. lia. }
      assert (0 + w_first <= t' mod P + w')%N by (eapply val_fifo; [| apply val_0|]; eauto; lia).
      assert (P * (t / P) + P <= P * (t' / P))%N by nia. lia.
    - rewrite Q in E. assert (t mod P <= t' mod P)%N as R by lia. pose proof (val_fifo _ _ _ _ R H H'). lia.
  Qed.

  Lemma val_spec t w : val (t mod P)%N w <-> ttf_value P f t w.
  Proof using HB HP HV HS.
    split.
    - intros [E|(i & p & q & Hp & Hq & L)]; [left; rewrite E; split; eauto|right; exists p, q; split; auto; exists i; auto].
    - intros [(L & d & E)|(p & q & (i & Hp & Hq) & L)]; [left|right; eauto 6].
      pose proof first_pt as F. rewrite E in F. cbn in F. inversion F. rewrite E. subst. auto.
  Qed.
End Fun.
