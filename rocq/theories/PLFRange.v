(** Range queries on piecewise linear functions. *)
From Verif Require Import Base BitVec Graph GraphProof SpecTTF PLF PLFProof.

Lemma lminN_ok l : l <> [] -> exists m, lminN l = Some m /\ In m l /\ forall x, In x l -> (m <= x)%N.
Proof.
  induction l as [|a l IH]; [congruence|]. intros _. cbn [lminN]. destruct l as [|b l].
  - exists a. cbn. intuition lia.
  - destruct IH as (m & -> & Hm & Hmin); [congruence|]. exists (N.min a m). split; auto. split.
    + destruct (N.min_spec a m) as [(_ & ->)|(_ & ->)]; [left|right]; auto.
    + intros x [<-|Hx]; [lia|]. pose proof (Hmin x Hx). lia.
Qed.
Lemma lmaxN_ok l : l <> [] -> exists m, lmaxN l = Some m /\ In m l /\ forall x, In x l -> (x <= m)%N.
Proof.
  induction l as [|a l IH]; [congruence|]. intros _. cbn [lmaxN]. destruct l as [|b l].
  - exists a. cbn. intuition lia.
  - destruct IH as (m & -> & Hm & Hmin); [congruence|]. exists (N.max a m). split; auto. split.
    + destruct (N.max_spec a m) as [(_ & ->)|(_ & ->)]; [right|left]; auto.
    + intros x [<-|Hx]; [lia|]. pose proof (Hmin x Hx). lia.
Qed.

Lemma slice_ok {A} (l : list A) a b : a <= b -> b <= length l ->
  exists s, slice l a b = Some s /\ length s = b - a /\ forall k, nth_error s k = if a + k <? b then nth_error l (a + k) else None.
Proof.
  intros H1 H2. unfold slice. destruct (a <=? b) eqn:E1; [|lia]. destruct (b <=? length l) eqn:E2; [|lia]. cbn [andb guard bind].
  eexists; split; [reflexivity|]. split. { rewrite firstn_length, skipn_length. lia. }
  intros k. rewrite nth_error_firstn', nth_error_skipn'. destruct (k <? b - a) eqn:E3, (a + k <? b) eqn:E4; auto; try lia.
Qed.

Lemma line_mono v v' d d' x y : (v <= v' -> d <= x -> x <= y -> y <= d' -> v * (d' - x) + v' * (x - d) <= v * (d' - y) + v' * (y - d))%N.
Proof.
  intros V A B C. replace (d' - x)%N with ((d' - y) + (y - x))%N by lia. replace (y - d)%N with ((x - d) + (y - x))%N by lia.
  rewrite !N.mul_add_distr_l. assert (v * (y - x) <= v' * (y - x))%N by (apply N.mul_le_mono_r; auto). lia.
Qed.
Lemma line_anti v v' d d' x y : (v' <= v -> d <= x -> x <= y -> y <= d' -> v * (d' - y) + v' * (y - d) <= v * (d' - x) + v' * (x - d))%N.
Proof.
  intros V A B C. replace (d' - x)%N with ((d' - y) + (y - x))%N by lia. replace (y - d)%N with ((x - d) + (y - x))%N by lia.
  rewrite !N.mul_add_distr_l. assert (v' * (y - x) <= v * (y - x))%N by (apply N.mul_le_mono_r; auto). lia.
Qed.

(** Between two times on one line the rounded value is between the values at these times. *)
Lemma on_line_mid p q a wa r w e we : (fst p < fst q)%N -> (a <= r <= e)%N ->
  on_line p q a wa -> on_line p q r w -> on_line p q e we -> (N.min wa we <= w <= N.max wa we)%N.
Proof.
  intros Hpq R (A1 & A2 & A3) (B1 & B2 & B3) (C1 & C2 & C3).
  set (X := fun x => (snd p * (fst q - x) + snd q * (x - fst p))%N).
  assert (forall x y w w', X x <= X y -> (fst q - fst p) * w <= X x -> X y < (fst q - fst p) * (w' + 1) -> w <= w')%N as M.
  { intros x y u u' M1 M2 M3. assert ((fst q - fst p) * u < (fst q - fst p) * (u' + 1))%N by lia. apply N.mul_lt_mono_pos_l in H; lia. }
  destruct (N.le_ge_cases (snd p) (snd q)) as [V|V].
  - assert (forall x y, fst p <= x -> x <= y -> y <= fst q -> X x <= X y)%N as Mo by (intros; unfold X; apply line_mono; auto).
    assert (wa <= w)%N by (eapply M; [apply (Mo a r)| |]; unfold X; eauto; lia).
    assert (w <= we)%N by (eapply M; [apply (Mo r e)| |]; unfold X; eauto; lia). lia.
  - assert (forall x y, fst p <= x -> x <= y -> y <= fst q -> X y <= X x)%N as Mo by (intros; unfold X; apply line_anti; auto).
    assert (w <= wa)%N by (eapply M; [apply (Mo a r)| |]; unfold X; eauto; lia).
    assert (we <= w)%N by (eapply M; [apply (Mo r e)| |]; unfold X; eauto; lia). lia.
Qed.

Section Fun.
  Variable bs : list N -> N -> option (nat + nat).
  Variable P : N.
  Variable debug : bool.
  Variable f : ttf.
  Hypothesis HB : nbs_contract bs.
  Hypothesis HP : (0 < P)%N.
  Hypothesis HV : valid_ttf P f.
  Hypothesis HS : forall p, In p f -> (fst p + snd p < INF)%N.
  Hypothesis HL : 2 <= length f.

  Notation DT := (map fst f).
  Notation TT := (map snd f).
  Notation val := (val f).
  Local Notation pt_asc := (pt_asc bs P f HB HP HV HS).
  Local Notation TT_nth := (TT_nth bs P f HB HP HV HS).
  Local Notation seg_ex := (seg_ex bs P f HB HP HV HS).
  Local Notation seg_on_line := (seg_on_line bs P f HB HP HV HS).
  Local Notation val_det := (val_det bs P f HB HP HV HS).
  Local Notation val_pt := (val_pt bs P f HB HP HV HS).
  Local Notation evaluate_ok := (evaluate_ok bs P debug f HB HP HV HS).
  Local Notation locate_ok := (locate_ok bs P debug f HB HP HV HS).

  Lemma pt_le i j p q : nth_error f i = Some p -> nth_error f j = Some q -> (fst p <= fst q)%N -> i <= j.
  Proof using HB HP HV HS HL.
    intros Hp Hq L. destruct (le_lt_dec i j); auto. pose proof (pt_asc _ _ _ _ l Hq Hp). lia.
  Qed.

  Lemma pt_lt i j p q : nth_error f i = Some p -> nth_error f j = Some q -> (fst p < fst q)%N -> i < j.
  Proof using HB HP HV HS HL.
    intros Hp Hq L. pose proof (pt_le _ _ _ _ Hp Hq ltac:(lia)). destruct (Nat.eq_dec i j) as [->|]; [|lia]. assert (p = q) by congruence. subst. lia.
  Qed.

  Lemma val_lt r w : (r <= P)%N -> val r w -> (w < INF)%N.
  Proof using HB HP HV HS HL.
    intros R H. assert (0 <= w <= INF - 1)%N; [|unfold INF in *; lia].
    eapply val_bounds; eauto. intros p Hp. pose proof (HS p Hp). lia.
  Qed.

  (** The elements over which [bound_in_included] takes the minimum or maximum. *)
  Lemma included_ok pick a b : (a < b <= P)%N ->
    exists s, bound_in_included bs P debug pick DT TT (a, b) = pick s /\ s <> [] /\
      (forall x, In x s -> x = INF \/ exists r, (a <= r <= b)%N /\ val r x) /\
      (forall r w, (r = a \/ r = b \/ exists k p, nth_error f k = Some p /\ fst p = r) -> (a <= r <= b)%N -> val r w -> In w s) /\
      (b = P -> In INF s).
  Proof using HB HP HV HS HL.
    intros R. unfold bound_in_included. cbn [fst snd]. destruct (b <=? a)%N eqn:E; [lia|].
    destruct (locate_ok a HL ltac:(lia)) as (l1 & -> & C1). cbn [bind].
    destruct (locate_ok b HL ltac:(lia)) as (l2 & E2 & C2).
    destruct (evaluate_ok a ltac:(lia)) as (va & Ea & Va). destruct (evaluate_ok b ltac:(lia)) as (vb & Eb & Vb).
    set (i := match l1 with On i => i | Between _ u => u end).
    set (j := match l2 with On j => j | Between l _ => l end).
    set (xa := match l1 with On _ => INF | _ => va end). set (xb := match l2 with On _ => INF | _ => vb end).
    assert (i <= j + 1 /\ j + 1 <= length f) as (IJ & JL).
    { unfold i, j. destruct l1 as [k1|lo1 up1], l2 as [k2|lo2 up2].
      - destruct C1 as (p & Hp & <-), C2 as (q & Hq & <-). pose proof (pt_le _ _ _ _ Hp Hq ltac:(lia)). apply nth_error_Some_lt in Hq. lia.
      - destruct C1 as (p & Hp & <-), C2 as (-> & q & q' & Hq & Hq' & B). apply nth_error_Some_lt in Hq' as L'. pose proof (pt_le _ _ _ _ Hp Hq' ltac:(lia)). lia.
      - destruct C1 as (-> & p & p' & Hp & Hp' & B), C2 as (q & Hq & <-). apply nth_error_Some_lt in Hq as L'. pose proof (pt_le _ _ _ _ Hp Hq ltac:(lia)). lia.
      - destruct C1 as (-> & p & p' & Hp & Hp' & B), C2 as (-> & q & q' & Hq & Hq' & B'). apply nth_error_Some_lt in Hq' as L'.
        pose proof (pt_lt _ _ _ _ Hp Hq' ltac:(lia)). lia. }
    destruct (slice_ok TT i (j + 1) IJ ltac:(rewrite map_length; auto)) as (s & Es & Ls & Ns).
    exists (s ++ [xa; xb]). split.
    { replace (match l1 with On i0 => Some (i0, INF) | Between _ up => e <- evaluate bs P debug DT TT a;; Some (up, e) end) with (Some (i, xa))
        by (unfold i, xa; destruct l1; rewrite ?Ea; auto). cbn [bind].
      rewrite E2. cbn [bind].
      replace (match l2 with On j0 => Some (j0, INF) | Between lo _ => e <- evaluate bs P debug DT TT b;; Some (lo, e) end) with (Some (j, xb))
        by (unfold j, xb; destruct l2; rewrite ?Eb; auto). cbn [bind].
      rewrite Es. cbn [bind]. auto. }
    split. { destruct s; discriminate. }
    assert (forall k p, nth_error f k = Some p -> i <= k <= j -> (a <= fst p <= b)%N) as IN1.
    { intros k p Hp K. split.
      - unfold i in K. destruct l1 as [k1|lo1 up1].
        + destruct C1 as (q & Hq & <-). destruct (Nat.eq_dec k1 k) as [->|]; [assert (p = q) by congruence; subst; lia|].
          assert (k1 < k) as K' by lia. pose proof (pt_asc _ _ _ _ K' Hq Hp). lia.
        + destruct C1 as (-> & q & q' & Hq & Hq' & B). destruct (Nat.eq_dec (S lo1) k) as [<-|]; [assert (p = q') by congruence; subst; lia|].
          assert (S lo1 < k) as K' by lia. pose proof (pt_asc _ _ _ _ K' Hq' Hp). lia.
      - unfold j in K. destruct l2 as [k1|lo1 up1].
        + destruct C2 as (q & Hq & <-). destruct (Nat.eq_dec k1 k) as [->|]; [assert (p = q) by congruence; subst; lia|].
          assert (k < k1) as K' by lia. pose proof (pt_asc _ _ _ _ K' Hp Hq). lia.
        + destruct C2 as (-> & q & q' & Hq & Hq' & B). destruct (Nat.eq_dec lo1 k) as [<-|]; [assert (p = q) by congruence; subst; lia|].
          assert (k < lo1) as K' by lia. pose proof (pt_asc _ _ _ _ K' Hp Hq). lia. }
    assert (forall k p, nth_error f k = Some p -> (a <= fst p <= b)%N -> i <= k <= j) as IN2.
    { intros k p Hp K. split.
      - unfold i. destruct l1 as [k1|lo1 up1].
        + destruct C1 as (q & Hq & <-). eapply pt_le; eauto. lia.
        + destruct C1 as (-> & q & q' & Hq & Hq' & B). enough (lo1 < k) by lia. destruct (le_lt_dec k lo1); auto.
          apply Nat.le_lteq in l. destruct l as [l| ->]; [pose proof (pt_asc _ _ _ _ l Hp Hq); lia|assert (p = q) by congruence; subst; lia].
      - unfold j. destruct l2 as [k1|lo1 up1].
        + destruct C2 as (q & Hq & <-). eapply pt_le; eauto. lia.
        + destruct C2 as (-> & q & q' & Hq & Hq' & B). enough (k < S lo1) by lia. destruct (le_lt_dec (S lo1) k); auto.
          apply Nat.le_lteq in l. destruct l as [l| <-]; [pose proof (pt_asc _ _ _ _ l Hq' Hp); lia|assert (p = q') by congruence; subst; lia]. }
    assert (forall k p, nth_error f k = Some p -> (a <= fst p <= b)%N -> In (snd p) (s ++ [xa; xb])) as PT.
    { intros k p Hp K. apply in_app_iff. left. pose proof (IN2 _ _ Hp K) as B. apply nth_error_In with (n := k - i).
      rewrite Ns. destruct (i + (k - i) <? j + 1) eqn:E3; [|lia]. replace (i + (k - i)) with k by lia. apply TT_nth; auto. }
    split; [|split].
    - intros x Hx. apply in_app_iff in Hx. destruct Hx as [Hx|[<-|[<-|[]]]].
      + apply In_nth_error in Hx. destruct Hx as (k & Hk). rewrite Ns in Hk. destruct (i + k <? j + 1) eqn:E3; [|discriminate].
        rewrite nth_error_map in Hk. destruct (nth_error f (i + k)) as [p|] eqn:Ep; [|discriminate]. inversion Hk; subst x.
        right. exists (fst p). split; [eapply IN1; eauto; lia|]. eapply val_pt; eauto.
      + unfold xa. destruct l1; auto. right. exists a. split; [lia|auto].
      + unfold xb. destruct l2; auto. right. exists b. split; [lia|auto].
    - intros r w [->|[->|(k & p & Hp & <-)]] K Hw.
      + destruct l1 as [k1|lo1 up1].
        * destruct C1 as (q & Hq & EQ). rewrite <- EQ in Hw. rewrite (val_det _ _ _ Hw (val_pt _ _ Hq)). eapply PT; eauto. lia.
        * rewrite (val_det _ _ _ Hw Va). apply in_app_iff. right. left. auto.
      + destruct l2 as [k1|lo1 up1].
        * destruct C2 as (q & Hq & EQ). rewrite <- EQ in Hw. rewrite (val_det _ _ _ Hw (val_pt _ _ Hq)). eapply PT; eauto. lia.
        * rewrite (val_det _ _ _ Hw Vb). apply in_app_iff. right. right. left. auto.
      + rewrite (val_det _ _ _ Hw (val_pt _ _ Hp)). eapply PT; eauto.
    - intros ->. apply in_app_iff. right. right. left. unfold xb. unfold locate in E2.
      destruct (P =? 0)%N eqn:EP; [lia|]. rewrite N.eqb_refl in E2. rewrite map_length in E2. destruct (length f =? 0) eqn:EE; [lia|]. inversion E2. auto.
  Qed.

  Lemma lower_included a b : (a < b <= P)%N ->
    exists m, bound_in_included bs P debug lminN DT TT (a, b) = Some m /\
      (forall r w, (a <= r <= b)%N -> val r w -> (m <= w)%N) /\ exists r, (a <= r <= b)%N /\ val r m.
  Proof using HB HP HV HS HL.
    intros R. destruct (included_ok lminN a b R) as (s & -> & NE & S1 & S2 & _).
    destruct (lminN_ok s NE) as (m & -> & Hm & Hmin). exists m. split; auto. split.
    - intros r w K Hw. destruct (seg_ex r HL ltac:(lia)) as (i & p & q & Hp & Hq & PQ).
      pose proof (seg_on_line i p q r w Hp Hq PQ Hw) as L.
      destruct (pt_asc i (S i) p q ltac:(lia) Hp Hq) as (A & _).
      destruct (evaluate_ok (N.max a (fst p)) ltac:(lia)) as (wl & _ & Vl).
      destruct (evaluate_ok (N.min b (fst q)) ltac:(lia)) as (wr & _ & Vr).
      assert (m <= wl)%N. { apply Hmin. apply (S2 (N.max a (fst p)) wl); auto; [|lia]. destruct (N.max_spec a (fst p)) as [(_ & ->)|(_ & ->)]; eauto 6. }
      assert (m <= wr)%N. { apply Hmin. apply (S2 (N.min b (fst q)) wr); auto; [|lia]. destruct (N.min_spec b (fst q)) as [(_ & ->)|(_ & ->)]; eauto 6. }
      enough (N.min wl wr <= w)%N by lia.
      eapply on_line_mid with (p := p) (q := q) (a := N.max a (fst p)) (e := N.min b (fst q)); eauto; try lia;
        eapply seg_on_line; eauto; lia.
    - destruct (S1 m Hm) as [->|H]; auto. exfalso.
      destruct (evaluate_ok a ltac:(lia)) as (wa & _ & Va). pose proof (S2 a wa (or_introl eq_refl) ltac:(lia) Va) as I.
      pose proof (Hmin _ I). pose proof (val_lt a wa ltac:(lia) Va). lia.
  Qed.

  Lemma included_empty pick a b : (b <= a)%N -> bound_in_included bs P debug pick DT TT (a, b) = Some INF.
  Proof using HB HP HV HS HL. intros H. unfold bound_in_included. cbn. destruct (b <=? a)%N eqn:E; [auto|lia]. Qed.

  Lemma upper_included a b : (a <= P)%N -> (b <= P)%N ->
    exists m, bound_in_included bs P debug lmaxN DT TT (a, b) = Some m /\ (m <= INF)%N /\ ((b <= a)%N \/ b = P -> m = INF).
  Proof using HB HP HV HS HL.
    intros Ha Hb. destruct (N.le_gt_cases b a) as [C|C].
    { rewrite included_empty; auto. exists INF. repeat split; auto. lia. }
    destruct (included_ok lmaxN a b ltac:(lia)) as (s & -> & NE & S1 & _ & S3).
    destruct (lmaxN_ok s NE) as (m & -> & Hm & Hmax). exists m. split; auto.
    assert (m <= INF)%N. { destruct (S1 m Hm) as [->|(r & R & V)]; [lia|]. pose proof (val_lt r m ltac:(lia) V). lia. }
    split; auto. intros [K|K]; [lia|]. specialize (S3 K). pose proof (Hmax _ S3). lia.
  Qed.

  Lemma TT_match {A} (x : N -> A) (y : A) : match TT with [c] => x c | _ => y end = y.
  Proof using HB HP HV HS HL. destruct f as [|? [|? ?]]; cbn in *; auto. lia. Qed.

  Lemma upper_range_inf a b : upper_bound_in_range bs P debug DT TT (a, b) = Some INF.
  Proof using HB HP HV HS HL.
    unfold upper_bound_in_range, bound_in_range. rewrite TT_match. unfold rsplit. cbn [fst snd].
    destruct (P =? 0)%N eqn:EP; [lia|]. cbn [negb guard bind].
    assert (forall x, x mod P <= P)%N as MP by (intros x; pose proof (N.mod_lt x P ltac:(lia)); lia).
    destruct (P <? a)%N eqn:E1.
    { rewrite included_empty by lia. cbn [bind fst snd].
      destruct (upper_included (a mod P) (b mod P) (MP _) (MP _)) as (m & -> & M & _). cbn [bind]. f_equal. lia. }
    destruct (b <=? P)%N eqn:E2.
    { destruct (upper_included a b ltac:(lia) ltac:(lia)) as (m & -> & M & _). cbn [bind fst snd].
      rewrite included_empty by lia. cbn [bind]. f_equal. lia. }
    destruct (upper_included a P ltac:(lia) ltac:(lia)) as (m & -> & M & Z). cbn [bind fst snd].
    destruct (upper_included (P mod P) (b mod P) (MP _) (MP _)) as (m' & -> & M' & _). cbn [bind]. f_equal. specialize (Z ltac:(auto)). lia.
  Qed.

  (** [bound_in_range] of the minimum: what is returned over the two parts. *)
  Lemma lower_range a b : (a < b < 2 * P)%N ->
    exists m, lower_bound_in_range bs P debug DT TT (a, b) = Some m /\
      (forall t w, (a <= t <= b)%N -> val (t mod P) w -> (m <= w)%N) /\ exists t, (a <= t <= b)%N /\ val (t mod P) m.
  Proof using HB HP HV HS HL.
    intros R. unfold lower_bound_in_range, bound_in_range. rewrite TT_match. unfold rsplit. cbn [fst snd].
    destruct (P =? 0)%N eqn:EP; [lia|]. cbn [negb guard bind].
    assert (forall t, P <= t -> t < 2 * P -> t mod P = t - P)%N as M2.
    { intros t T1 T2. symmetry. apply (N.mod_unique t P 1); lia. }
    assert (forall t, t < P -> t mod P = t)%N as M1 by (intros; apply N.mod_small; auto).
    assert (P mod P = 0)%N as MP by (apply N.mod_same; lia).
    assert (forall w, val P w <-> val 0 w) as V0P.
    { intros w. pose proof (last_pt bs P f HB HP HV HS HL) as LP. pose proof (first_pt bs P f HB HP HV HS) as FP.
      pose proof (val_pt _ _ LP) as A. pose proof (val_pt _ _ FP) as B. cbn [fst snd] in *.
      split; intros H; [rewrite (val_det _ _ _ H A)|rewrite (val_det _ _ _ H B)]; auto. }
    assert (forall t w, t <= P -> val (t mod P) w <-> val t w)%N as VM.
    { intros t w T. destruct (N.eq_dec t P) as [->|]; [rewrite MP; symmetry; auto|rewrite M1 by lia; tauto]. }
    destruct (P <? a)%N eqn:E1.
    { rewrite included_empty by lia. cbn [bind fst snd].
      destruct (lower_included (a mod P) (b mod P)) as (m & -> & A & r & Rr & Vr).
      { rewrite !M2 by lia. lia. }
      cbn [bind]. rewrite (M2 a), (M2 b) in A, Rr by lia.
      assert (m < INF)%N by (eapply val_lt with (r := r); eauto; lia).
      replace (N.min INF m) with m by lia. exists m. split; auto. split.
      - intros t w T Hw. rewrite M2 in Hw by lia. apply (A (t - P)%N w ltac:(lia) Hw).
      - exists (r + P)%N. split; [lia|]. replace ((r + P) mod P)%N with r by (rewrite M2; lia). auto. }
    destruct (b <=? P)%N eqn:E2.
    { destruct (lower_included a b ltac:(lia)) as (m & -> & A & r & Rr & Vr). cbn [bind fst snd].
      rewrite included_empty by lia. cbn [bind].
      assert (m < INF)%N by (eapply val_lt with (r := r); eauto; lia).
      replace (N.min m INF) with m by lia. exists m. split; auto. split.
      - intros t w T Hw. apply (A t w ltac:(lia)). apply VM; auto. lia.
      - exists r. split; [lia|]. apply VM; auto. lia. }
    cbn [fst snd]. rewrite MP, (M2 b) by lia.
    destruct (lower_included 0 (b - P) ltac:(lia)) as (m2 & E & A2 & r2 & R2 & V2). cbn [fst snd]. rewrite E.
    destruct (N.eq_dec a P) as [->|NE].
    - rewrite included_empty by lia. cbn [bind].
      assert (m2 < INF)%N by (eapply val_lt with (r := r2); eauto; lia).
      replace (N.min INF m2) with m2 by lia. exists m2. split; auto. split.
      + intros t w T Hw. rewrite M2 in Hw by lia. apply (A2 (t - P)%N w ltac:(lia) Hw).
      + exists (r2 + P)%N. split; [lia|]. replace ((r2 + P) mod P)%N with r2 by (rewrite M2; lia). auto.
    - destruct (lower_included a P ltac:(lia)) as (m & -> & A & r & Rr & Vr). cbn [bind].
      exists (N.min m m2). split; auto. split.
      + intros t w T Hw. destruct (N.le_gt_cases t P) as [K|K].
        * apply (VM t w K) in Hw. pose proof (A t w ltac:(lia) Hw). lia.
        * rewrite M2 in Hw by lia. pose proof (A2 (t - P)%N w ltac:(lia) Hw). lia.
      + destruct (N.min_spec m m2) as [(_ & ->)|(_ & ->)].
        * exists r. split; [lia|]. apply VM; auto. lia.
        * exists (r2 + P)%N. split; [lia|]. replace ((r2 + P) mod P)%N with r2 by (rewrite M2; lia). auto.
  Qed.

  (** A range that starts at 0 and covers the whole period. *)
  Lemma lower_range_all b : (P <= b)%N ->
    exists m, lower_bound_in_range bs P debug DT TT (0%N, b) = Some m /\
      (forall t w, val (t mod P) w -> (m <= w)%N) /\ exists t, (t < P)%N /\ val (t mod P) m.
  Proof using HB HP HV HS HL.
    intros R.
    assert (forall t, t mod P < P)%N as MP by (intros x; apply N.mod_lt; lia).
    destruct (lower_included 0 P ltac:(lia)) as (m & E & A & r & Rr & Vr).
    assert (exists y, bound_in_included bs P debug lminN DT TT (P mod P, b mod P)%N = Some y /\ (m <= y)%N) as (y & Ey & My).
    { destruct (N.le_gt_cases (b mod P) (P mod P)) as [C|C].
      - rewrite included_empty by lia. exists INF. split; auto. assert (m < INF)%N by (eapply val_lt with (r := r); eauto; lia). lia.
      - pose proof (MP b). destruct (lower_included (P mod P) (b mod P) ltac:(lia)) as (y & -> & _ & r' & R' & V'). exists y. split; auto. apply (A r' y); auto. lia. }
    exists m. split.
    - unfold lower_bound_in_range, bound_in_range. rewrite TT_match. unfold rsplit. cbn [fst snd].
      destruct (P =? 0)%N eqn:EP; [lia|]. cbn [negb guard bind]. destruct (P <? 0)%N eqn:E0; [lia|].
      destruct (b <=? P)%N eqn:E1.
      + replace b with P by lia. rewrite E. cbn [bind fst snd]. rewrite included_empty by lia. cbn [bind].
        assert (m < INF)%N by (eapply val_lt with (r := r); eauto; lia). f_equal. lia.
      + rewrite E. cbn [bind fst snd]. rewrite Ey. cbn [bind]. f_equal. lia.
    - split.
      + intros t w Hw. apply (A (t mod P)%N w); auto. pose proof (MP t). lia.
      + destruct (N.eq_dec r P) as [->|].
        * exists 0%N. split; auto. rewrite N.mod_0_l by lia.
          pose proof (val_pt _ _ (last_pt bs P f HB HP HV HS HL)) as A'. pose proof (val_pt _ _ (first_pt bs P f HB HP HV HS)) as B'. cbn [fst snd] in *.
          rewrite (val_det _ _ _ Vr A'). auto.
        * exists r. split; [lia|]. rewrite N.mod_small by lia. auto.
  Qed.
End Fun.
