(** C35, C36: integer travel time functions. *)
From Verif Require Import Base BitVec SpecTTF PLF PLFProof PLFRange PLFAverage.

(** A binary search that meets the contract (for the examples). *)
Fixpoint lin_search_from (l : list N) (x : N) (i : nat) : option (nat + nat) :=
  match l with
  | [] => Some (inr i)
  | y :: l' => if (y <? x)%N then lin_search_from l' x (S i) else if (y =? x)%N then Some (inl i) else Some (inr i)
  end.
Definition lin_search (l : list N) (x : N) : option (nat + nat) := lin_search_from l x 0.

Lemma lin_search_contract : nbs_contract lin_search.
Proof.
  intros l x A. unfold lin_search.
  enough (forall pre l, ascendingN l -> exists r, lin_search_from l x pre = Some r /\
    match r with
    | inl i => pre <= i /\ nth_error l (i - pre) = Some x
    | inr i => pre <= i <= pre + length l /\ (forall j y, pre + j < i -> nth_error l j = Some y -> (y < x)%N) /\ (forall j y, i <= pre + j -> nth_error l j = Some y -> (x < y)%N)
    end) as G.
  { destruct (G 0 l A) as (r & -> & C). exists r. split; auto. destruct r as [i|i]; [rewrite Nat.sub_0_r in C; tauto|]. intuition lia. }
  clear. intros pre l. revert pre. induction l as [|y l IH]; intros pre A; cbn [lin_search_from].
  { eexists; split; [reflexivity|]. cbn. repeat split; try lia; intros [|] ?; discriminate. }
  destruct (y <? x)%N eqn:E.
  - destruct (IH (S pre)) as (r & -> & C). { intros i j a b L. apply (A (S i) (S j)); lia. }
    exists r. split; auto. destruct r as [i|i].
    + destruct C as (C1 & C2). split; [lia|]. replace (i - pre) with (S (i - S pre)) by lia. auto.
    + destruct C as (C1 & C2 & C3). cbn [length]. split; [lia|]. split.
      * intros [|j] z L; cbn; [intros [= <-]; lia|]. apply C2. lia.
      * intros [|j] z L; cbn; [lia|]. apply C3. lia.
  - destruct (y =? x)%N eqn:E1.
    + eexists; split; [reflexivity|]. cbn. split; [lia|]. rewrite Nat.sub_diag. cbn. f_equal. lia.
    + eexists; split; [reflexivity|]. cbn [length]. split; [lia|]. split; [intros; lia|].
      intros j z _ Hz. pose proof (A 0 j y z ltac:(lia) eq_refl Hz). lia.
Qed.

(** All numbers are small: departure plus travel time stays below INFINITY (as the code asserts in debug builds). *)
Definition small (f : ttf) : Prop := forall p, In p f -> (fst p + snd p < INF)%N.

(** A concrete function with period 100: 20 units up to 10, congestion of 50 at 40, 10 at 90, 20 at the end. *)
Definition ex_ttf : ttf := [(0, 20); (10, 20); (40, 50); (90, 10); (100, 20)]%N.

Lemma ex_consec p q : consec ex_ttf p q -> In (p, q) (windows2 ex_ttf).
Proof. intros (i & A & B). do 5 (destruct i as [|i]; [cbn in *; inversion A; inversion B; subst; tauto|]). destruct i; discriminate. Qed.
Lemma ex_valid : valid_ttf 100 ex_ttf.
Proof.
  split.
  - exists 20%N. reflexivity.
  - exists (0, 20)%N, (100, 20)%N. repeat split; auto.
  - intros p q C. apply ex_consec in C. cbn in C. repeat (destruct C as [[= <- <-]|C]; [reflexivity|]). destruct C.
  - intros p q C. apply ex_consec in C. cbn in C. repeat (destruct C as [[= <- <-]|C]; [cbn; lia|]). destruct C.
Qed.
Lemma ex_small : small ex_ttf.
Proof. intros p H. cbn in H. repeat (destruct H as [<-|H]; [reflexivity|]). destruct H. Qed.

(** ** C35 *)

(** [eval] never panics, not even on a debug assertion or an overflow, and returns the value of the function:
    the line between the neighbouring points, rounded down. *)
Theorem C35_eval_correct bs P debug f t :
  nbs_contract bs -> (0 < P)%N -> valid_ttf P f -> small f ->
  exists w, plf_eval bs P debug (map fst f) (map snd f) t = Some w /\ ttf_value P f t w /\
    forall w', ttf_value P f t w' -> w' = w.
Proof.
  intros HB HP HV HS. destruct (eval_ok bs P debug f HB HP HV HS t) as (w & E & V). exists w. split; auto.
  split; [apply (val_spec bs P f HB HP HV HS); auto|]. intros w' H. apply (val_spec bs P f HB HP HV HS) in H.
  eapply (val_det bs P f HB HP HV HS); eauto.
Qed.
Print Assumptions C35_eval_correct.

(** [eval] is periodic and yields the stored value at every point. *)
Theorem C35_eval_periodic_and_interpolates bs P debug f :
  nbs_contract bs -> (0 < P)%N -> valid_ttf P f -> small f ->
  (forall t k, plf_eval bs P debug (map fst f) (map snd f) (t + k * P) = plf_eval bs P debug (map fst f) (map snd f) t) /\
  (forall p, In p f -> plf_eval bs P debug (map fst f) (map snd f) (fst p) = Some (snd p)).
Proof.
  intros HB HP HV HS. split.
  - intros t k. unfold plf_eval. rewrite N.mod_add by lia. auto.
  - intros p Hp. apply In_nth_error in Hp. destruct Hp as (i & Hi).
    destruct (eval_ok bs P debug f HB HP HV HS (fst p)) as (w & -> & V). f_equal.
    pose proof (val_pt bs P f HB HP HV HS i p Hi) as V'.
    destruct (N.eq_dec (fst p) P) as [E|E].
    + rewrite E in *. rewrite N.mod_same in V by lia. pose proof (val_P bs P f HB HP HV HS _ V') as ->.
      eapply (val_det bs P f HB HP HV HS); eauto. apply (val_0 bs P f HB HP HV HS).
    + assert (fst p <= P)%N by (eapply (dt_le bs P f HB HP HV HS); eapply (DT_nth bs P f HB HP HV HS); eauto).
      rewrite N.mod_small in V by lia. eapply (val_det bs P f HB HP HV HS); eauto.
Qed.
Print Assumptions C35_eval_periodic_and_interpolates.

(** Leaving later never means arriving earlier, in spite of the rounding and across period boundaries. *)
Theorem C35_eval_fifo bs P debug f t w t' w' :
  nbs_contract bs -> (0 < P)%N -> valid_ttf P f -> small f -> (t <= t')%N ->
  plf_eval bs P debug (map fst f) (map snd f) t = Some w -> plf_eval bs P debug (map fst f) (map snd f) t' = Some w' ->
  (t + w <= t' + w')%N.
Proof. intros HB HP HV HS T. apply (eval_fifo bs P debug f HB HP HV HS); auto. Qed.
Print Assumptions C35_eval_fifo.

(** [lower_bound] and [upper_bound] are the minimum and the maximum of the function. *)
Theorem C35_global_bounds bs P debug f :
  nbs_contract bs -> (0 < P)%N -> valid_ttf P f -> small f ->
  exists lo hi, plf_lower_bound (map fst f) (map snd f) = Some lo /\ plf_upper_bound (map fst f) (map snd f) = Some hi /\
    (forall t w, plf_eval bs P debug (map fst f) (map snd f) t = Some w -> (lo <= w <= hi)%N) /\
    (exists t, plf_eval bs P debug (map fst f) (map snd f) t = Some lo) /\
    (exists t, plf_eval bs P debug (map fst f) (map snd f) t = Some hi).
Proof.
  intros HB HP HV HS. assert (map snd f <> []) as NE.
  { pose proof (f_nonempty bs P f HB HP HV HS). destruct f; cbn in *; [lia|discriminate]. }
  destruct (C35_eval_periodic_and_interpolates bs P debug f HB HP HV HS) as (_ & PT).
  destruct (lminN_ok _ NE) as (lo & L1 & L2 & L3). destruct (lmaxN_ok _ NE) as (hi & H1 & H2 & H3).
  exists lo, hi. split; [exact L1|]. split; [exact H1|]. split; [|split].
  - intros t w E. apply (eval_val bs P debug f HB HP HV HS) in E. eapply (val_bounds bs P f HB HP HV HS); eauto.
    intros p Hp. split; [apply L3|apply H3]; apply in_map; auto.
  - apply in_map_iff in L2. destruct L2 as (p & <- & Hp). exists (fst p). auto.
  - apply in_map_iff in H2. destruct H2 as (p & <- & Hp). exists (fst p). auto.
Qed.
Print Assumptions C35_global_bounds.

Example C35_nonvacuous :
  valid_ttf 100 ex_ttf /\ small ex_ttf /\ nbs_contract lin_search /\
  map (plf_eval lin_search 100 true (map fst ex_ttf) (map snd ex_ttf)) [0; 11; 41; 47; 90; 95; 100; 255]%N =
  [Some 20; Some 21; Some 49; Some 44; Some 10; Some 15; Some 20; Some 38]%N.
Proof. split; [exact ex_valid|]. split; [exact ex_small|]. split; [exact lin_search_contract|]. vm_compute. reflexivity. Qed.

(** The code asserts that functions are FIFO only in debug builds. Without it [eval] underflows or worse; and a
    function that does not end at the period (which [new] accepts: the assertion is commented out) reads past
    its end. *)
Theorem C35_eval_needs_full_period_refuted :
  exists dts tts t, plf_new 100 true dts tts = Some tt /\ (t < 100)%N /\ plf_eval lin_search 100 false dts tts t = None.
Proof. exists [0; 10; 20]%N, [5; 6; 5]%N, 30%N. vm_compute. repeat split; reflexivity. Qed.
Print Assumptions C35_eval_needs_full_period_refuted.

(** ** C36 *)

(** [lower_bound_in_range(a..b)] is the minimum over [a, b], for every non-empty range that ends before the
    second period boundary. *)
Theorem C36_lower_bound_in_range bs P debug f a b :
  nbs_contract bs -> (0 < P)%N -> valid_ttf P f -> small f -> (a < b < 2 * P)%N ->
  exists m, lower_bound_in_range bs P debug (map fst f) (map snd f) (a, b) = Some m /\
    (forall t w, (a <= t <= b)%N -> plf_eval bs P debug (map fst f) (map snd f) t = Some w -> (m <= w)%N) /\
    (exists t, (a <= t <= b)%N /\ plf_eval bs P debug (map fst f) (map snd f) t = Some m).
Proof.
  intros HB HP HV HS R.
  assert (forall t m, val f (t mod P) m -> plf_eval bs P debug (map fst f) (map snd f) t = Some m) as EV.
  { intros t m V. destruct (eval_ok bs P debug f HB HP HV HS t) as (w & -> & V'). f_equal. eapply (val_det bs P f HB HP HV HS); eauto. }
  destruct (one_or_more bs P f HB HP HV HS) as [(c & E)|L].
  - exists c. split; [unfold lower_bound_in_range, bound_in_range; rewrite E; reflexivity|]. split.
    + intros t w _ H. apply (eval_val bs P debug f HB HP HV HS) in H. rewrite (val_len1 bs P f HB HP HV HS _ _ _ E H). lia.
    + exists a. split; [lia|]. apply EV. left. auto.
  - destruct (lower_range bs P debug f HB HP HV HS L a b R) as (m & H1 & H2 & t & T & V). exists m. split; auto. split.
    + intros t' w T' H. apply (eval_val bs P debug f HB HP HV HS) in H. eapply H2; eauto.
    + exists t. split; auto.
Qed.
Print Assumptions C36_lower_bound_in_range.

(** The range [0..b] with [b] at least one period (the potentials use [0..INFINITY]) yields the global minimum. *)
Theorem C36_lower_bound_in_range_whole_period bs P debug f b :
  nbs_contract bs -> (0 < P)%N -> valid_ttf P f -> small f -> (P <= b)%N ->
  exists m, lower_bound_in_range bs P debug (map fst f) (map snd f) (0%N, b) = Some m /\
    plf_lower_bound (map fst f) (map snd f) = Some m.
Proof.
  intros HB HP HV HS R.
  destruct (C35_global_bounds bs P debug f HB HP HV HS) as (lo & hi & E1 & _ & B & (t0 & T0) & _).
  destruct (one_or_more bs P f HB HP HV HS) as [(c & E)|L].
  - exists c. rewrite E. split; reflexivity.
  - destruct (lower_range_all bs P debug f HB HP HV HS L b R) as (m & H1 & H2 & t & T & V). exists m. split; auto.
    rewrite E1. f_equal. apply N.le_antisymm.
    + destruct (eval_ok bs P debug f HB HP HV HS t) as (w & E & V'). rewrite <- (val_det bs P f HB HP HV HS _ _ _ V' V). apply (B _ _ E).
    + apply (H2 t0). apply (eval_val bs P debug f HB HP HV HS); auto.
Qed.
Print Assumptions C36_lower_bound_in_range_whole_period.

(** For other ranges it can be wrong: an empty range and the second day give INFINITY, a range that ends exactly at
    the second period boundary or crosses it misses times. *)
Theorem C36_lower_bound_in_range_refuted :
  exists f, valid_ttf 100 f /\ small f /\
    lower_bound_in_range lin_search 100 true (map fst f) (map snd f) (30, 30)%N = Some INF /\
    lower_bound_in_range lin_search 100 true (map fst f) (map snd f) (100, 200)%N = Some INF /\
    (exists m, lower_bound_in_range lin_search 100 true (map fst f) (map snd f) (95, 200)%N = Some m /\
       plf_eval lin_search 100 true (map fst f) (map snd f) 190 = Some 10%N /\ (10 < m)%N) /\
    (exists m, lower_bound_in_range lin_search 100 true (map fst f) (map snd f) (110, 205)%N = Some m /\
       plf_eval lin_search 100 true (map fst f) (map snd f) 190 = Some 10%N /\ (10 < m)%N).
Proof.
  exists ex_ttf. split; [exact ex_valid|]. split; [exact ex_small|]. split; [reflexivity|]. split; [reflexivity|].
  split; eexists; split; try reflexivity; split; try reflexivity; vm_compute; reflexivity.
Qed.
Print Assumptions C36_lower_bound_in_range_refuted.

(** [upper_bound_in_range] returns INFINITY for every function that is not a single point and for every range.
    So it is an upper bound, but never the maximum. *)
Theorem C36_upper_bound_in_range_is_infinity bs P debug f a b :
  nbs_contract bs -> (0 < P)%N -> valid_ttf P f -> small f -> length f <> 1 ->
  upper_bound_in_range bs P debug (map fst f) (map snd f) (a, b) = Some INF /\
  forall t w, plf_eval bs P debug (map fst f) (map snd f) t = Some w -> (w < INF)%N.
Proof.
  intros HB HP HV HS NE. destruct (one_or_more bs P f HB HP HV HS) as [(c & E)|L]; [rewrite E in NE; cbn in NE; lia|].
  split; [apply upper_range_inf; auto|].
  intros t w E. apply (eval_val bs P debug f HB HP HV HS) in E.
  eapply (val_lt bs P f HB HP HV HS L); eauto. pose proof (N.mod_lt t P ltac:(lia)). lia.
Qed.
Print Assumptions C36_upper_bound_in_range_is_infinity.

(** [average]: for ranges within the period the result is between the minimum and the maximum. *)
Theorem C36_average_within_period bs P debug f s e lo hi :
  nbs_contract bs -> (0 < P < INF)%N -> valid_ttf P f -> small f -> length f <> 1 ->
  (s < P)%N -> (s < e < P \/ e = 0)%N ->
  plf_lower_bound (map fst f) (map snd f) = Some lo -> plf_upper_bound (map fst f) (map snd f) = Some hi ->
  exists v, average bs P debug (map fst f) (map snd f) (s, e) = Some v /\ (lo <= v <= hi)%N.
Proof.
  intros HB HP HV HS NE Sp R Elo Ehi. destruct (one_or_more bs P f HB ltac:(lia) HV HS) as [(c & E)|L]; [rewrite E in NE; cbn in NE; lia|].
  assert (map snd f <> []) as NE' by (destruct f; [cbn in L; lia|discriminate]).
  destruct (lminN_ok _ NE') as (lo' & L1 & L2 & L3). destruct (lmaxN_ok _ NE') as (hi' & H1 & H2 & H3).
  unfold plf_lower_bound, plf_upper_bound in *. assert (lo' = lo) by congruence. assert (hi' = hi) by congruence. subst.
  apply (average_ok bs P debug f HB ltac:(lia) HV HS s e lo hi); auto; try lia.
  - intros p Hp. split; [apply L3|apply H3]; apply in_map; auto.
  - apply in_map_iff in H2. destruct H2 as (p & <- & Hp). pose proof (HS p Hp). lia.
Qed.
Print Assumptions C36_average_within_period.

(** Every range that crosses the period panics, for every function, and every range over a constant function that
    ends within the day panics. So [average] over 22h..5h, as time_dependent_sampling.rs asks for, always panics. *)
Theorem C36_average_across_period_panics bs P debug f s e :
  nbs_contract bs -> (0 < P)%N -> valid_ttf P f -> small f -> (s < P)%N -> (0 < e < P)%N ->
  (e <= s)%N \/ length f = 1 -> average bs P debug (map fst f) (map snd f) (s, e) = None.
Proof.
  intros HB HP HV HS Sp R D. destruct (N.le_gt_cases e s) as [C|C].
  - apply average_wrapping; auto. lia.
  - destruct D as [D|D]; [lia|]. destruct (one_or_more bs P f HB HP HV HS) as [(c & E)|L]; [|lia]. eapply average_constant; eauto. lia.
Qed.
Print Assumptions C36_average_across_period_panics.

(** A constant function averaged over a range up to midnight is 0 in release builds. *)
Theorem C36_average_constant_refuted :
  exists f, valid_ttf 100 f /\ small f /\ plf_lower_bound (map fst f) (map snd f) = Some 7%N /\
    average lin_search 100 false (map fst f) (map snd f) (50, 0)%N = Some 0%N /\
    average lin_search 100 true (map fst f) (map snd f) (50, 0)%N = None.
Proof.
  exists [(0, 7)]%N. split.
  { split.
    - exists 7%N. reflexivity.
    - exists (0, 7)%N, (0, 7)%N. cbn. auto.
    - intros p q ([|[|i]] & A & B); discriminate.
    - intros p q ([|[|i]] & A & B); discriminate. }
  split. { intros p [<-|[]]. reflexivity. }
  repeat split; vm_compute; reflexivity.
Qed.
Print Assumptions C36_average_constant_refuted.

Example C36_nonvacuous :
  valid_ttf 100 ex_ttf /\ small ex_ttf /\
  lower_bound_in_range lin_search 100 true (map fst ex_ttf) (map snd ex_ttf) (20, 70)%N = Some 26%N /\
  lower_bound_in_range lin_search 100 true (map fst ex_ttf) (map snd ex_ttf) (93, 125)%N = Some 13%N /\
  average lin_search 100 true (map fst ex_ttf) (map snd ex_ttf) (5, 50)%N = Some 32%N.
Proof. split; [exact ex_valid|]. split; [exact ex_small|]. vm_compute. auto. Qed.
