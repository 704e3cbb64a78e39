From Verif Require Import Base SpecBits SpecArray BitVec.
Ltac Zify.zify_post_hook ::= Z.div_mod_to_equations.

Lemma count_ext f g n : (forall i, i < n -> f i = g i) -> count f n = count g n.
Proof. induction n as [|n IH]; intros H; cbn [count]; auto. rewrite IH by (intros; apply H; lia). rewrite H by lia. auto. Qed.

Lemma count_add f a b : count f (a + b) = count f a + count (fun j => f (a + j)) b.
Proof. induction b as [|b IH]. - rewrite Nat.add_0_r; cbn [count]; lia. - rewrite Nat.add_succ_r. cbn [count]. rewrite IH. lia. Qed.

Lemma count_false f n : (forall i, i < n -> f i = false) -> count f n = 0.
Proof. induction n as [|n IH]; intros H; cbn [count]; auto. rewrite IH by (intros; apply H; lia). rewrite H by lia. auto. Qed.

Lemma count_mono f a b : a <= b -> count f a <= count f b.
Proof. intros H. replace b with (a + (b - a)) by lia. rewrite count_add. lia. Qed.

Lemma count_lt f a b : a < b -> f a = true -> count f a < count f b.
Proof. intros H E. assert (count f (S a) <= count f b) by (apply count_mono; lia). cbn [count] in H0. rewrite E in H0. lia. Qed.

Lemma count_le f n : count f n <= n.
Proof. induction n; cbn [count]; auto. destruct (f n); lia. Qed.

Definition wbit (ws : list N) (j : nat) : bool := N.testbit (nth (j / 64) ws 0%N) (N.of_nat (j mod 64)).

Lemma testbit_mask i k : k < 64 -> N.testbit (bit_mask i) (N.of_nat k) = (k =? i mod 64).
Proof.
  intros Hk. unfold bit_mask. change WORD with 64. rewrite N.shiftl_1_l, N.pow2_bits_eqb.
  destruct (Nat.eqb_spec k (i mod 64)), (N.eqb_spec (N.of_nat (i mod 64)) (N.of_nat k)); auto; lia.
Qed.

Lemma land_mask w i : negb (N.land w (bit_mask i) =? 0)%N = N.testbit w (N.of_nat (i mod 64)).
Proof.
  unfold bit_mask. change WORD with 64. rewrite N.shiftl_1_l. set (k := N.of_nat (i mod 64)).
  destruct (N.testbit w k) eqn:E.
  - destruct (N.eqb_spec (N.land w (2 ^ k)) 0) as [H|]; auto. exfalso.
    assert (N.testbit (N.land w (2 ^ k)) k = true) by (rewrite N.land_spec, E, N.pow2_bits_true; auto).
    rewrite H, N.bits_0 in H0. discriminate.
  - destruct (N.eqb_spec (N.land w (2 ^ k)) 0) as [H|H]; auto. exfalso. apply H.
    apply N.bits_inj. intros j. rewrite N.land_spec, N.pow2_bits_eqb, N.bits_0.
    destruct (N.eqb_spec k j) as [<-|]; [rewrite E; auto|apply andb_false_r].
Qed.

Lemma testbit_not64 w k : k < 64 -> N.testbit (not64 w) (N.of_nat k) = negb (N.testbit w (N.of_nat k)).
Proof.
  intros H. unfold not64. rewrite N.lxor_spec. rewrite N.ones_spec_low by lia. destruct (N.testbit w _); auto.
Qed.

Lemma div_lt_ceil i n : i < n -> i / 64 < (n + 64 - 1) / 64.
Proof. lia. Qed.

Lemma wbit_upd ws q w j : q < length ws -> wbit (upd ws q w) j = if j / 64 =? q then N.testbit w (N.of_nat (j mod 64)) else wbit ws j.
Proof.
  intros H. unfold wbit. rewrite nth_upd. destruct (Nat.eqb_spec q (j/64)), (Nat.eqb_spec (j/64) q), (Nat.ltb_spec q (length ws)); cbn [andb]; auto; lia.
Qed.

Lemma popcounts_count ws : popcounts ws = count (wbit ws) (64 * length ws).
Proof.
  induction ws as [|w ws IH]; [reflexivity|]. cbn [popcounts length]. rewrite IH.
  replace (64 * S (length ws)) with (64 + 64 * length ws) by lia. rewrite count_add. f_equal.
  apply count_ext. intros i Hi. unfold wbit. replace ((64 + i) / 64) with (S (i / 64)) by lia. replace ((64 + i) mod 64) with (i mod 64) by lia. auto.
Qed.

Record BInv (pad : bool) (n : nat) (b : bitvec) (s : nat -> bool) : Prop := {
  bi_size : bsize b = n;
  bi_len : length (bdata b) = (n + 64 - 1) / 64;
  bi_bit : forall i, i < n -> wbit (bdata b) i = s i;
  bi_pad : pad = true -> forall i, n <= i < 64 * length (bdata b) -> wbit (bdata b) i = false }.

Lemma wbit_repeat0 k i : wbit (repeat 0%N k) i = false.
Proof. unfold wbit. rewrite nth_repeat_any. apply N.bits_0. Qed.

Lemma wbit_map_const ws c i : i / 64 < length ws -> wbit (map (fun _ : N => c) ws) i = N.testbit c (N.of_nat (i mod 64)).
Proof.
  intros H. unfold wbit. f_equal. rewrite (nth_indep _ 0%N ((fun _ : N => c) 0%N)) by (rewrite map_length; auto).
  exact (map_nth (fun _ : N => c) ws 0%N (i/64)).
Qed.

Lemma bv_get_spec pad n b s i : BInv pad n b s -> bv_get b i = if i <? n then Some (s i) else None.
Proof.
  intros [S L B P]. unfold bv_get. rewrite S. destruct (Nat.ltb_spec i n); cbn [guard bind]; auto.
  rewrite (nth_error_nth_some _ _ 0%N) by (rewrite L; apply div_lt_ceil; auto). cbn [bind]. rewrite land_mask. rewrite <- B by auto. auto.
Qed.

Lemma bv_step_ok pad n b s op : BInv pad n b s -> (pad = true -> op = BSetAll -> n mod 64 = 0) -> (op = BCount -> pad = true) ->
  match bits_step n s op with
  | None => bv_step b op = None
  | Some (s', o) => exists b', bv_step b op = Some (b', o) /\ BInv pad n b' s'
  end.
Proof.
  intros I Hs Hc. pose proof I as [S L B P].
  destruct op as [i|i|i| | |i| |]; cbn [bits_step bv_step].
  - unfold bv_set. rewrite S. destruct (Nat.ltb_spec i n) as [Hi|Hi]; cbn [guard bind]; auto.
    assert (Hq : i / 64 < length (bdata b)) by (rewrite L; apply div_lt_ceil; auto).
    change WORD with 64. rewrite (nth_error_nth_some _ _ 0%N) by auto. cbn [bind]. eexists; split; [reflexivity|].
    constructor; cbn [bdata bsize]; rewrite ?upd_length; auto.
    + intros j Hj. rewrite wbit_upd by auto. rewrite <- B by auto. destruct (Nat.eqb_spec (j/64) (i/64)) as [E|E].
      * rewrite N.lor_spec, testbit_mask by lia. unfold wbit. rewrite E.
        destruct (Nat.eqb_spec (j mod 64) (i mod 64)), (Nat.eqb_spec j i); rewrite ?orb_true_r, ?orb_false_r; auto; try lia.
      * destruct (Nat.eqb_spec j i); subst; try lia; auto.
    + intros HP j Hj. rewrite wbit_upd by auto. destruct (Nat.eqb_spec (j/64) (i/64)) as [E|E]; [|apply P; auto].
      rewrite N.lor_spec, testbit_mask by lia. specialize (P HP j Hj). unfold wbit in P. rewrite E in P. rewrite P.
      destruct (Nat.eqb_spec (j mod 64) (i mod 64)); auto; lia.
  - unfold bv_unset. rewrite S. destruct (Nat.ltb_spec i n) as [Hi|Hi]; cbn [guard bind]; auto.
    assert (Hq : i / 64 < length (bdata b)) by (rewrite L; apply div_lt_ceil; auto).
    change WORD with 64. rewrite (nth_error_nth_some _ _ 0%N) by auto. cbn [bind]. eexists; split; [reflexivity|].
    constructor; cbn [bdata bsize]; rewrite ?upd_length; auto.
    + intros j Hj. rewrite wbit_upd by auto. rewrite <- B by auto. destruct (Nat.eqb_spec (j/64) (i/64)) as [E|E].
      * rewrite N.land_spec, testbit_not64, testbit_mask by lia. unfold wbit. rewrite E.
        destruct (Nat.eqb_spec (j mod 64) (i mod 64)), (Nat.eqb_spec j i); cbn [negb]; rewrite ?andb_true_r, ?andb_false_r; auto; try lia.
      * destruct (Nat.eqb_spec j i); subst; try lia; auto.
    + intros HP j Hj. rewrite wbit_upd by auto. destruct (Nat.eqb_spec (j/64) (i/64)) as [E|E]; [|apply P; auto].
      rewrite N.land_spec. specialize (P HP j Hj). unfold wbit in P. rewrite E in P. rewrite P. auto.
  - unfold bv_unset_around. rewrite S. destruct (Nat.ltb_spec i n) as [Hi|Hi]; cbn [guard bind]; auto.
    assert (Hq : i / 64 < length (bdata b)) by (rewrite L; apply div_lt_ceil; auto).
    change WORD with 64. rewrite set_at_lt by auto. cbn [bind]. eexists; split; [reflexivity|].
    constructor; cbn [bdata bsize]; rewrite ?upd_length; auto.
    + intros j Hj. rewrite wbit_upd by auto. rewrite <- B by auto. destruct (Nat.eqb_spec (j/64) (i/64)) as [E|E]; cbn [negb andb]; auto.
    + intros HP j Hj. rewrite wbit_upd by auto. destruct (Nat.eqb_spec (j/64) (i/64)) as [E|E]; auto.
  - eexists; split; [reflexivity|]. unfold bv_set_all. constructor; cbn [bdata bsize]; rewrite ?map_length; auto.
    + intros i Hi. rewrite wbit_map_const by (rewrite L; lia). rewrite testbit_not64 by lia. rewrite N.bits_0; auto.
    + intros HP i Hi. rewrite L in Hi. specialize (Hs HP eq_refl). exfalso. lia.
  - eexists; split; [reflexivity|]. unfold bv_clear. constructor; cbn [bdata bsize]; rewrite ?map_length; auto.
    + intros i Hi. rewrite wbit_map_const by (rewrite L; lia). apply N.bits_0.
    + intros HP i Hi. rewrite wbit_map_const by lia. apply N.bits_0.
  - rewrite (bv_get_spec pad n b s) by auto. destruct (i <? n); cbn [bind]; auto. eexists; split; [reflexivity|auto].
  - eexists; split; [|exact I]. do 3 f_equal. unfold bv_count. rewrite popcounts_count.
    replace (64 * length (bdata b)) with (n + (64 * length (bdata b) - n)) by (rewrite L; lia).
    rewrite count_add. rewrite (count_false _ (64 * length (bdata b) - n)).
    + rewrite (count_ext _ s) by auto. lia.
    + intros i Hi. apply P; auto. lia.
  - rewrite S. eexists; split; [reflexivity|auto].
Qed.

Lemma bv_new_inv pad n : BInv pad n (bv_new n) (fun _ => false).
Proof.
  constructor; cbn [bv_new bdata bsize]; rewrite ?repeat_length; auto.
  - intros. apply wbit_repeat0.
  - intros. apply wbit_repeat0.
Qed.

Lemma bv_run_ok pad n ops : (pad = true -> In BSetAll ops -> n mod 64 = 0) -> (In BCount ops -> pad = true) ->
  forall b s, BInv pad n b s -> impl_run bv_step b ops = bits_run n s ops.
Proof.
  induction ops as [|op ops IH]; intros H1 H2 b s I; auto. cbn [impl_run bits_run].
  pose proof (bv_step_ok pad n b s op I) as H. simpl in H1, H2.
  specialize (H ltac:(intros; subst; auto) ltac:(intros; subst; auto)).
  destruct (bits_step n s op) as [[s' o]|].
  - destruct H as (b' & -> & I'). f_equal. apply IH; auto.
  - rewrite H; auto.
Qed.

Lemma bv_run_count n ops : (In BSetAll ops -> n mod 64 = 0) -> impl_run bv_step (bv_new n) ops = bits_run n (fun _ => false) ops.
Proof. intros H. apply (bv_run_ok true); auto. apply bv_new_inv. Qed.

Lemma bv_run_nocount n ops : ~ In BCount ops -> impl_run bv_step (bv_new n) ops = bits_run n (fun _ => false) ops.
Proof. intros H. apply (bv_run_ok false). - discriminate. - intros HI; contradiction (H HI). - apply bv_new_inv. Qed.

(** ** RankSelectMap *)
Lemma nth_firstn_lt {A} (l : list A) k i d : i < k -> nth i (firstn k l) d = nth i l d.
Proof. revert l i; induction k as [|k IH]; intros [|a l] [|i] H; simpl; auto; try lia. apply IH; lia. Qed.
Lemma nth_skipn_add {A} (l : list A) k i d : nth i (skipn k l) d = nth (k + i) l d.
Proof. revert l; induction k as [|k IH]; intros [|a l]; simpl; auto. destruct i; auto. Qed.

Lemma slice_popcounts ws a b l : slice ws a b = Some l ->
  popcounts l = count (fun j => wbit ws (64 * a + j)) (64 * (b - a)) /\ a <= b <= length ws.
Proof.
  unfold slice. destruct (Nat.leb_spec a b), (Nat.leb_spec b (length ws)); cbn [andb guard bind]; try discriminate.
  intros [= <-]. split; [|lia]. rewrite popcounts_count. rewrite firstn_length, skipn_length.
  replace (Nat.min (b - a) (length ws - a)) with (b - a) by lia.
  apply count_ext. intros i Hi. unfold wbit.
  rewrite nth_firstn_lt by lia. rewrite nth_skipn_add. replace ((64 * a + i) / 64) with (a + i / 64) by lia.
  replace ((64 * a + i) mod 64) with (i mod 64) by lia. auto.
Qed.

Lemma slice_ok {A} (l : list A) a b : a <= b <= length l -> exists s, slice l a b = Some s.
Proof. intros H. unfold slice. destruct (Nat.leb_spec a b), (Nat.leb_spec b (length l)); try lia. cbn. eauto. Qed.

Definition bv_wf (b : bitvec) : Prop := length (bdata b) = (bsize b + 64 - 1) / 64.

Lemma compile_spec b : forall cnt r prev,
  r + cnt <= (bsize b + 512 - 1) / 512 -> bv_wf b -> prev = count (wbit (bdata b)) (512 * r) ->
  exists l, compile b r cnt prev = Some l /\ length l = cnt /\
    forall k, k < cnt -> nth_error l k = Some (count (wbit (bdata b)) (Nat.min (512 * (r + k + 1)) (64 * length (bdata b)))).
Proof.
  induction cnt as [|cnt IH]; intros r prev Hr W Hp; cbn [compile].
  - exists []. split; auto. split; auto. intros; lia.
  - unfold bit_count_entire_range. change IPP with 8. unfold bv_wf in W.
    destruct (slice_ok (bdata b) (r * 8) (Nat.min ((r + 1) * 8) (length (bdata b)))) as [l Hl]. { lia. }
    rewrite Hl. cbn [bind]. apply slice_popcounts in Hl. destruct Hl as [Hl _]. rewrite Hl.
    set (T := Nat.min (512 * (r + 1)) (64 * length (bdata b))).
    assert (Hsum : count (fun j => wbit (bdata b) (64 * (r * 8) + j)) (64 * (Nat.min ((r + 1) * 8) (length (bdata b)) - r * 8)) + prev = count (wbit (bdata b)) T).
    { rewrite Hp. replace T with (512 * r + 64 * (Nat.min ((r + 1) * 8) (length (bdata b)) - r * 8)) by (unfold T; lia).
      rewrite count_add. rewrite Nat.add_comm. f_equal. apply count_ext. intros; f_equal; lia. }
    rewrite Hsum. destruct cnt as [|cnt].
    + cbn [compile bind]. eexists; split; [reflexivity|]. split; auto. intros k Hk. assert (k = 0) by lia. subst. cbn [nth_error]. rewrite Nat.add_0_r. auto.
    + destruct (IH (S r) (count (wbit (bdata b)) T)) as (l' & E & L & H); auto; try lia.
      { f_equal. unfold T. lia. }
      rewrite E. cbn [bind]. eexists; split; [reflexivity|]. split; [simpl; lia|]. intros [|k] Hk; cbn [nth_error].
      * rewrite Nat.add_0_r. auto.
      * rewrite H by lia. do 2 f_equal. lia.
Qed.

Lemma rm_new_spec b : bv_wf b ->
  exists m, rm_new b = Some m /\ flags m = b /\
    (forall k, k <= (bsize b + 512 - 1) / 512 ->
       nth_error (prefix_sum m) k = Some (count (wbit (bdata b)) (Nat.min (512 * k) (64 * length (bdata b))))) /\
    rm_len m = count (wbit (bdata b)) (64 * length (bdata b)).
Proof.
  intros W. unfold rm_new. change BPP with 512.
  destruct (compile_spec b ((bsize b + 512 - 1) / 512) 0 0) as (l & E & L & H); auto; try lia.
  rewrite E. cbn [bind]. eexists; split; [reflexivity|]. split; auto.
  assert (HP : forall k, k <= (bsize b + 512 - 1) / 512 ->
     nth_error (0 :: l) k = Some (count (wbit (bdata b)) (Nat.min (512 * k) (64 * length (bdata b))))).
  { intros [|k] Hk. - reflexivity. - cbn [nth_error]. rewrite H by lia. do 2 f_equal. lia. }
  split; [exact HP|]. unfold rm_len. cbn [prefix_sum].
  assert (HL : forall (x : nat) xs d, nth_error (x :: xs) (length xs) = Some (last (x :: xs) d)).
  { clear. intros x xs d. revert x; induction xs as [|y ys IH]; intros x; [reflexivity|]. cbn [length nth_error]. rewrite IH. auto. }
  specialize (HP (length l) ltac:(lia)). rewrite (HL 0 l 0) in HP.
  assert (EQ : forall a b : nat, Some a = Some b -> a = b) by congruence. apply EQ in HP. rewrite HP. f_equal.
  unfold bv_wf in W. lia.
Qed.

Lemma testbit_mod_mask w k j : j < 64 -> N.testbit (w mod bit_mask k) (N.of_nat j) = (j <? k mod 64) && N.testbit w (N.of_nat j).
Proof.
  intros Hj. unfold bit_mask. change WORD with 64. rewrite N.shiftl_1_l.
  destruct (Nat.ltb_spec j (k mod 64)).
  - rewrite N.mod_pow2_bits_low by lia. auto.
  - rewrite N.mod_pow2_bits_high by lia. auto.
Qed.

Lemma partial_range_spec b key : bv_wf b -> key < bsize b ->
  bit_count_partial_range b key = Some (count (fun j => wbit (bdata b) (512 * (key / 512) + j)) (key mod 512)).
Proof.
  intros W Hk. unfold bit_count_partial_range. change WORD with 64. change IPP with 8. unfold bv_wf in W.
  rewrite (nth_error_nth_some _ _ 0%N) by lia. cbn [bind].
  destruct (slice_ok (bdata b) (key / 64 / 8 * 8) (key / 64)) as [l Hl]. { lia. }
  rewrite Hl. cbn [bind]. apply slice_popcounts in Hl. destruct Hl as [Hl _]. rewrite Hl. f_equal.
  replace (key mod 512) with (64 * (key / 64 - key / 64 / 8 * 8) + key mod 64) by lia.
  rewrite count_add. f_equal.
  - apply count_ext. intros i Hi. f_equal. lia.
  - unfold popcount. change WORD with 64.
    replace 64 with (key mod 64 + (64 - key mod 64)) at 1 by lia. rewrite count_add.
    rewrite (count_false _ (64 - key mod 64)).
    2:{ intros i Hi. rewrite testbit_mod_mask by lia. destruct (Nat.ltb_spec (key mod 64 + i) (key mod 64)); auto; lia. }
    rewrite Nat.add_0_r. apply count_ext. intros i Hi. rewrite testbit_mod_mask by lia.
    destruct (Nat.ltb_spec i (key mod 64)); try lia. cbn [andb]. unfold wbit.
    replace ((512 * (key / 512) + (64 * (key / 64 - key / 64 / 8 * 8) + i)) / 64) with (key / 64) by lia.
    replace ((512 * (key / 512) + (64 * (key / 64 - key / 64 / 8 * 8) + i)) mod 64) with i by lia. auto.
Qed.

Lemma rank_sum b m key p : bv_wf b -> rm_new b = Some m -> key < bsize b -> 
  nth_error (prefix_sum m) (key / 512) = Some p ->
  p + count (fun j => wbit (bdata b) (512 * (key / 512) + j)) (key mod 512) = count (wbit (bdata b)) key.
Proof.
  intros W E Hk Hp. destruct (rm_new_spec b W) as (m' & E' & F & HP & _). replace m' with m in * by congruence.
  rewrite HP in Hp by lia. assert (EQ : forall a b : nat, Some a = Some b -> a = b) by congruence. apply EQ in Hp. subst p. unfold bv_wf in W.
  replace (Nat.min (512 * (key / 512)) (64 * length (bdata b))) with (512 * (key / 512)) by lia.
  rewrite <- (count_add (wbit (bdata b)) (512 * (key / 512)) (key mod 512)). f_equal. lia.
Qed.

Lemma rm_queries n b s : BInv false n b s ->
  exists m, rm_new b = Some m /\ forall key,
    rm_get m key = Some (if (key <? n) && s key then Some (count s key) else None) /\
    rm_at m key = (if (key <? n) && s key then Some (count s key) else None) /\
    (key < n -> rm_at_or_next_lower m key = if 0 <? count s (S key) then Some (count s (S key) - 1) else None).
Proof.
  intros I. pose proof I as [S L B P].
  assert (W : bv_wf b) by (unfold bv_wf; rewrite S; auto).
  destruct (rm_new_spec b W) as (m & E & F & HP & _). exists m. split; auto. intros key.
  assert (HC : key < n -> count (wbit (bdata b)) key = count s key). { intros Hk. apply count_ext. intros; apply B; lia. }
  destruct (Nat.ltb_spec key n) as [Hk|Hk]; cbn [andb].
  - destruct (nth_error (prefix_sum m) (key / 512)) as [p|] eqn:Ep; [|rewrite HP in Ep by lia; discriminate].
    assert (R : p + count (fun j => wbit (bdata b) (512 * (key / 512) + j)) (key mod 512) = count s key).
    { rewrite <- HC by auto. eapply rank_sum; eauto. lia. }
    unfold rm_get, rm_at, rm_at_or_next_lower. rewrite F, S, (bv_get_spec false n b s), partial_range_spec by (auto; lia).
    change BPP with 512. rewrite Ep. destruct (Nat.ltb_spec key n); try lia. cbn [bind].
    repeat split.
    + destruct (s key); cbn [bind guard]; rewrite ?R; auto.
    + destruct (s key); cbn [bind guard]; rewrite ?R; auto.
    + intros _. rewrite R. cbn [count]. destruct (s key); cbn [guard].
      * destruct (Nat.ltb_spec 0 (count s key + 1)); try lia. f_equal; lia.
      * rewrite Nat.add_0_r. destruct (0 <? count s key); auto.
  - unfold rm_get, rm_at. rewrite F, S, (bv_get_spec false n b s) by auto. destruct (Nat.ltb_spec key n); try lia. cbn. repeat split; auto. intros; lia.
Qed.

Lemma rm_len_spec n b s : BInv true n b s -> exists m, rm_new b = Some m /\ rm_len m = count s n.
Proof.
  intros [S L B P]. assert (W : bv_wf b) by (unfold bv_wf; rewrite S; auto).
  destruct (rm_new_spec b W) as (m & E & F & HP & HL). exists m. split; auto. rewrite HL.
  replace (64 * length (bdata b)) with (n + (64 * length (bdata b) - n)) by (rewrite L; lia).
  rewrite count_add. rewrite (count_false _ (64 * length (bdata b) - n)).
  + rewrite (count_ext _ s) by auto. lia.
  + intros i Hi. apply P; auto. lia.
Qed.

Lemma bv_final_ok pad n ops : (pad = true -> In BSetAll ops -> n mod 64 = 0) -> (In BCount ops -> pad = true) ->
  forall b s, BInv pad n b s -> forall s', impl_final (bits_step n) s ops = Some s' ->
  exists b', impl_final bv_step b ops = Some b' /\ BInv pad n b' s'.
Proof.
  induction ops as [|op ops IH]; intros H1 H2 b s I s'; cbn [impl_final].
  - intros [= <-]. eauto.
  - pose proof (bv_step_ok pad n b s op I) as H. simpl in H1, H2.
    specialize (H ltac:(intros; subst; auto) ltac:(intros; subst; auto)).
    destruct (bits_step n s op) as [[s1 o]|]; [|discriminate].
    destruct H as (b' & -> & I'). apply IH; auto.
Qed.

Lemma rank_map_ok n ops s : ~ In BCount ops -> impl_final (bits_step n) (fun _ => false) ops = Some s ->
  exists b m, impl_final bv_step (bv_new n) ops = Some b /\ rm_new b = Some m /\ forall key,
    rm_get m key = Some (if (key <? n) && s key then Some (count s key) else None) /\
    rm_at m key = (if (key <? n) && s key then Some (count s key) else None) /\
    (key < n -> rm_at_or_next_lower m key = if 0 <? count s (S key) then Some (count s (S key) - 1) else None).
Proof.
  intros HC H. destruct (bv_final_ok false n ops) with (b := bv_new n) (s := fun _ : nat => false) (s' := s) as (b & E & I).
  - discriminate.
  - intros; contradiction.
  - apply bv_new_inv.
  - exact H.
  - destruct (rm_queries n b s I) as (m & Em & Hm). exists b, m. auto.
Qed.

Lemma rank_map_len_ok n ops s : (In BSetAll ops -> n mod 64 = 0) -> impl_final (bits_step n) (fun _ => false) ops = Some s ->
  exists b m, impl_final bv_step (bv_new n) ops = Some b /\ rm_new b = Some m /\ rm_len m = count s n.
Proof.
  intros HC H. destruct (bv_final_ok true n ops) with (b := bv_new n) (s := fun _ : nat => false) (s' := s) as (b & E & I); auto.
  - apply bv_new_inv.
  - destruct (rm_len_spec n b s I) as (m & Em & Hm). exists b, m. auto.
Qed.
