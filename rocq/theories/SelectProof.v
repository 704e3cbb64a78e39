(** Select inverts rank. *)
From Verif Require Import Base SpecArray SpecBits BitVec BitVecProof FastClearProof Graph GraphIdProof Select.

Definition tb (w : N) (j : nat) : bool := N.testbit w (N.of_nat j).
Lemma popn_tb k w : popn k w = count (tb w) k.
Proof. reflexivity. Qed.

Lemma tz_first w j : trailing_zeros w = Some j -> tb w j = true /\ j < 64 /\ forall i, i < j -> tb w i = false.
Proof.
  unfold trailing_zeros. change WORD with 64. intros E. apply find_some in E as H. destruct H as [H1 H2]. apply in_seq in H1.
  split; auto. split; [lia|].
  assert (G : forall n k, find (fun j => N.testbit w (N.of_nat j)) (seq k n) = Some j -> forall i, k <= i < j -> tb w i = false).
  { induction n as [|n IH]; intros k Ek i Hi; cbn in Ek; [discriminate|]. destruct (N.testbit w (N.of_nat k)) eqn:B.
    - injection Ek as <-. lia.
    - destruct (Nat.eq_dec i k) as [->|]; auto. apply (IH (S k)); auto. lia. }
  intros i Hi. apply (G 64 0); auto. lia.
Qed.
Lemma tz_exists w j : j < 64 -> tb w j = true -> exists k, trailing_zeros w = Some k.
Proof.
  intros Hj B. unfold trailing_zeros. destruct (find _ _) eqn:F; eauto. exfalso.
  pose proof (find_none _ _ F j) as X. cbn beta in X. unfold tb in B. rewrite B in X. discriminate X. apply in_seq. change WORD with 64; lia.
Qed.

(** w & (w - 1) clears the lowest set bit *)
Lemma clear_lowest w j : tb w j = true -> (forall i, i < j -> tb w i = false) ->
  forall i, tb (N.land w (w - 1)) i = tb w i && negb (i =? j).
Proof.
  intros B L. set (J := N.of_nat j).
  assert (M : (w mod 2 ^ (J + 1) = 2 ^ J)%N).
  { apply N.bits_inj. intros k. destruct (N.lt_ge_cases k (J + 1)) as [Hk|Hk].
    - rewrite N.mod_pow2_bits_low by auto. rewrite N.pow2_bits_eqb. destruct (N.eqb_spec J k) as [<-|Hn]; [exact B|].
      replace k with (N.of_nat (N.to_nat k)) by lia. apply L. unfold J in *. lia.
    - rewrite N.mod_pow2_bits_high by auto. rewrite N.pow2_bits_eqb. symmetry. apply N.eqb_neq. lia. }
  pose proof (N.div_mod w (2 ^ (J + 1)) ltac:(apply N.pow_nonzero; discriminate)) as D. rewrite M in D.
  assert (P1 : (2 ^ (J + 1) = 2 * 2 ^ J)%N) by (rewrite N.add_1_r, N.pow_succ_r'; auto).
  assert (P0 : (0 < 2 ^ J)%N) by (apply N.neq_0_lt_0, N.pow_nonzero; discriminate).
  set (q := (w / 2 ^ (J + 1))%N) in *.
  assert (Q : ((w - 1) / 2 ^ (J + 1) = q)%N) by (symmetry; apply N.div_unique with (r := (2 ^ J - 1)%N); lia).
  assert (R : ((w - 1) mod 2 ^ (J + 1) = 2 ^ J - 1)%N) by (symmetry; apply N.mod_unique with (q := q); lia).
  intros i. unfold tb. rewrite N.land_spec.
  destruct (Nat.lt_trichotomy i j) as [H|[->|H]].
  - pose proof (L i H) as X. unfold tb in X. rewrite X. auto.
  - fold J. rewrite Nat.eqb_refl, andb_false_r. replace (N.testbit (w - 1) J) with false; [apply andb_false_r|].
    rewrite <- (N.mod_pow2_bits_low (w - 1) (J + 1) J) by lia. rewrite R. symmetry.
    destruct (N.eq_dec (2 ^ J - 1) 0) as [->|Hz]; [apply N.bits_0|]. apply N.bits_above_log2. clear D Q R M P1 L B q. clearbody J. apply N.log2_lt_pow2; revert Hz P0; generalize (2 ^ J)%N; intros p Hz P0; lia.
  - rewrite (proj2 (Nat.eqb_neq i j)) by lia. rewrite andb_true_r.
    assert (Hi : (J + 1 <= N.of_nat i)%N) by (clear - H; subst J; lia). rewrite <- (N.sub_add _ _ Hi).
    rewrite <- !N.div_pow2_bits. rewrite Q. fold q. apply andb_diag.
Qed.

Lemma count_skip_low (f g : nat -> bool) low : (forall i, g i = f i && negb (i =? low)) -> f low = true ->
  forall n, count f n = count g n + if low <? n then 1 else 0.
Proof.
  intros H Hl. induction n as [|n IH]; [cbn; auto|]. cbn [count]. rewrite IH, H.
  destruct (Nat.ltb_spec low n), (Nat.ltb_spec low (S n)); try lia.
  - rewrite (proj2 (Nat.eqb_neq n low)) by lia. rewrite andb_true_r. destruct (f n); lia.
  - assert (n = low) by lia. subst n. rewrite Hl, Nat.eqb_refl. cbn. lia.
  - rewrite (proj2 (Nat.eqb_neq n low)) by lia. rewrite andb_true_r. destruct (f n); lia.
Qed.

Lemma count_pos f n : 0 < count f n -> exists j, j < n /\ f j = true.
Proof.
  induction n as [|n IH]; cbn [count]; [lia|]. intros H. destruct (f n) eqn:E; [exists n; auto|].
  destruct IH as (j & Hj & Fj); [lia|]. exists j. auto.
Qed.

Lemma drop_bits_ok : forall r w, r < popn 64 w -> exists j, trailing_zeros (drop_bits r w) = Some j /\ j < 64 /\ tb w j = true /\ popn j w = r.
Proof.
  induction r as [|r IH]; intros w H; cbn [drop_bits].
  - destruct (count_pos _ _ H) as (j0 & Hj0 & B0). destruct (tz_exists w j0 Hj0 B0) as [j E]. exists j. split; auto.
    destruct (tz_first w j E) as (B & Hj & L). repeat split; auto. rewrite popn_tb. apply count_false. auto.
  - destruct (count_pos (tb w) 64) as (j0 & Hj0 & B0); [rewrite popn_tb in H; lia|]. destruct (tz_exists w j0 Hj0 B0) as [low E].
    destruct (tz_first w low E) as (B & Hl & L). pose proof (clear_lowest w low B L) as C.
    pose proof (count_skip_low _ _ low C B) as CS.
    destruct (IH (N.land w (w - 1))) as (j & E' & Hj & B' & P').
    { rewrite popn_tb in *. pose proof (CS 64). destruct (Nat.ltb_spec low 64); lia. }
    exists j. split; auto. split; auto. rewrite C in B'. apply andb_prop in B'. destruct B' as [B1 B2].
    split; auto. rewrite popn_tb in *. rewrite CS, P'. destruct (Nat.ltb_spec low j); [lia|].
    destruct (Nat.eq_dec j low) as [->|Hn]; [rewrite Nat.eqb_refl in B2; discriminate|]. rewrite L in B1 by lia. discriminate.
Qed.

Lemma halve_ok k w r sh : r < popn (2 * k) w -> exists w' r' d, halve k (w, r, sh) = Some (w', r', sh + d) /\ r' < popn k w' /\
  forall j, j < k -> tb w' j = true -> popn j w' = r' -> d + j < 2 * k /\ tb w (d + j) = true /\ popn (d + j) w = r.
Proof.
  intros H. unfold halve. assert (Hr : r < 2 * k) by (pose proof (count_le (tb w) (2 * k)); rewrite popn_tb in H; lia).
  rewrite (proj2 (Nat.ltb_lt r (2 * k))) by auto. cbn [guard bind]. cbv zeta.
  assert (SH : forall j, tb (N.shiftr w (N.of_nat k)) j = tb w (k + j)). { intros j. unfold tb. rewrite N.shiftr_spec by lia. f_equal. lia. }
  destruct (Nat.leb_spec (popn k w) r) as [Hc|Hc].
  - exists (N.shiftr w (N.of_nat k)), (r - popn k w), k. split; auto.
    rewrite !popn_tb in *. replace (2 * k) with (k + k) in H by lia. rewrite count_add in H. split.
    + rewrite (count_ext (tb (N.shiftr w (N.of_nat k))) (fun j => tb w (k + j))) by (intros; apply SH). lia.
    + intros j Hj B P. rewrite SH in B. split; [lia|]. split; auto. rewrite popn_tb, count_add; rewrite popn_tb in P.
      rewrite (count_ext (tb (N.shiftr w (N.of_nat k))) (fun j => tb w (k + j))) in P by (intros; apply SH). lia.
  - exists w, r, 0. rewrite Nat.add_0_r. split; auto. split; auto. intros j Hj B P. cbn [Nat.add]. repeat split; auto; lia.
Qed.

Lemma int_local_ok w r : r < popcount w -> exists j, int_local_index w r = Some j /\ j < 64 /\ tb w j = true /\ popn j w = r.
Proof.
  intros H. unfold int_local_index. rewrite (proj2 (Nat.ltb_lt _ _) H). cbn [guard bind].
  destruct (halve_ok 32 w r 0) as (w1 & r1 & d1 & E1 & H1 & T1); [exact H|]. rewrite E1. cbn [bind].
  destruct (halve_ok 16 w1 r1 (0 + d1)) as (w2 & r2 & d2 & E2 & H2 & T2); [exact H1|]. rewrite E2. cbn [bind].
  destruct (halve_ok 8 w2 r2 (0 + d1 + d2)) as (w3 & r3 & d3 & E3 & H3 & T3); [exact H2|]. rewrite E3. cbn [bind].
  assert (r3 < 8) by (pose proof (count_le (tb w3) 8); rewrite popn_tb in H3; lia).
  rewrite (proj2 (Nat.ltb_lt r3 8)) by auto. cbn [guard bind].
  destruct (drop_bits_ok r3 w3) as (j & E & Hj & B & P).
  { rewrite popn_tb in *. pose proof (count_mono (tb w3) 8 64). lia. }
  rewrite E. cbn [bind].
  assert (J8 : j < 8). { destruct (Nat.lt_ge_cases j 8); auto. rewrite popn_tb in *. pose proof (count_mono (tb w3) 8 j). lia. }
  destruct (T3 j J8 B P) as (A3 & B3 & P3). destruct (T2 (d3 + j)) as (A2 & B2 & P2); auto; try lia.
  destruct (T1 (d2 + (d3 + j))) as (A1 & B1 & P1); auto; try lia.
  eexists; split; [reflexivity|]. replace (0 + d1 + d2 + d3 + j) with (d1 + (d2 + (d3 + j))) by lia. auto.
Qed.

Lemma block_loop_ok : forall ws r sum sk, sum <= r -> r < sum + popcounts ws ->
  exists q w, q < length ws /\ nth_error ws q = Some w /\
    block_loop ws r sum sk = Some (w, sum + popcounts (firstn q ws), sk + 64 * q) /\
    sum + popcounts (firstn q ws) <= r < sum + popcounts (firstn q ws) + popcount w.
Proof.
  induction ws as [|w ws IH]; intros r sum sk H1 H2; cbn [popcounts block_loop] in *; [lia|].
  destruct (Nat.ltb_spec r (sum + popcount w)) as [H|H].
  - exists 0, w. cbn [length nth_error firstn popcounts]. rewrite !Nat.add_0_r. repeat split; auto; lia.
  - destruct (IH r (sum + popcount w) (sk + WORD)) as (q & w' & Hq & Ew & E & B); try lia.
    exists (S q), w'. cbn [length nth_error firstn popcounts]. split; [lia|]. split; auto. split; [|lia].
    rewrite E. change WORD with 64. do 2 f_equal; [f_equal|]; lia.
Qed.

Local Ltac Zify.zify_post_hook ::= Z.to_euclidean_division_equations.
Section Map.
Context (b : bitvec) (m : rankmap) (W : bv_wf b) (Hm : rm_new b = Some m).
Let C := count (wbit (bdata b)).
Let K := (bsize b + 512 - 1) / 512.
Let P k := C (Nat.min (512 * k) (64 * length (bdata b))).
Let total := C (64 * length (bdata b)).

Lemma map_facts : flags m = b /\ rm_len m = total /\ length (prefix_sum m) = K + 1 /\ (forall k, k <= K -> nth_error (prefix_sum m) k = Some (P k)).
Proof using W Hm.
  destruct (rm_new_spec b W) as (m' & E & F & HP & HL). rewrite Hm in E. injection E as <-.
  repeat split; auto. unfold rm_new in Hm. change BPP with 512 in Hm.
  destruct (compile_spec b ((bsize b + 512 - 1) / 512) 0 0) as (l & E & L & _); auto; try lia.
  rewrite E in Hm. cbn [bind] in Hm. injection Hm as <-. cbn. fold K in L. lia.
Qed.
Lemma P_mono i j : i <= j -> P i <= P j.
Proof. intros H. unfold P, C. apply count_mono. lia. Qed.
Lemma P_K : P K = total.
Proof using W. unfold P, total. f_equal. unfold bv_wf in W. unfold K. lia. Qed.
Lemma P_0 : P 0 = 0.
Proof. reflexivity. Qed.

Let num := 1 + (total + 256 - 1) / 256.

Definition filled (k : nat) (s : list nat * nat) : Prop :=
  length (fst s) = num /\ nth_error (fst s) (num - 1) = Some K /\
  snd s mod 256 = 0 /\ P k <= snd s /\ (forall v, v mod 256 = 0 -> v < snd s -> v < P k) /\
  forall g, 256 * g < P k -> exists B, nth_error (fst s) g = Some B /\ P B <= 256 * g < P (B + 1) /\ B < k.

Lemma fill_ok k : k < K -> forall fuel bl v, P (k + 1) <= v + fuel ->
  length bl = num -> nth_error bl (num - 1) = Some K -> v mod 256 = 0 -> P k <= v ->
  (forall u, u mod 256 = 0 -> u < v -> u < P (k + 1)) ->
  (forall g, 256 * g < v -> exists B, nth_error bl g = Some B /\ P B <= 256 * g < P (B + 1) /\ B < k + 1) ->
  exists s', fill_groups fuel (P k) (P (k + 1)) k (bl, v) = Some s' /\ filled (k + 1) s'.
Proof using W.
  intros Hk. induction fuel as [|fuel IH]; intros bl v Hf HL HN Hv Hp Hu Hg.
  - cbn [fill_groups]. assert (E : (v <? P (k + 1)) = false) by (apply Nat.ltb_ge; lia). rewrite E, andb_false_r.
    exists (bl, v). split; auto. split; [exact HL|]. split; [exact HN|]. split; [exact Hv|]. cbn [fst snd]. split; [lia|]. split; [exact Hu|]. intros g HG. apply Hg. lia.
  - cbn [fill_groups]. rewrite (proj2 (Nat.leb_le (P k) v)) by auto. cbn [andb].
    destruct (Nat.ltb_spec v (P (k + 1))) as [H|H].
    + assert (Hvt : v < total). { pose proof (P_mono (k + 1) K ltac:(lia)). rewrite P_K in H0. lia. }
      change GROUPED_LOCALS with 256.
      assert (Hi : v / 256 < num - 1) by (unfold num; lia).
      rewrite set_at_lt by lia. cbn [bind]. apply IH; try lia.
      * rewrite upd_length; auto.
      * rewrite nth_error_upd_neq by lia. auto.
      * intros g HG. destruct (Nat.eq_dec g (v / 256)) as [->|Hn].
        -- exists k. rewrite nth_error_upd_eq by lia. split; auto. split; [|lia]. lia.
        -- rewrite nth_error_upd_neq by lia. apply Hg. lia.
    + exists (bl, v). split; auto. split; [exact HL|]. split; [exact HN|]. split; [exact Hv|]. cbn [fst snd]. split; [lia|]. split; [exact Hu|]. intros g HG. apply Hg. lia.
Qed.

Lemma sel_new_ok : exists bl, sel_new m = Some (mkSel m bl) /\ length bl = num /\ nth_error bl (num - 1) = Some K /\
  forall g, 256 * g < total -> exists B, nth_error bl g = Some B /\ P B <= 256 * g < P (B + 1) /\ B < K.
Proof using W Hm.
  destruct map_facts as (F & HL & HLen & HP). unfold sel_new. rewrite HL. change GROUPED_LOCALS with 256. fold num. cbv zeta.
  rewrite HLen. replace (K + 1 - 1) with K by lia.
  rewrite set_at_lt by (rewrite repeat_length; unfold num; lia). cbn [bind].
  set (L := combine (seq 0 K) (combine (prefix_sum m) (tl (prefix_sum m)))).
  assert (NL : forall i, i < K -> nth_error L i = Some (i, (P i, P (i + 1)))).
  { intros i Hi. unfold L.
    assert (CN : forall {A B} (l1 : list A) (l2 : list B) i a c, nth_error l1 i = Some a -> nth_error l2 i = Some c -> nth_error (combine l1 l2) i = Some (a, c)).
    { clear. induction l1 as [|x l1 IH]; intros [|y l2] [|i] a c H1 H2; cbn in *; try discriminate; try congruence. apply IH; auto. }
    apply CN. { rewrite (nth_error_nth_some _ _ 0) by (rewrite seq_length; auto). rewrite seq_nth by auto. auto. }
    apply CN; [apply HP; lia|]. specialize (HP (i + 1) ltac:(lia)). rewrite Nat.add_1_r in *. destruct (prefix_sum m); [discriminate|exact HP]. }
  assert (LL : length L = K).
  { unfold L. rewrite combine_length, seq_length, combine_length. assert (TL : length (tl (prefix_sum m)) = length (prefix_sum m) - 1) by (destruct (prefix_sum m); cbn [tl length]; lia). rewrite TL, HLen. lia. }
  match goal with |- context [foldM ?f L ?s0] =>
    destruct (foldM_inv f (fun pre s => filled (length pre) s) L s0) as (s' & E & Hs) end.
  - split. { cbn [fst]. rewrite upd_length, repeat_length. auto. }
    split. { cbn [fst]. apply nth_error_upd_eq. rewrite repeat_length. unfold num. lia. }
    cbn [snd length]. rewrite P_0. repeat split; try lia. all: try (intros; lia).
  - intros pre a post [bl v] El (I1 & I2 & I3 & I4 & I5 & I6). cbn [fst snd] in *.
    assert (Hp : length pre < K). { rewrite <- LL, El, app_length. cbn. lia. }
    assert (Ea : a = (length pre, (P (length pre), P (length pre + 1)))).
    { specialize (NL _ Hp). rewrite El, nth_error_app2, Nat.sub_diag in NL by lia. cbn [nth_error] in NL. injection NL as ->. reflexivity. }
    subst a. rewrite app_length. cbn [length].
    apply fill_ok; auto; try lia.
    + intros u Hu1 Hu2. specialize (I5 u Hu1 Hu2). pose proof (P_mono (length pre) (length pre + 1)). lia.
    + intros g HG. destruct (I6 g) as (B & B1 & B2 & B3). { apply I5; lia. } exists B. split; auto. split; auto. lia.
  - fold L in E. rewrite E. destruct s' as [bl v]. cbn [bind]. exists bl. split; auto.
    destruct Hs as (I1 & I2 & I3 & I4 & I5 & I6). cbn [fst snd] in *. rewrite LL in *. rewrite P_K in I6. auto.
Qed.

Lemma popcounts_app l1 l2 : popcounts (l1 ++ l2) = popcounts l1 + popcounts l2.
Proof. induction l1; cbn; auto. lia. Qed.

Lemma wbit_word q w j : nth_error (bdata b) q = Some w -> j < 64 -> wbit (bdata b) (64 * q + j) = tb w j.
Proof.
  intros E Hj. unfold wbit. replace ((64 * q + j) / 64) with q by lia. replace ((64 * q + j) mod 64) with j by lia.
  rewrite (nth_error_nth _ _ _ E). auto.
Qed.

Lemma block_local_ok B r : B < K -> P B + r < P (B + 1) -> exists j, block_local_index m B r = Some j /\
  wbit (bdata b) (512 * B + j) = true /\ C (512 * B + j) = P B + r.
Proof using W Hm.
  intros HB Hr. destruct map_facts as (F & HL & HLen & HP). unfold block_local_index. rewrite F. change IPP with 8.
  unfold bv_wf in W. fold K in W.
  assert (Lb : 8 * B <= length (bdata b)) by (unfold K in HB; lia).
  destruct (slice_ok (bdata b) (B * 8) (Nat.min ((B + 1) * 8) (length (bdata b)))) as [ws Hws]; [lia|].
  rewrite Hws. cbn [bind]. pose proof Hws as Hws'. apply slice_popcounts in Hws'. destruct Hws' as [Hpc _].
  assert (EP : P (B + 1) = P B + popcounts ws).
  { rewrite Hpc. unfold P, C. replace (Nat.min (512 * B) (64 * length (bdata b))) with (512 * B) by lia.
    replace (Nat.min (512 * (B + 1)) (64 * length (bdata b))) with (512 * B + 64 * (Nat.min ((B + 1) * 8) (length (bdata b)) - B * 8)) by lia.
    rewrite count_add. f_equal. apply count_ext. intros i Hi. f_equal. lia. }
  destruct (block_loop_ok ws r 0 0) as (q & w & Hq & Ew & E & Hb1 & Hb2); try lia. rewrite E. cbn [bind].
  cbn [Nat.add] in *. destruct (int_local_ok w (r - popcounts (firstn q ws))) as (j & Ej & Hj & Bj & Pj); [lia|]. rewrite Ej. cbn [bind].
  eexists; split; [reflexivity|].
  assert (Ews : ws = firstn (Nat.min ((B + 1) * 8) (length (bdata b)) - B * 8) (skipn (B * 8) (bdata b))).
  { unfold slice in Hws. destruct (_ && _); cbn in Hws; [congruence|discriminate]. }
  assert (SN : forall (l : list N) k i, nth_error (skipn k l) i = nth_error l (k + i)).
  { clear. induction l as [|a l IH]; intros [|k] i; cbn; auto. destruct i; auto. }
  assert (Eq : forall i x, nth_error ws i = Some x -> nth_error (bdata b) (8 * B + i) = Some x).
  { intros i x Hx. rewrite Ews in Hx. assert (Hi : i < Nat.min ((B + 1) * 8) (length (bdata b)) - B * 8).
    { apply nth_error_Some_lt in Hx. rewrite firstn_length in Hx. lia. }
    assert (F1 : forall (l : list N) k i, i < k -> nth_error (firstn k l) i = nth_error l i).
    { clear. induction l as [|a l IH]; intros [|k] [|i] H; cbn; auto; try lia. apply IH; lia. }
    rewrite F1 in Hx by auto. rewrite SN in Hx. rewrite <- Hx. f_equal. lia. }
  pose proof (Eq q w Ew) as Ewb.
  replace (512 * B + (64 * q + j)) with (64 * (8 * B + q) + j) by lia. split.
  - rewrite (wbit_word _ w); auto.
  - replace (64 * (8 * B + q) + j) with (512 * B + (64 * q + j)) by lia. unfold C. rewrite count_add.
    unfold P, C. replace (Nat.min (512 * B) (64 * length (bdata b))) with (512 * B) by lia. f_equal.
    rewrite count_add.
    rewrite (count_ext (fun j0 => wbit (bdata b) (512 * B + (64 * q + j0))) (tb w)).
    2: { intros i Hi. rewrite <- (wbit_word _ w i Ewb) by lia. f_equal. lia. }
    rewrite popn_tb in Pj. rewrite Pj.
    assert (Eq2 : popcounts (firstn q ws) = count (fun j0 => wbit (bdata b) (512 * B + j0)) (64 * q)).
    { destruct (slice_ok (bdata b) (B * 8) (B * 8 + q)) as [l Hl]. { apply nth_error_Some_lt in Ewb. lia. }
      pose proof Hl as Hl'. apply slice_popcounts in Hl'. destruct Hl' as [Hl' _].
      assert (l = firstn q ws).
      { unfold slice in Hl. destruct (_ && _); cbn in Hl; [|discriminate]. injection Hl as <-. rewrite Ews, firstn_firstn.
        f_equal. rewrite Ews, firstn_length in Hq. lia. }
      subst l. rewrite Hl'. replace (B * 8 + q - B * 8) with q by lia. apply count_ext. intros; f_equal; lia. }
    lia.
Qed.

Lemma inverse_ok bs i : bs_contract bs ->
  (forall k, k < K -> P k = C i -> P k < P (k + 1)) ->
  i < 64 * length (bdata b) -> wbit (bdata b) i = true ->
  exists s, sel_new m = Some s /\ sel_inverse bs s (C i) = Some i.
Proof using W Hm.
  intros HB HS Hi Bi. destruct map_facts as (F & HL & HLen & HP). destruct sel_new_ok as (bl & E & Lbl & Nbl & Hbl).
  exists (mkSel m bl). split; auto. unfold sel_inverse. cbn [sm_map sm_blocks]. rewrite HL.
  set (v := C i). assert (Hv : v < total) by (apply count_lt; auto).
  rewrite (proj2 (Nat.ltb_lt v total)) by auto. cbn [guard bind]. cbv zeta. change GROUPED_LOCALS with 256.
  set (g := v / 256). destruct (Hbl g) as (a & Ea & Ha & HaK); [unfold g; lia|]. rewrite Ea. cbn [bind].
  assert (HBb : exists bb, nth_error bl (g + 1) = Some bb /\ bb <= K /\ v < P (bb + 1) /\ (bb = K \/ bb < K) /\ (bb = K -> v < P bb) /\ a <= bb).
  { destruct (Nat.lt_ge_cases (256 * (g + 1)) total) as [H|H].
    - destruct (Hbl (g + 1) H) as (bb & Eb & Hb & HbK). exists bb. split; auto. split; [lia|]. split; [unfold g in *; lia|]. split; [lia|]. split; [lia|].
      destruct (Nat.le_gt_cases a bb); auto. pose proof (P_mono (bb + 1) a). lia.
    - exists K. assert (g + 1 = num - 1) by (unfold num, g in *; lia). rewrite H0. split; auto. split; auto.
      split. { pose proof (P_mono K (K + 1)). rewrite P_K in H1. lia. } rewrite P_K. repeat split; auto; lia. }
  destruct HBb as (bb & Eb & HbK & Hvb & Hbc & Hbk & Hab). rewrite Eb. cbn [bind].
  assert (SL : slice (prefix_sum m) a (bb + 1) = Some (firstn (bb + 1 - a) (skipn a (prefix_sum m)))).
  { unfold slice. rewrite (proj2 (Nat.leb_le a (bb + 1))) by lia. rewrite (proj2 (Nat.leb_le (bb + 1) (length (prefix_sum m)))) by lia. reflexivity. }
  rewrite SL. cbn [bind]. set (l := firstn (bb + 1 - a) (skipn a (prefix_sum m))).
  assert (Nl : forall k, k < bb + 1 - a -> nth_error l k = Some (P (a + k))).
  { intros k Hk. unfold l.
    assert (F1 : forall (l : list nat) k i, i < k -> nth_error (firstn k l) i = nth_error l i).
    { clear. induction l as [|x l IH]; intros [|k] [|i] H; cbn; auto; try lia. apply IH; lia. }
    assert (SN : forall (l : list nat) k i, nth_error (skipn k l) i = nth_error l (k + i)).
    { clear. induction l as [|x l IH]; intros [|k] i; cbn; auto. destruct i; auto. }
    rewrite F1, SN by auto. apply HP. lia. }
  assert (Ll : length l = bb + 1 - a) by (unfold l; rewrite firstn_length, skipn_length; lia).
  assert (AS : ascending l).
  { intros x y p q Hxy Hx Hy. pose proof (nth_error_Some_lt _ _ _ Hx). pose proof (nth_error_Some_lt _ _ _ Hy).
    rewrite Nl in Hx, Hy by lia. injection Hx as <-. injection Hy as <-. apply P_mono. lia. }
  destruct (HB l v AS) as (r & Er & Hr). rewrite Er. cbn [bind].
  assert (HX : exists x, (match r with inl x => Some x | inr x => _ <- guard (1 <=? x) ;; Some (x - 1) end) = Some x /\ P (a + x) <= v < P (a + x + 1) /\ a + x < K).
  { destruct r as [x|x].
    - exists x. split; auto. pose proof (nth_error_Some_lt _ _ _ Hr) as Hx. rewrite Nl in Hr by lia. injection Hr as Hr.
      assert (Hk : a + x < K). { destruct (Nat.eq_dec (a + x) K) as [e|]; [|lia]. rewrite e, P_K in Hr. lia. }
      specialize (HS (a + x) Hk Hr). fold v in Hr. lia.
    - destruct Hr as (Hx & H1 & H2). assert (1 <= x).
      { destruct x as [|x]; [|lia]. exfalso. specialize (H2 0 (P (a + 0)) ltac:(lia) (Nl 0 ltac:(lia))). rewrite Nat.add_0_r in H2. unfold g in *. lia. }
      rewrite (proj2 (Nat.leb_le 1 x)) by auto. cbn [guard bind]. exists (x - 1). split; auto.
      specialize (H1 (x - 1) (P (a + (x - 1))) ltac:(lia) (Nl (x - 1) ltac:(lia))).
      destruct (Nat.eq_dec x (bb + 1 - a)) as [->|Hn].
      + replace (a + (bb + 1 - a - 1)) with bb in * by lia. split; [lia|].
        destruct Hbc as [->|]; auto. specialize (Hbk eq_refl). lia.
      + specialize (H2 x (P (a + x)) ltac:(lia) (Nl x ltac:(lia))). replace (a + (x - 1) + 1) with (a + x) by lia. split; lia. }
  destruct HX as (x & Ex & Hx & HxK). rewrite Ex. cbn [bind]. rewrite (Nat.add_comm x a).
  rewrite HP by lia. cbn [bind]. rewrite (proj2 (Nat.leb_le (P (a + x)) v)) by lia. cbn [guard bind].
  destruct (block_local_ok (a + x) (v - P (a + x))) as (j & Ej & Bj & Cj); try lia. rewrite Ej. cbn [bind]. change BPP with 512.
  f_equal. replace (P (a + x) + (v - P (a + x))) with v in Cj by lia. replace ((a + x) * 512 + j) with (512 * (a + x) + j) by lia.
  set (y := 512 * (a + x) + j) in *.
  destruct (Nat.lt_trichotomy y i) as [H|[H|H]]; auto; exfalso.
  - pose proof (count_lt (wbit (bdata b)) y i H Bj). unfold v, C in *. lia.
  - pose proof (count_lt (wbit (bdata b)) i y H Bi). unfold v, C in *. lia.
Qed.
End Map.

Lemma select_ok n ops s bs : (In BSetAll ops -> n mod 64 = 0) -> impl_final (bits_step n) (fun _ => false) ops = Some s -> bs_contract bs ->
  exists b m sm, impl_final bv_step (bv_new n) ops = Some b /\ rm_new b = Some m /\ sel_new m = Some sm /\
    forall i, i < n -> s i = true -> exists r, rm_at m i = Some r /\ r = count s i /\
      ((i < 512 \/ exists j, j < i /\ s j = true /\ i / 512 - 1 <= j / 512) -> sel_inverse bs sm r = Some i).
Proof.
  intros HSA H HB.
  destruct (bv_final_ok true n ops) with (b := bv_new n) (s := fun _ : nat => false) (s' := s) as (b & E & I); auto.
  { apply bv_new_inv. }
  pose proof I as [S L B Pd].
  assert (W : bv_wf b) by (unfold bv_wf; rewrite S; auto).
  assert (I' : BInv false n b s). { constructor; auto. }
  destruct (rm_queries n b s I') as (m & Em & Hq). exists b, m.
  destruct (sel_new_ok b m W Em) as (bl & Es & _). exists (mkSel m bl). split; auto. split; auto. split; auto.
  intros i Hi Si. exists (count s i). split.
  { destruct (Hq i) as (_ & Hat & _). rewrite Hat, (proj2 (Nat.ltb_lt i n)), Si by auto. auto. }
  split; auto. intros HE.
  assert (Hl : n <= 64 * length (bdata b)) by (rewrite L; lia).
  assert (Bi : wbit (bdata b) i = true) by (rewrite B; auto).
  destruct (inverse_ok b m W Em bs i HB) as (s' & Es' & Hs'); auto; [|lia|].
  - intros k Hk Ek.
    set (f := wbit (bdata b)) in *. set (D := 64 * length (bdata b)) in *. cbv beta in Ek.
    destruct (Nat.lt_ge_cases i (512 * k)) as [Hik|Hik].
    + pose proof (count_lt f i (Nat.min (512 * k) D) ltac:(lia) Bi). lia.
    + destruct (Nat.lt_ge_cases i (512 * (k + 1))) as [Hi2|Hi2].
      * pose proof (count_lt f i (Nat.min (512 * (k + 1)) D) ltac:(lia) Bi). lia.
      * destruct HE as [HE|(j & Hj & Sj & Ej)]; [lia|].
        assert (Bj : f j = true) by (unfold f; rewrite B; auto; lia).
        pose proof (count_lt f j i Hj Bj).
        pose proof (count_mono f (Nat.min (512 * k) D) j ltac:(lia)). lia.
  - rewrite Es in Es'. injection Es' as <-. rewrite <- Hs'. f_equal. symmetry. apply count_ext. intros; apply B; lia.
Qed.
