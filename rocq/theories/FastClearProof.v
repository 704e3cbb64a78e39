(** FastClearBitVec: set, clear and iteration. *)
From Verif Require Import Base SpecBits BitVec BitVecProof LoopProof.

Definition word_ok (w : N) : Prop := forall j, 64 <= j -> N.testbit w (N.of_nat j) = false.
Lemma word_nz w : word_ok w -> w <> 0%N -> exists j, j < 64 /\ N.testbit w (N.of_nat j) = true.
Proof.
  intros H Hz. exists (N.to_nat (N.log2 w)). rewrite N2Nat.id. pose proof (N.bit_log2 w Hz) as B. split; auto.
  destruct (Nat.lt_ge_cases (N.to_nat (N.log2 w)) 64) as [|C]; auto. specialize (H _ C). rewrite N2Nat.id in H. congruence.
Qed.

Lemma bit_mask_hi i j : 64 <= j -> N.testbit (bit_mask i) (N.of_nat j) = false.
Proof.
  intros H. unfold bit_mask. pose proof (Nat.mod_upper_bound i 64 ltac:(lia)). change WORD with 64. rewrite N.shiftl_spec_high' by lia.
  destruct (N.of_nat j - N.of_nat (i mod 64))%N eqn:E; [lia|]. apply N.bits_above_log2. cbn. lia.
Qed.

Lemma tz_spec w : word_ok w -> w <> 0%N -> exists j, trailing_zeros w = Some j /\ j < 64 /\ N.testbit w (N.of_nat j) = true.
Proof.
  intros H Hz. unfold trailing_zeros. destruct (List.find _ (seq 0 WORD)) as [j|] eqn:F.
  - apply find_some in F. destruct F as [F1 F2]. apply in_seq in F1. exists j. split; auto. split; auto. change WORD with 64 in F1; lia.
  - destruct (word_nz w H Hz) as (j & Hj & B). exfalso. pose proof (find_none _ _ F j) as X. cbn beta in X. rewrite B in X. discriminate X. apply in_seq. change WORD with 64; lia.
Qed.

Lemma drain_spec fuel : forall w idx, word_ok w -> popcount w < fuel ->
  exists l, drain_word fuel w idx = Some l /\ NoDup l /\ forall x, In x l <-> exists j, j < 64 /\ x = idx * 64 + j /\ N.testbit w (N.of_nat j) = true.
Proof.
  induction fuel as [|fuel IH]; intros w idx H Hp; [lia|]. cbn [drain_word].
  destruct (N.eqb_spec w 0) as [->|Hz].
  { exists []. split; auto. split; [constructor|]. intros x. split; [intros []|]. intros (j & _ & _ & B). rewrite N.bits_0 in B. discriminate. }
  destruct (tz_spec w H Hz) as (j & Et & Hj & B). rewrite Et. cbn [bind].
  set (w' := N.land w (not64 (N.shiftl 1 (N.of_nat j)))).
  assert (B' : forall k, k < 64 -> N.testbit w' (N.of_nat k) = N.testbit w (N.of_nat k) && negb (k =? j)).
  { intros k Hk. unfold w'. rewrite N.land_spec, testbit_not64 by auto. f_equal. f_equal.
    pose proof (testbit_mask j k Hk) as X. unfold bit_mask in X. change WORD with 64 in X. rewrite (Nat.mod_small j 64) in X by auto. auto. }
  assert (H' : word_ok w'). { intros k Hk. unfold w'. rewrite N.land_spec, H by auto. auto. }
  assert (P : popcount w' < popcount w).
  { unfold popcount. change WORD with 64.
    assert (G : forall f g m, (forall i, i < m -> g i = f i && negb (i =? j)) -> f j = true -> j < m -> count g m < count f m).
    { clear. intros f g m. induction m as [|m IH]; intros Hg Hf Hm; [lia|]. cbn [count]. destruct (Nat.eq_dec j m) as [->|Hne].
      - rewrite (Hg m) by lia. rewrite Hf, Nat.eqb_refl. cbn. rewrite (count_ext g f m); [lia|].
        intros i Hi. rewrite Hg by lia. destruct (Nat.eqb_spec i m); [lia|]. apply andb_true_r.
      - specialize (IH ltac:(intros; apply Hg; lia) Hf ltac:(lia)). rewrite (Hg m) by lia. destruct (Nat.eqb_spec m j); [lia|]. rewrite andb_true_r. lia. }
    apply G; auto. }
  destruct (IH w' idx H' ltac:(lia)) as (l & E & ND & IN). rewrite E. cbn [bind]. exists ((idx * WORD + j) :: l). split; auto.
  change WORD with 64. split.
  - constructor; auto. rewrite IN. intros (k & Hk & E2 & B2). assert (k = j) by lia. subst k. rewrite B', Nat.eqb_refl, andb_false_r in B2 by auto. discriminate.
  - intros x. cbn [In]. rewrite IN. split.
    + intros [<-|(k & Hk & -> & B2)]; eauto. exists k. rewrite B' in B2 by auto. apply andb_true_iff in B2. intuition.
    + intros (k & Hk & -> & B2). destruct (Nat.eq_dec k j) as [->|Hne]; auto. right. exists k. split; auto. split; auto. rewrite B', B2 by auto.
      destruct (Nat.eqb_spec k j); [lia|auto].
Qed.

Record FInv (n : nat) (b : fcbv) (s : nat -> bool) : Prop := {
  f_len : length (fdata b) = (n + 64 - 1) / 64;
  f_bits : forall i, wbit (fdata b) i = s i;
  f_words : forall w, In w (fdata b) -> word_ok w;
  f_nd : NoDup (to_clear b);
  f_tc : forall q, In q (to_clear b) <-> nth q (fdata b) 0%N <> 0%N }.

Lemma fc_new_inv n : FInv n (fc_new n) (fun _ => false).
Proof.
  split; cbn [fc_new fdata to_clear].
  - rewrite repeat_length. auto.
  - intros i. apply wbit_repeat0.
  - intros w Hw. apply repeat_spec in Hw. subst. intros j _. apply N.bits_0.
  - constructor.
  - intros q. split; [intros []|]. intros H. destruct H. rewrite nth_repeat. auto.
Qed.

Lemma fc_set_inv n b s i : FInv n b s -> i < n -> exists b', fc_set b i = Some b' /\ FInv n b' (fun j => (j =? i) || s j).
Proof.
  intros [L B W ND T] Hi. unfold fc_set. pose proof (div_lt_ceil i n Hi) as Hq. change WORD with 64. rewrite <- L in Hq.
  destruct (nth_error_lt (fdata b) (i / 64) Hq) as [w Ew]. rewrite Ew. cbn [bind]. eexists; split; [reflexivity|].
  assert (Hnz : N.lor w (bit_mask i) <> 0%N).
  { intros C. pose proof (testbit_mask i (i mod 64) ltac:(apply Nat.mod_upper_bound; lia)) as X. rewrite Nat.eqb_refl in X.
    assert (Y : N.testbit (N.lor w (bit_mask i)) (N.of_nat (i mod 64)) = true) by (rewrite N.lor_spec, X, orb_true_r; auto). rewrite C, N.bits_0 in Y. discriminate. }
  pose proof (nth_error_nth _ _ 0%N Ew) as En.
  split; cbn [fdata to_clear].
  - rewrite upd_length. auto.
  - intros j. rewrite wbit_upd by auto. rewrite <- (B j). destruct (Nat.eqb_spec (j / 64) (i / 64)) as [E|E].
    + rewrite N.lor_spec, testbit_mask by (apply Nat.mod_upper_bound; lia). unfold wbit. rewrite E, En. rewrite orb_comm. f_equal.
      pose proof (Nat.div_mod j 64 ltac:(lia)). pose proof (Nat.div_mod i 64 ltac:(lia)).
      destruct (Nat.eqb_spec (j mod 64) (i mod 64)), (Nat.eqb_spec j i); auto; exfalso; subst; lia.
    + destruct (Nat.eqb_spec j i); [subst; lia|]. auto.
  - intros x Hx. apply In_nth_error in Hx. destruct Hx as [q Hq']. rewrite nth_error_upd in Hq'.
    destruct (Nat.eqb_spec (i / 64) q) as [E|E]; cbn [andb] in Hq'.
    + destruct (Nat.ltb_spec (i / 64) (length (fdata b))); [|lia]. assert (x = N.lor w (bit_mask i)) by congruence. subst x. intros k Hk. rewrite N.lor_spec, bit_mask_hi, orb_false_r by auto. apply W; auto. eapply nth_error_In; eauto.
    + apply W. eapply nth_error_In; eauto.
  - destruct (N.eqb_spec w 0); auto. apply NoDup_app_intro; auto. { repeat constructor. intros []. } intros q Hq' [<-|[]]. apply T in Hq'. congruence.
  - intros q. rewrite nth_upd. destruct (Nat.eqb_spec (i / 64) q) as [E|E]; cbn [andb].
    + destruct (Nat.ltb_spec (i / 64) (length (fdata b))); [|lia]. subst q. split; auto. intros _. destruct (N.eqb_spec w 0); [apply in_or_app; right; left; auto|]. apply T. congruence.
    + rewrite <- T. destruct (N.eqb_spec w 0); [|tauto]. rewrite in_app_iff. cbn. intuition.
Qed.

Lemma fc_clear_inv n b s : FInv n b s -> exists b', fc_clear b = Some b' /\ FInv n b' (fun _ => false).
Proof.
  intros [L B W ND T]. unfold fc_clear.
  assert (G : forall l d, (forall q, In q l -> q < length d) ->
    exists d', fold_left (fun acc i => d <- acc ;; set_at d i 0%N) l (Some d) = Some d' /\ length d' = length d /\
      forall q, nth q d' 0%N = if existsb (Nat.eqb q) l then 0%N else nth q d 0%N).
  { clear. induction l as [|i l IH]; intros d Hl; cbn [fold_left existsb]. { eauto. }
    cbn [bind]. rewrite set_at_lt by (apply Hl; left; auto). destruct (IH (upd d i 0%N)) as (d' & E & L & H). { intros q Hq. rewrite upd_length. apply Hl. right; auto. }
    exists d'. split; auto. split. { rewrite L, upd_length. auto. } intros q. rewrite H, nth_upd. rewrite (Nat.eqb_sym q i).
    destruct (existsb (Nat.eqb q) l), (Nat.eqb_spec i q); cbn [orb andb]; auto. destruct (Nat.ltb_spec i (length d)); auto. subst. exfalso. specialize (Hl q ltac:(left; auto)). lia. }
  destruct (G (to_clear b) (fdata b)) as (d' & E & L' & H). { intros q Hq. apply T in Hq. destruct (Nat.lt_ge_cases q (length (fdata b))); auto. rewrite nth_overflow in Hq by auto. congruence. }
  rewrite E. cbn [bind]. eexists; split; [reflexivity|].
  assert (Z : forall q, nth q d' 0%N = 0%N).
  { intros q. rewrite H. destruct (existsb (Nat.eqb q) (to_clear b)) eqn:X; auto. destruct (N.eq_dec (nth q (fdata b) 0%N) 0) as [|C]; auto. apply T in C.
    exfalso. assert (existsb (Nat.eqb q) (to_clear b) = true). { apply existsb_exists. exists q. split; auto. apply Nat.eqb_refl. } congruence. }
  split; cbn [fdata to_clear].
  - lia.
  - intros i. unfold wbit. rewrite Z. apply N.bits_0.
  - intros w Hw. apply (In_nth _ _ 0%N) in Hw. destruct Hw as (q & _ & <-). rewrite Z. intros j _. apply N.bits_0.
  - constructor.
  - intros q. rewrite Z. split; [intros []|congruence].
Qed.

Lemma fc_get_inv n b s i : FInv n b s -> i < n -> fc_get b i = Some (s i).
Proof.
  intros [L B W ND T] Hi. unfold fc_get. pose proof (div_lt_ceil i n Hi) as Hq. change WORD with 64. rewrite <- L in Hq.
  destruct (nth_error_lt (fdata b) (i / 64) Hq) as [w Ew]. rewrite Ew. cbn [bind]. rewrite land_mask. rewrite <- B. unfold wbit. rewrite (nth_error_nth _ _ 0%N Ew). auto.
Qed.

Lemma fc_iter_inv n b s : FInv n b s -> exists l, fc_set_bits b = Some l /\ NoDup l /\ forall i, In i l <-> s i = true.
Proof.
  intros [L B W ND T]. unfold fc_set_bits.
  assert (G : forall qs, NoDup qs -> (forall q, In q qs -> nth q (fdata b) 0%N <> 0%N) ->
    exists l, fc_iter (fdata b) qs = Some l /\ NoDup l /\ forall i, In i l <-> In (i / 64) qs /\ wbit (fdata b) i = true).
  { induction qs as [|q qs IH]; intros Hnd Hq; cbn [fc_iter].
    - exists []. split; auto. split; [constructor|]. cbn. tauto.
    - inversion Hnd as [|? ? Hnq Hnd']; subst. destruct (IH Hnd' ltac:(intros; apply Hq; right; auto)) as (ys & E & NDy & Iy).
      assert (Hz : nth q (fdata b) 0%N <> 0%N) by (apply Hq; left; auto).
      assert (Hl : q < length (fdata b)). { destruct (Nat.lt_ge_cases q (length (fdata b))); auto. rewrite nth_overflow in Hz by auto. congruence. }
      destruct (nth_error_lt (fdata b) q Hl) as [w Ew]. rewrite Ew. pose proof (nth_error_nth _ _ 0%N Ew) as En. rewrite En in Hz. cbn [bind].
      destruct (N.eqb_spec w 0); [congruence|]. cbn [negb guard bind].
      assert (Hp : popcount w < 65). { unfold popcount. change WORD with 64. pose proof (count_le (fun j => N.testbit w (N.of_nat j)) 64). lia. }
      destruct (drain_spec 65 w q (W w ltac:(eapply nth_error_In; eauto)) Hp) as (xs & Ex & NDx & Ix). rewrite Ex, E. cbn [bind].
      assert (Ix' : forall x, In x xs <-> x / 64 = q /\ wbit (fdata b) x = true).
      { intros x. rewrite Ix. unfold wbit. split.
        - intros (j & Hj & -> & Bj). rewrite Nat.div_add_l by lia. rewrite (Nat.div_small j) by auto. rewrite Nat.add_0_r, En. split; auto.
          rewrite Nat.add_comm, Nat.mod_add, Nat.mod_small by lia. auto.
        - intros [H1 H2]. rewrite H1, En in H2. exists (x mod 64). split; [apply Nat.mod_upper_bound; lia|]. split; auto. pose proof (Nat.div_mod x 64 ltac:(lia)). lia. }
      exists (xs ++ ys). split; auto. split.
      + apply NoDup_app_intro; auto. intros x Hx Hy. apply Ix' in Hx. apply Iy in Hy. destruct Hx as [<- _]. tauto.
      + intros x. rewrite in_app_iff, Ix', Iy. cbn [In]. intuition. }
  destruct (G (to_clear b) ND ltac:(intros; apply T; auto)) as (l & E & NDl & I). exists l. split; auto. split; auto.
  intros i. rewrite I, B, T. split; [tauto|]. intros Hs. split; auto. rewrite <- B in Hs. unfold wbit in Hs. intros C. rewrite C, N.bits_0 in Hs. discriminate.
Qed.

Lemma fc_history n ops : (forall i, In (FSet i) ops -> i < n) ->
  exists b, fc_run ops (fc_new n) = Some b /\ FInv n b (fc_set_after ops).
Proof.
  unfold fc_set_after. intros H. assert (G : forall ops b s, FInv n b s -> (forall i, In (FSet i) ops -> i < n) ->
    exists b', fc_run ops b = Some b' /\ FInv n b' (fold_left (fun s op => match op with FSet i => fun j => (j =? i) || s j | FClear => fun _ => false end) ops s)).
  { clear. induction ops as [|op ops IH]; intros b s HI Hops; cbn [fc_run foldM fold_left]. { eauto. }
    destruct op as [i|].
    - destruct (fc_set_inv n b s i HI ltac:(apply Hops; left; auto)) as (b' & E & HI'). unfold fc_run. cbn [foldM]. rewrite E. cbn [bind]. apply IH; auto. intros; apply Hops; right; auto.
    - destruct (fc_clear_inv n b s HI) as (b' & E & HI'). unfold fc_run. cbn [foldM]. rewrite E. cbn [bind]. apply IH; auto. intros; apply Hops; right; auto. }
  apply G; auto. apply fc_new_inv.
Qed.

Lemma fc_history_spec n ops : (forall i, In (FSet i) ops -> i < n) ->
  exists b, fc_run ops (fc_new n) = Some b /\ (forall i, i < n -> fc_get b i = Some (fc_set_after ops i)) /\
    exists l, fc_set_bits b = Some l /\ NoDup l /\ forall i, In i l <-> fc_set_after ops i = true.
Proof.
  intros H. destruct (fc_history n ops H) as (b & E & HI). exists b. split; auto. split. { intros. apply (fc_get_inv n); auto. }
  apply (fc_iter_inv n); auto.
Qed.
