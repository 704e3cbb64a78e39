(** filter_covered keeps exactly the minimal ranges. *)
From Coq Require Import Permutation Sorting.Sorted.
From Verif Require Import Base SpecBits BitVec BitVecProof SpecUBS UBS.

Lemma bv_set_ok n b s i : BInv false n b s -> i < n -> exists b', bv_set b i = Some b' /\ BInv false n b' (fun j => (j =? i) || s j).
Proof.
  intros HI Hi. pose proof (bv_step_ok false n b s (BSet i) HI ltac:(discriminate) ltac:(discriminate)) as H. cbn [bits_step bv_step] in H.
  destruct (Nat.ltb_spec i n); [|lia]. cbn [guard bind] in H. destruct H as (b' & E & I'). destruct (bv_set b i) as [b1|]; [|discriminate].
  injection E as ->. exists b'. split; auto.
Qed.

Lemma ss_nth {T} (Rel : T -> T -> Prop) l : StronglySorted Rel l -> forall i j x y, i < j -> nth_error l i = Some x -> nth_error l j = Some y -> Rel x y.
Proof.
  induction 1 as [|a l H IH F]; intros i j x y Hij Hx Hy. { destruct i; discriminate. }
  destruct j as [|j]; [lia|]. destruct i as [|i]; cbn in *.
  - injection Hx as <-. rewrite Forall_forall in F. apply F. eapply nth_error_In; eauto.
  - apply (IH i j); auto. lia.
Qed.
Lemma numbered_nth l k : nth_error (numbered l) k = match nth_error l k with Some r => Some (k, r) | None => None end.
Proof.
  unfold numbered. assert (G : forall s k, nth_error (combine (seq s (length l)) l) k = match nth_error l k with Some r => Some (s + k, r) | None => None end).
  { induction l as [|a l IH]; intros s [|i]; cbn [length seq combine nth_error]; auto. { rewrite Nat.add_0_r. auto. } rewrite IH. replace (S s + i) with (s + S i) by lia. auto. }
  apply (G 0).
Qed.
Lemma numbered_split l pre x post : numbered l = pre ++ x :: post -> fst x = length pre /\ nth_error l (length pre) = Some (snd x).
Proof.
  intros E. pose proof (numbered_nth l (length pre)) as H. rewrite E, nth_error_app2, Nat.sub_diag in H by lia. cbn in H.
  destruct (nth_error l (length pre)); [|discriminate]. injection H as ->. auto.
Qed.

(** index [j] is stored under key [e] *)
Definition bt_in (m : btree) (e j : nat) : Prop := exists l, In (e, l) m /\ In j l.
Lemma bt_push_in m k i e j : bt_in (bt_push m k i) e j <-> bt_in m e j \/ (e = k /\ j = i).
Proof.
  unfold bt_in. induction m as [|[k' l'] m IH]; cbn [bt_push].
  - split. { intros (l & [[= <- <-]|[]] & [<-|[]]). auto. } intros [(l & [] & _)|[-> ->]]. exists [i]. cbn. auto.
  - destruct (Nat.eqb_spec k' k) as [->|Hk]; [|destruct (Nat.ltb_spec k k')].
    + split.
      * intros (l & [[= <- <-]|H] & Hj). { apply in_app_or in Hj. destruct Hj as [Hj|[<-|[]]]; auto. left. exists l'. cbn. auto. } left. exists l. cbn. auto.
      * intros [(l & [[= <- <-]|H] & Hj)|[-> ->]]. { exists (l' ++ [i]). cbn. split; auto. apply in_or_app; auto. } { exists l. cbn. auto. } exists (l' ++ [i]). cbn. split; auto. apply in_or_app; cbn; auto.
    + split.
      * intros (l & [[= <- <-]|H'] & Hj). { destruct Hj as [<-|[]]; auto. } left. exists l. auto.
      * intros [(l & H' & Hj)|[-> ->]]. { exists l. cbn. auto. } exists [i]. cbn. auto.
    + split.
      * intros (l & [[= <- <-]|H'] & Hj). { left. exists l'. cbn. auto. } destruct (proj1 IH (ex_intro _ l (conj H' Hj))) as [(l2 & A & B)|]; auto. left. exists l2. cbn. auto.
      * intros [(l & [[= <- <-]|H'] & Hj)|H2]. { exists l'. cbn. auto. } { destruct (proj2 IH (or_introl (ex_intro _ l (conj H' Hj)))) as (l2 & A & B). exists l2. cbn. auto. }
        destruct (proj2 IH (or_intror H2)) as (l2 & A & B). exists l2. cbn. auto.
Qed.
Lemma bt_filter_in m (f : nat -> bool) e j : bt_in (filter (fun x => f (fst x)) m) e j <-> bt_in m e j /\ f e = true.
Proof.
  unfold bt_in. split.
  - intros (l & H & Hj). apply filter_In in H. destruct H as [H Hf]. split; eauto.
  - intros [(l & H & Hj) Hf]. exists l. split; auto. apply filter_In. auto.
Qed.

Section Filter.
  Variable L : list prange.
  Hypothesis Sorted : StronglySorted (fun a b => rg_ltb b a = false) L.
  Hypothesis Proper : forall r, In r L -> fst r <= snd r.
  Notation m := (length L).

  Lemma sorted_le i j x y : i < j -> nth_error L i = Some x -> nth_error L j = Some y -> fst x <= fst y /\ (fst x = fst y -> snd y <= snd x).
  Proof.
    intros Hij Hx Hy. pose proof (ss_nth _ _ Sorted i j x y Hij Hx Hy) as H. unfold rg_ltb in H. apply orb_false_iff in H. destruct H as [H1 H2].
    apply Nat.ltb_ge in H1. split; auto. intros E. rewrite E, Nat.eqb_refl in H2. cbn in H2. apply Nat.ltb_ge in H2. auto.
  Qed.
  (** a later range among the first [k] ends no later *)
  Definition cov (k j : nat) : Prop := exists x i y, nth_error L j = Some x /\ nth_error L i = Some y /\ j < i < k /\ snd y <= snd x.

  Definition CI (k : nat) (st : bitvec * btree) : Prop :=
    (exists s, BInv false m (fst st) s /\ forall j, j < m -> (s j = true <-> cov k j)) /\
    (forall e j, bt_in (snd st) e j -> j < k /\ exists x, nth_error L j = Some x /\ snd x = e) /\
    (forall j x, j < k -> nth_error L j = Some x -> cov k j \/ bt_in (snd st) (snd x) j \/ exists y, nth_error L (k - 1) = Some y /\ snd x < fst y).

  Lemma set_many (l : list nat) : forall b s, BInv false m b s -> (forall j, In j l -> j < m) ->
    exists b' s', foldM bv_set l b = Some b' /\ BInv false m b' s' /\ forall j, s' j = true <-> s j = true \/ In j l.
  Proof.
    induction l as [|i l IH]; intros b s HI Hl; cbn [foldM]. { exists b, s. split; auto. split; auto. cbn. tauto. }
    destruct (bv_set_ok m b s i HI (Hl i (or_introl eq_refl))) as (b1 & E & I1). rewrite E. cbn [bind].
    destruct (IH b1 _ I1 (fun j H => Hl j (or_intror H))) as (b' & s' & E' & I' & H'). exists b', s'. split; auto. split; auto.
    intros j. rewrite H'. cbn [In]. rewrite orb_true_iff, Nat.eqb_eq. intuition.
  Qed.
  Lemma set_entries (l : btree) : forall b s, BInv false m b s -> (forall e j, bt_in l e j -> j < m) ->
    exists b' s', foldM (fun c e => foldM bv_set (snd e) c) l b = Some b' /\ BInv false m b' s' /\ forall j, s' j = true <-> s j = true \/ exists e, bt_in l e j.
  Proof.
    induction l as [|[e l1] l IH]; intros b s HI Hl; cbn [foldM snd]. { exists b, s. split; auto. split; auto. intros j. split; auto. intros [|(e & l0 & [] & _)]; auto. }
    destruct (set_many l1 b s HI) as (b1 & s1 & E & I1 & H1). { intros j Hj. apply (Hl e). exists l1. cbn. auto. } rewrite E. cbn [bind].
    destruct (IH b1 s1 I1) as (b' & s' & E' & I' & H'). { intros e' j (l0 & H & Hj). apply (Hl e'). exists l0. cbn. auto. } exists b', s'. split; auto. split; auto.
    intros j. rewrite H', H1. unfold bt_in. split.
    - intros [[H|H]|(e' & l0 & H & Hj)]; auto; right. { exists e, l1. cbn. auto. } exists e', l0. cbn. auto.
    - intros [H|(e' & l0 & [[= <- <-]|H] & Hj)]; auto. right. exists e', l0. auto.
  Qed.

  Lemma cover_step_ok k r st : nth_error L k = Some r -> CI k st -> exists st', cover_step st (k, r) = Some st' /\ CI (S k) st'.
  Proof.
    intros Hr ((s & BI & Hs) & Ha & Hc). destruct st as [c act]. cbn [fst snd] in *. pose proof (nth_error_Some_lt _ _ _ Hr) as Hk. pose proof (Proper r (nth_error_In _ _ Hr)) as Pr.
    unfold cover_step, bt_split_off. cbn [fst snd].
    set (act1 := filter (fun e => fst r <=? fst e) act). set (act2 := filter (fun e => fst e <? snd r) act1). set (cv := filter (fun e => snd r <=? fst e) act1).
    assert (I1 : forall e j, bt_in act1 e j <-> bt_in act e j /\ fst r <= e). { intros e j. unfold act1. rewrite (bt_filter_in act (fun x => fst r <=? x)). rewrite Nat.leb_le. tauto. }
    assert (I2 : forall e j, bt_in act2 e j <-> bt_in act e j /\ fst r <= e < snd r). { intros e j. unfold act2. rewrite (bt_filter_in act1 (fun x => x <? snd r)), I1, Nat.ltb_lt. tauto. }
    assert (I3 : forall e j, bt_in cv e j <-> bt_in act e j /\ fst r <= e /\ snd r <= e). { intros e j. unfold cv. rewrite (bt_filter_in act1 (fun x => snd r <=? x)), I1, Nat.leb_le. tauto. }
    destruct (set_entries cv c s BI) as (c' & s' & E & BI' & Hs'). { intros e j Hj. apply I3 in Hj. destruct (Ha e j (proj1 Hj)). lia. }
    rewrite E. cbn [bind]. eexists. split; [reflexivity|].
    assert (Hcov : forall j, j < m -> (cov (S k) j <-> cov k j \/ (exists x, nth_error L j = Some x /\ j < k /\ snd r <= snd x))).
    { intros j Hj. split.
      - intros (x & i & y & Hx & Hy & Hi & Hle). destruct (Nat.eq_dec i k) as [->|]. { right. rewrite Hr in Hy. injection Hy as <-. exists x. split; auto. split; auto. lia. } left. exists x, i, y. repeat (split; auto; try lia).
      - intros [(x & i & y & Hx & Hy & Hi & Hle)|(x & Hx & Hjk & Hle)]. { exists x, i, y. repeat (split; auto; try lia). } exists x, k, r. repeat (split; auto; try lia). }
    split; [|split]; cbn [fst snd].
    - exists s'. split; auto. intros j Hj. rewrite Hs', Hs, Hcov by auto. split; (intros [H|H]; [left; exact H|]).
      + destruct H as (e & H). apply I3 in H. destruct H as (H & H1 & H2). destruct (Ha e j H) as (Hjk & x & Hx & <-). right. exists x. auto.
      + destruct H as (x & Hx & Hjk & Hle). destruct (Hc j x Hjk Hx) as [C|[C|(y & Hy & Hlt)]]; auto.
        * right. exists (snd x). apply I3. split; auto. lia.
        * exfalso. destruct k as [|k]; [lia|]. replace (S k - 1) with k in Hy by lia. destruct (sorted_le k (S k) y r ltac:(lia) Hy Hr). lia.
    - intros e j Hj. apply bt_push_in in Hj. destruct Hj as [Hj|[-> ->]]; [|split; eauto]. apply I2 in Hj. destruct (Ha e j (proj1 Hj)) as (H & x & Hx). split; eauto.
    - intros j x Hj Hx. destruct (Nat.eq_dec j k) as [->|Hne]. { right; left. apply bt_push_in. right. rewrite Hr in Hx. injection Hx as <-. auto. }
      destruct (Hc j x ltac:(lia) Hx) as [C|[C|(y & Hy & Hlt)]].
      + left. apply Hcov; auto. lia.
      + destruct (Nat.le_gt_cases (snd r) (snd x)). { left. apply Hcov; [lia|]. right. exists x. repeat split; auto; lia. }
        destruct (Nat.le_gt_cases (fst r) (snd x)). { right; left. apply bt_push_in. left. apply I2. split; auto. } right; right. exists r. replace (S k - 1) with k by lia. auto.
      + right; right. exists r. replace (S k - 1) with k by lia. split; auto. destruct k as [|k]; [lia|]. replace (S k - 1) with k in Hy by lia.
        destruct (sorted_le k (S k) y r ltac:(lia) Hy Hr). lia.
  Qed.

  Lemma retain_ok c s : BInv false m c s -> forall suf pre, L = pre ++ suf ->
    exists out, retain_uncovered c (combine (seq (length pre) (length suf)) suf) = Some out /\
      (forall r, In r out <-> exists j, length pre <= j /\ nth_error L j = Some r /\ s j = false) /\
      ((forall i j x y, i < j -> nth_error L i = Some x -> nth_error L j = Some y -> s i = false -> snd x < snd y) -> ascending_ranges out).
  Proof.
    intros BI. induction suf as [|r suf IH]; intros pre E; cbn [length seq combine retain_uncovered].
    - exists []. split; auto. split. { intros r. split; [intros []|]. intros (j & Hj & Hn & _). apply nth_error_Some_lt in Hn. rewrite E, app_nil_r in Hn. lia. } intros _. constructor.
    - assert (Hm : length pre < m). { rewrite E, app_length. cbn. lia. }
      assert (Hr : nth_error L (length pre) = Some r). { rewrite E, nth_error_app2, Nat.sub_diag by lia. auto. }
      rewrite (bv_get_spec _ _ _ _ _ BI), (proj2 (Nat.ltb_lt _ _) Hm). cbn [bind].
      destruct (IH (pre ++ [r])) as (out & Eo & Ho & Hs). { rewrite <- app_assoc. auto. } rewrite app_length in *. cbn [length] in *. rewrite Nat.add_1_r in *. rewrite Eo. cbn [bind].
      eexists. split; [reflexivity|]. destruct (s (length pre)) eqn:Es.
      + split.
        * intros x. rewrite Ho. split. { intros (j & Hj & H). exists j. split; auto. lia. } intros (j & Hj & Hn & Hf). exists j. split; auto. destruct (Nat.eq_dec j (length pre)) as [->|]; [congruence|lia].
        * auto.
      + split.
        * intros x. cbn [In]. rewrite Ho. split.
          { intros [<-|(j & Hj & H)]. { exists (length pre). auto. } exists j. split; auto. lia. }
          intros (j & Hj & Hn & Hf). destruct (Nat.eq_dec j (length pre)) as [->|]. { left. congruence. } right. exists j. split; auto. lia.
        * intros Hasc. constructor. { exact (Hs Hasc). } rewrite Forall_forall. intros x Hx. apply Ho in Hx. destruct Hx as (j & Hj & Hn & _).
          pose proof (Hasc (length pre) j r x ltac:(lia) Hr Hn Es). destruct (sorted_le (length pre) j r x ltac:(lia) Hr Hn). lia.
  Qed.

  Lemma last_index (r : prange) : In r L -> exists j, nth_error L j = Some r /\ forall i, j < i -> nth_error L i <> Some r.
  Proof.
    clear. assert (DE : forall a b : prange, {a = b} + {a <> b}) by (decide equality; apply Nat.eq_dec). intros H. induction L as [|a l IH]; [destruct H|]. destruct (in_dec DE r l) as [Hl|Hl].
    - destruct (IH Hl) as (j & E & Hj). exists (S j). split; auto. intros [|i] Hi; [lia|]. cbn. apply Hj. lia.
    - destruct H as [->|H]; [|contradiction]. exists 0. split; auto. intros [|i] Hi; [lia|]. cbn. intros E. apply nth_error_In in E. auto.
  Qed.

  Lemma filter_sorted : exists out, ('(covered, _) <- foldM cover_step (numbered L) (bv_new m, []) ;; retain_uncovered covered (numbered L)) = Some out /\
    lists_minimal (fun r => In r L) out.
  Proof.
    destruct (foldM_inv cover_step (fun pre st => CI (length pre) st) (numbered L) (bv_new m, [])) as ([c act] & E & HC).
    - split; [|split]; cbn [fst snd length]. + exists (fun _ => false). split; [apply bv_new_inv|]. intros j Hj. split; [discriminate|]. intros (x & i & y & _ & _ & H & _). lia.
      + intros e j (l & [] & _). + intros; lia.
    - intros pre [k r] post st En HCI. destruct (numbered_split _ _ _ _ En) as [Ek Er]. cbn in Ek, Er. subst k.
      destruct (cover_step_ok _ _ _ Er HCI) as (st' & E & H). exists st'. split; auto. rewrite app_length. cbn. rewrite Nat.add_1_r. auto.
    - assert (Ln : length (numbered L) = m). { unfold numbered. rewrite combine_length, seq_length. lia. } rewrite Ln in HC.
      destruct HC as ((s & BI & Hs) & _). cbn [fst] in BI. rewrite E. cbn [bind].
      destruct (retain_ok c s BI L [] eq_refl) as (out & Eo & Ho & Ha). exists out. split; auto.
      assert (Hunc : forall i j x y, i < j -> nth_error L i = Some x -> nth_error L j = Some y -> s i = false -> snd x < snd y).
      { intros i j x y Hij Hx Hy Hf. destruct (Nat.le_gt_cases (snd y) (snd x)) as [C|C]; auto. pose proof (nth_error_Some_lt _ _ _ Hy). pose proof (nth_error_Some_lt _ _ _ Hx).
        assert (s i = true); [|congruence]. apply Hs; auto. exists x, j, y. auto. }
      split. { apply Ha. auto. } intros r. rewrite Ho. split.
      + intros (j & _ & Hj & Hf). split. { eapply nth_error_In; eauto. } intros r' Hr' H1 H2. apply In_nth_error in Hr'. destruct Hr' as (i & Hi).
        destruct (Nat.lt_trichotomy i j) as [Hij|[->|Hij]].
        * destruct (sorted_le i j r' r Hij Hi Hj) as [A B]. assert (fst r' = fst r) by lia. specialize (B H). destruct r, r'; cbn in *; f_equal; lia.
        * unfold prange in *. rewrite Hj in Hi. injection Hi; auto.
        * pose proof (Hunc j i r r' Hij Hj Hi Hf). lia.
      + intros [Hr Hmin]. destruct (last_index r Hr) as (j & Hj & Hlast). exists j. split; [cbn; lia|]. split; auto. pose proof (nth_error_Some_lt _ _ _ Hj) as Hjm.
        destruct (s j) eqn:Es; auto. apply Hs in Es; auto. destruct Es as (x & i & y & Hx & Hy & Hi & Hle). rewrite Hj in Hx. injection Hx as <-. exfalso.
        destruct (sorted_le j i r y ltac:(lia) Hj Hy) as [A _]. rewrite (Hmin y (nth_error_In _ _ Hy) A Hle) in Hy. apply (Hlast i); auto. lia.
  Qed.
End Filter.

Theorem filter_covered_ok sort ranges : cmp_sort rg_ltb sort -> (forall r, In r ranges -> fst r <= snd r) ->
  exists out, filter_covered sort ranges = Some out /\ lists_minimal (fun r => In r ranges) out.
Proof.
  intros HS HP. destruct (HS ranges) as [HPm HSo].
  destruct (filter_sorted (sort ranges) HSo) as (out & E & A & B). { intros r Hr. apply HP. eapply Permutation_in; [apply Permutation_sym; eauto|auto]. }
  exists out. split. { exact E. } split; auto. intros r. rewrite B.
  split; intros [H1 H2]; split; try (eapply Permutation_in; [|exact H1]; auto using Permutation_sym).
  - intros r' Hr'. apply H2. eapply Permutation_in; eauto.
  - intros r' Hr'. apply H2. eapply Permutation_in; [apply Permutation_sym; eauto|auto].
Qed.
