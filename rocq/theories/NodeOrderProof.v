(** NodeOrder: the two vectors are inverse to each other. *)
From Verif Require Import Base Graph SpecGraph NodeOrder.

Definition perm_vec (v : list nat) : Prop := Permutation v (seq 0 (length v)).

Lemma perm_vec_nth v : perm_vec v -> (forall i x, nth_error v i = Some x -> x < length v) /\ NoDup v /\ forall x, x < length v -> exists i, nth_error v i = Some x.
Proof.
  intros H. split; [|split].
  - intros i x E. apply nth_error_In in E. eapply Permutation_in in E; [|exact H]. apply in_seq in E. lia.
  - eapply Permutation_NoDup; [apply Permutation_sym, H|apply seq_NoDup].
  - intros x Hx. apply In_nth_error. eapply Permutation_in; [apply Permutation_sym, H|]. apply in_seq. lia.
Qed.

Lemma fill_ok n : forall v k r, length r = n -> (forall x, In x v -> x < n) ->
  exists r', foldM (fun r iv => set_at r (snd iv) (fst iv)) (combine (seq k (length v)) v) r = Some r' /\ length r' = n /\
  (forall x, ~ In x v -> nth_error r' x = nth_error r x) /\
  (NoDup v -> forall i x, nth_error v i = Some x -> nth_error r' x = Some (k + i)).
Proof.
  induction v as [|a v IH]; intros k r Hr Hv; cbn [length seq combine foldM].
  - exists r. split; auto. split; auto. split; auto. intros _ [|i] x; discriminate.
  - assert (Ha : a < n) by (apply Hv; left; auto).
    unfold set_at. cbn [fst snd]. rewrite (proj2 (Nat.ltb_lt a (length r))) by lia. cbn [bind].
    destruct (IH (S k) (upd r a k)) as (r' & E & L & H1 & H2). { rewrite upd_length; auto. } { intros; apply Hv; right; auto. }
    exists r'. split; [exact E|]. split; auto. split.
    + intros x Hx. cbn in Hx. rewrite H1 by tauto. apply nth_error_upd_neq. tauto.
    + intros ND [|i] x; cbn [nth_error]; intros Ex.
      * injection Ex as <-. inversion ND; subst. rewrite H1 by auto. rewrite nth_error_upd_eq by lia. f_equal. lia.
      * inversion ND; subst. rewrite (H2 ltac:(auto) i x Ex). f_equal. lia.
Qed.

Lemma fill_bound n : forall v k r r', length r = n -> foldM (fun r iv => set_at r (snd iv) (fst iv)) (combine (seq k (length v)) v) r = Some r' ->
  forall x, In x v -> x < n.
Proof.
  induction v as [|a v IH]; intros k r r' Hr E x Hx; cbn [length seq combine foldM] in E; [destruct Hx|].
  unfold set_at in E at 1. cbn [fst snd] in E. destruct (Nat.ltb_spec a (length r)); cbn [bind] in E; [|discriminate].
  destruct Hx as [<-|Hx]; [lia|]. eapply (IH (S k)); [|exact E|exact Hx]. rewrite upd_length; auto.
Qed.

Lemma NoDup_bound_perm (v : list nat) : NoDup v -> (forall x, In x v -> x < length v) -> perm_vec v.
Proof.
  intros ND H. unfold perm_vec. apply NoDup_Permutation_bis; auto.
  - rewrite seq_length; auto.
  - intros x Hx. apply in_seq. apply H in Hx. lia.
Qed.

Lemma invert_ok debug v : perm_vec v -> (N.of_nat (length v) < U32MAX)%N ->
  exists r, invert_vec debug v = Some r /\ length r = length v /\ (forall i x, nth_error v i = Some x <-> nth_error r x = Some i).
Proof.
  intros HP HN. destruct (perm_vec_nth _ HP) as (B & ND & Sur).
  destruct (fill_ok (length v) v 0 (repeat (length v) (length v))) as (r & E & L & _ & H2). { apply repeat_length. }
  { intros x Hx. apply In_nth_error in Hx as (i & Hi). eapply B; eauto. } specialize (H2 ND). cbn in H2.
  assert (K : forall i x, nth_error v i = Some x <-> nth_error r x = Some i).
  { intros i x. split; auto. intros Er. assert (Hx : x < length v). { rewrite <- L. apply nth_error_Some. congruence. }
    destruct (Sur x Hx) as (j & Hj). pose proof (H2 _ _ Hj) as Ej. rewrite Er in Ej. injection Ej as ->. auto. }
  exists r. split; [|split; auto]. unfold invert_vec. rewrite (proj2 (N.ltb_lt _ _) HN). cbn [guard bind]. rewrite E. cbn [bind].
  replace (forallb (fun x => negb (x =? length v)) r) with true. { rewrite orb_true_r. reflexivity. }
  symmetry. apply forallb_forall. intros i Hi. apply In_nth_error in Hi as (x & Hx). apply K in Hx.
  apply nth_error_Some_lt in Hx. destruct (Nat.eqb_spec i (length v)); auto. lia.
Qed.

(** With the debug assertion compiled in nothing but a permutation is accepted. *)
Lemma invert_perm v r : invert_vec true v = Some r -> perm_vec v /\ (N.of_nat (length v) < U32MAX)%N.
Proof.
  unfold invert_vec. intros E. destruct (N.ltb_spec (N.of_nat (length v)) U32MAX) as [HN|]; cbn [guard bind] in E; [|discriminate]. split; auto.
  destruct (foldM _ _ _) as [r0|] eqn:F in E; cbn [bind] in E; [|discriminate]. cbn [negb orb] in E.
  destruct (forallb _ r0) eqn:A in E; cbn [guard bind] in E; [|discriminate]. clear E r.
  pose proof (fill_bound (length v) v 0 _ _ (repeat_length _ _) F) as B.
  destruct (fill_ok (length v) v 0 (repeat (length v) (length v)) (repeat_length _ _) B) as (r' & F' & L & H1 & _).
  rewrite F in F'. injection F' as <-.
  (* every position was written, so every number below n occurs *)
  assert (Sub : forall x, x < length v -> In x v).
  { intros x Hx. destruct (in_dec Nat.eq_dec x v) as [|Hn]; auto. exfalso. pose proof (H1 x Hn) as E.
    assert (Er : nth_error (repeat (length v) (length v)) x = Some (length v)) by (rewrite nth_error_repeat, (proj2 (Nat.ltb_lt _ _) Hx); auto).
    rewrite Er in E. apply nth_error_In in E. rewrite forallb_forall in A. apply A in E. rewrite Nat.eqb_refl in E. discriminate. }
  unfold perm_vec. symmetry. apply NoDup_Permutation_bis; [apply seq_NoDup|rewrite seq_length; auto|].
  intros x Hx. apply in_seq in Hx. apply Sub. lia.
Qed.
