(** Statements about merging metrics (metric_merging::merge). *)
From Verif Require Import Base SpecGraph SpecMerge Merge MergeProof.

(** Every execution, whatever the schedule, is finite, never panics and returns the same partition: the one obtained by joining
    the closest pair of groups until max(min(target_size, k), 1) are left. Every group is non-empty, every metric is in exactly one. *)
Theorem C40_merge_is_the_greedy_partition :
  forall metrics m target, metrics <> [] -> (forall a, a < length metrics -> length (nth a metrics []) = m) -> no_u64_overflow metrics m ->
  let k := length metrics in let left := Nat.max (Nat.min target k) 1 in
  exists groups, greedy metrics m (k - left) (singletons k) groups /\
    let res := nonempty groups in
    length res = left /\ Forall (fun g => g <> []) res /\ Permutation (concat res) (seq 0 k) /\
    Acc (fun s' s => mstep metrics m target s s') (merge_start metrics) /\
    forall s, msteps metrics m target (merge_start metrics) s ->
      s = Ret res \/ ((forall r, s <> Ret r) /\ s <> Panic /\ exists s', mstep metrics m target s s').
Proof.
  intros metrics m target HN HL HO. cbv zeta.
  assert (Hk : 1 <= length metrics) by (destruct metrics; [congruence|cbn; lia]).
  assert (ES : merge_start metrics = Main (init_queue (length metrics)) (init_merged (length metrics)) (length metrics)).
  { unfold merge_start. destruct metrics as [|m0 ms]; [congruence|]. pose proof (HL 0 ltac:(cbn; lia)) as H0. cbn [nth] in H0. rewrite H0.
    rewrite (proj2 (forallb_forall _ _)); auto. intros x Hx. apply (In_nth _ _ []) in Hx. destruct Hx as (a & Ha & <-). rewrite HL; auto. apply Nat.eqb_refl. }
  pose proof (start_J metrics m HL target Hk) as HJ0. pose proof (main_halts metrics m HL HO target _ _ _ HJ0) as HA. rewrite ES.
  assert (HG : exists res, J metrics m target (Ret res)).
  { revert HJ0. generalize dependent (Main (init_queue (length metrics)) (init_merged (length metrics)) (length metrics)). intros s0 _ HA. induction HA as [s HA IH].
    intros HJ. destruct (J_progress metrics m target s HJ) as [(res & ->)|(s' & HS)]; [eauto|]. apply (IH s' HS). eapply J_step; eauto. }
  destruct HG as (res & gs & (HM & Er & HP & Hr & _ & HG) & _). exists gs. split; [exact HG|].
  assert (HC : concat (nonempty gs) = concat gs).
  { clear. unfold nonempty. induction gs as [|g gs IH]; cbn [filter concat]; auto. destruct g; cbn [concat app]; auto. rewrite IH. auto. }
  split; [symmetry; exact Er|]. split. { apply Forall_forall. intros g Hg. apply filter_In in Hg. destruct Hg as (_ & Hg). destruct g; congruence. }
  split. { rewrite HC. exact HP. } split; [exact HA|].
  intros s HS. pose proof (J_steps metrics m HL HO target _ _ HS HJ0) as HJ. destruct (J_progress metrics m target s HJ) as [(r & ->)|HX].
  - left. destruct HJ as (gs' & (_ & _ & _ & _ & _ & HG') & ->). rewrite (greedy_det _ _ HL _ _ _ _ HG HG'). auto.
  - right. destruct s as [q g r|mk q ts g r|r|]; [split; [congruence|split; [congruence|auto]]|split; [congruence|split; [congruence|auto]]| |destruct HJ].
    destruct HX as (s' & HX). inversion HX.
Qed.
Print Assumptions C40_merge_is_the_greedy_partition.

(** one possible schedule: always the first task *)
Definition first_step metrics m target s :=
  match s with
  | Main q g r => Some (main_step m target q g r)
  | Scope mk q (t :: l) g r => match task_step metrics m g mk t with
      | Some (mk', inl t') => Some (Scope mk' q (t' :: l) g r)
      | Some (mk', inr e) => Some (Scope mk' (push e q) l g r)
      | None => Some Panic end
  | Scope mk q [] g r => Some (Main q g r)
  | _ => None
  end.
Fixpoint first_steps metrics m target n s := match n with 0 => s | S n => match first_step metrics m target s with Some s' => first_steps metrics m target n s' | None => s end end.
Lemma first_steps_ok metrics m target n s : msteps metrics m target s (first_steps metrics m target n s).
Proof.
  revert s. induction n as [|n IH]; intros s; cbn [first_steps]; [constructor|]. destruct (first_step metrics m target s) as [s'|] eqn:E; [|constructor].
  eapply ms_step; [|apply IH]. destruct s as [q g r|mk q [|t l] g r|r|]; cbn in E; try discriminate.
  - injection E as <-. constructor.
  - injection E as <-. constructor.
  - destruct (task_step metrics m g mk t) as [[mk' [t'|e]]|] eqn:ET; injection E as <-.
    + apply (st_task metrics m target mk q [] t l). auto.
    + apply (st_push metrics m target mk q [] t l). auto.
    + apply (st_panic metrics m target mk q [] t l). auto.
Qed.

(** The sum of the squared differences is a u64, which five arcs can exceed: with weights up to INFINITY the computation
    overflows (a panic if overflow checks are on, else the sum wraps). *)
Theorem C40_sums_can_overflow_refuted : exists metrics target,
  metrics <> [] /\ (forall a, a < length metrics -> length (nth a metrics []) = 5) /\ (forall mt w, In mt metrics -> In w mt -> (w <= INF)%N) /\
  msteps metrics 5 target (merge_start metrics) Panic.
Proof.
  exists [[0;0;0;0;0]; [INF;INF;INF;INF;INF]]%N, 1. split; [congruence|]. split. { intros [|[|a]] H; cbn in *; auto; lia. }
  split. { intros mt w [<-|[<-|[]]] Hw; cbn in Hw; unfold INF in *; lia. }
  pose proof (first_steps_ok [[0;0;0;0;0]; [INF;INF;INF;INF;INF]]%N 5 1 20 (merge_start [[0;0;0;0;0]; [INF;INF;INF;INF;INF]]%N)) as H. vm_compute in H. vm_compute. exact H.
Qed.
Print Assumptions C40_sums_can_overflow_refuted.

Example C40_nonvacuous :
  let metrics := [[1; 9; 4]; [8; 1; 7]; [2; 9; 5]; [8; 2; 7]]%N in
  metrics <> [] /\ (forall a, a < length metrics -> length (nth a metrics []) = 3) /\ no_u64_overflow metrics 3 /\
  msteps metrics 3 2 (merge_start metrics) (Ret [[0; 2]; [1; 3]]).
Proof.
  intros metrics. split; [subst metrics; congruence|]. split. { intros [|[|[|[|a]]]] H; cbn in *; auto; lia. } split.
  - exists 10%N. split; [|reflexivity]. intros a b e Ha Hb He. cbn in Ha, Hb.
    destruct a as [|[|[|[|a]]]]; [| | | |lia]; (destruct b as [|[|[|[|b]]]]; [| | | |lia]); (destruct e as [|[|[|e]]]; [| | |lia]); cbn; lia.
  - pose proof (first_steps_ok metrics 3 2 200 (merge_start metrics)) as H. vm_compute in H. vm_compute. exact H.
Qed.
