(** Statements about potentials taken from a customizable contraction hierarchy. *)
From Verif Require Import Base SpecGraph SpecCCH Graph ExTab CCH CCHTheory CCHBuildProof Dijkstra CCHQuery CCHViewProof CCHServerProof PropsCCH CCHPot CCHPotProof.

(** ** C30: a CCHPotential answers the exact distance to the target it was initialized with last. *)

(** nodes in the calls exist *)
Definition pot_calls_ok (adj : list (list (nat * N))) (ops : list pot_op) : Prop :=
  forall op, In op ops -> match op with PotInit t => t < length adj | PotValue x => x < length adj end.
(** the target of the last init call of a history, if there was one *)
Definition current_target (ops : list pot_op) : option nat :=
  fold_left (fun t op => match op with PotInit t' => Some t' | PotValue _ => t end) ops None.
Lemma current_last ops : current_target ops = last_target None ops.
Proof.
  unfold current_target. generalize (@None nat). induction ops as [|[t|x] ops IH]; intros o; cbn; auto.
Qed.

(** After any calls that begin with init: no panic, and the next value is the distance from the node to the last target in the
    customized metric, None iff it is at least INFINITY. *)
Theorem C30_potential_exact :
  forall adj g order ranks c, valid_adj adj -> fits_u32 adj -> from_adjacency_lists adj = Some g -> node_order (length adj) order ranks ->
  cch_contract g order ranks = Some c ->
  forall madj k, metric_for adj c madj k ->
  forall t0 ops, pot_calls_ok adj (PotInit t0 :: ops) ->
  exists p, pot_history (pot_forward k) (PotInit t0 :: ops) = Some p /\
  forall x, x < length adj -> exists p' r t, pot_value p x = Some (p', r) /\ current_target (PotInit t0 :: ops) = Some t /\ exact_answer (adj_arc madj) x t r.
Proof.
  intros adj g order ranks c HV HF Hg HO E madj k Hm t0 ops Hops.
  destruct (metric_served _ _ _ _ _ _ _ HV HF Hg HO E Hm) as (A & un & hop & HW).
  assert (Ht : t0 < length adj) by apply (Hops _ (or_introl eq_refl)).
  assert (Ho : pops_ok adj ops) by (intros o Hin; apply (Hops o (or_intror Hin))).
  destruct (forward_pot_exact _ _ _ _ _ _ _ _ HW t0 ops t0 Ht Ho Ht) as (p & _ & _ & _ & Ep & _). exists p. split; [exact Ep|].
  intros x Hx. destruct (forward_pot_exact _ _ _ _ _ _ _ _ HW t0 ops x Ht Ho Hx) as (q & p' & r & t & Eq & Ev & Et & X).
  rewrite Ep in Eq. injection Eq as <-. exists p', r, t. rewrite current_last. auto.
Qed.
Print Assumptions C30_potential_exact.

(** The potential for the reversed direction: distances from the last target to the node. *)
Theorem C30_backward_potential_exact :
  forall adj g order ranks c, valid_adj adj -> fits_u32 adj -> from_adjacency_lists adj = Some g -> node_order (length adj) order ranks ->
  cch_contract g order ranks = Some c ->
  forall madj k, metric_for adj c madj k ->
  forall t0 ops, pot_calls_ok adj (PotInit t0 :: ops) ->
  exists p, pot_history (pot_backward k) (PotInit t0 :: ops) = Some p /\
  forall x, x < length adj -> exists p' r t, pot_value p x = Some (p', r) /\ current_target (PotInit t0 :: ops) = Some t /\ exact_answer (adj_arc madj) t x r.
Proof.
  intros adj g order ranks c HV HF Hg HO E madj k Hm t0 ops Hops.
  destruct (metric_served _ _ _ _ _ _ _ HV HF Hg HO E Hm) as (A & un & hop & HW).
  assert (Ht : t0 < length adj) by apply (Hops _ (or_introl eq_refl)).
  assert (Ho : pops_ok adj ops) by (intros o Hin; apply (Hops o (or_intror Hin))).
  destruct (backward_pot_exact _ _ _ _ _ _ _ _ HW t0 ops t0 Ht Ho Ht) as (p & _ & _ & _ & Ep & _). exists p. split; [exact Ep|].
  intros x Hx. destruct (backward_pot_exact _ _ _ _ _ _ _ _ HW t0 ops x Ht Ho Hx) as (q & p' & r & t & Eq & Ev & Et & X).
  rewrite Ep in Eq. injection Eq as <-. exists p', r, t. rewrite current_last. split; [auto|]. split; [auto|].
  destruct r as [d|]; cbn in X |- *.
  - destruct X as (X1 & X2 & X3). split; [auto|]. split; [apply walk_flip_iff; auto|]. intros l Hl. apply X3, walk_flip_iff. exact Hl.
  - intros l Hl. apply X, walk_flip_iff. exact Hl.
Qed.
Print Assumptions C30_backward_potential_exact.

Example C30_nonvacuous :
  (g <- from_adjacency_lists cx_adj ;; c <- cch_contract g cx_order cx_ranks ;; mg <- from_adjacency_lists cx_madj ;; k <- customize c mg ;;
   p <- pot_history (pot_forward k) [PotInit 3; PotValue 0; PotValue 4; PotInit 1; PotValue 4] ;;
   '(p1, r1) <- pot_value p 2 ;; '(_, r2) <- pot_value p1 0 ;;
   q <- pot_history (pot_backward k) [PotInit 2; PotValue 4; PotInit 4] ;; '(q1, r3) <- pot_value q 2 ;; '(_, r4) <- pot_value q1 1 ;;
   Some (r1, r2, r3, r4)) = Some (Some 5%N, Some 0%N, Some 13%N, Some 4%N).
Proof. vm_compute. reflexivity. Qed.
