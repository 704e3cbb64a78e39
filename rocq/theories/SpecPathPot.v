(** What unpacked shortest paths towards a target must be. *)
From Verif Require Import Base SpecGraph PathPot.

(** the input arcs between the positions (ranks) of their end nodes in a node order *)
Definition rank_arc (order : list nat) (arc : nat -> nat -> N -> Prop) (x y : nat) (w : N) : Prop :=
  exists u v, nth_error order x = Some u /\ nth_error order y = Some v /\ arc u v w.
(** the target of the last init call *)
Fixpoint pp_target (t : option nat) (ops : list pp_op) : option nat :=
  match ops with [] => t | PPInit t' :: ops => pp_target (Some t') ops | _ :: ops => pp_target t ops end.
(** calls that keep the rules: nodes exist, there is a target, and only nodes from which the target can be reached are unpacked *)
Fixpoint pp_ops_ok (n : nat) (arc : nat -> nat -> N -> Prop) (t : option nat) (ops : list pp_op) : Prop :=
  match ops with
  | [] => True
  | PPInit t' :: ops => t' < n /\ pp_ops_ok n arc (Some t') ops
  | PPValue v :: ops => v < n /\ t <> None /\ pp_ops_ok n arc t ops
  | PPUnpack v :: ops => v < n /\ (exists t' l, t = Some t' /\ walk arc v t' l /\ (l < INF)%N) /\ pp_ops_ok n arc t ops
  end.
(** the potential of [x] for target [t] is the distance, and after unpacking [x] the parents lead along input arcs to [t] at exactly this cost *)
Definition path_answer (dbg : bool) (n : nat) (arc : nat -> nat -> N -> Prop) (p : ppot) (x t : nat) : Prop :=
  exists p1 r, pp_value p x = Some (p1, r) /\ exact_answer arc x t r /\
    forall d, r = Some d -> exists p2 l, pp_path dbg p x = Some p2 /\ pp_follow n p2 t x = Some l /\ npath arc x l t d.
(** every arc costs something *)
Definition positive (adj : list (list (nat * N))) : Prop := forall l y w, In l adj -> In (y, w) l -> (0 < w)%N.
