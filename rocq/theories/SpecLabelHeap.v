(** Specification of a priority queue that remembers what was popped. Elements are compared by [le] (a total
    preorder, "the Ord of the element type"); the state is a pair of multisets, given as lists up to permutation. *)
From Verif Require Import Base.

Record total_preorder {T} (le : T -> T -> bool) : Prop := {
  tp_refl : forall x, le x x = true;
  tp_trans : forall x y z, le x y = true -> le y z = true -> le x z = true;
  tp_total : forall x y, le x y = true \/ le y x = true }.

Inductive lh_op (T : Type) := LPush (x : T) | LPop | LPeek | LPopped | LClear | LRetain (keep : T -> bool).
Arguments LPush {T}. Arguments LPop {T}. Arguments LPeek {T}. Arguments LPopped {T}. Arguments LClear {T}. Arguments LRetain {T}.
Inductive lh_out (T : Type) := LUnit | LElem (o : option T) | LList (l : list T).
Arguments LUnit {T}. Arguments LElem {T}. Arguments LList {T}.

(** [x] is a largest element of [l] *)
Definition largest {T} (le : T -> T -> bool) (x : T) (l : list T) : Prop := In x l /\ forall y, In y l -> le y x = true.

(** One operation: state before (elements in the queue, elements popped), operation, answer, state after. *)
Inductive lh_spec {T} (le : T -> T -> bool) : list T * list T -> lh_op T -> lh_out T -> list T * list T -> Prop :=
| ls_push q p x q' p' : Permutation q' (x :: q) -> Permutation p' p -> lh_spec le (q, p) (LPush x) LUnit (q', p')
| ls_pop_none p : lh_spec le ([], p) LPop (LElem None) ([], p)
| ls_pop q p x q' p' : largest le x q -> Permutation (x :: q') q -> Permutation p' (x :: p) ->
    lh_spec le (q, p) LPop (LElem (Some x)) (q', p')
| ls_peek_none p : lh_spec le ([], p) LPeek (LElem None) ([], p)
| ls_peek q p x : largest le x q -> lh_spec le (q, p) LPeek (LElem (Some x)) (q, p)
| ls_popped q p l : Permutation l p -> lh_spec le (q, p) LPopped (LList l) (q, p)
| ls_clear q p : lh_spec le (q, p) LClear LUnit ([], [])
| ls_retain q p keep q' p' : Permutation q' (filter keep q) -> Permutation p' (filter keep p) ->
    lh_spec le (q, p) (LRetain keep) LUnit (q', p').

(** A history of operations with its answers. *)
Inductive lh_trace {T} (le : T -> T -> bool) : list T * list T -> list (lh_op T * lh_out T) -> Prop :=
| lt_nil s : lh_trace le s []
| lt_cons s op o s' l : lh_spec le s op o s' -> lh_trace le s' l -> lh_trace le s ((op, o) :: l).
