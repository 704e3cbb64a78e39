(** Abstract fixed size array that can be reset to a default value.
    Used as specification of TimestampedVector, AtomicDists and ClearlistVector. *)
From Verif Require Import Base.

Section Arr.
  Variable V : Type.
  Variable default : V.

  Inductive arr_op :=
  | AReset                       (** reset() *)
  | ASet (i : nat) (v : V)       (** set(i, v) *)
  | AModify (i : nat) (f : V -> V) (** any read-modify-write through the reference index_mut(i) *)
  | AGet (i : nat).              (** index(i) *)

  (** [None]: nothing to report (unit). *)
  Definition arr_out := option V.

  (** Outer [None]: panic, exactly when the index is out of range. *)
  Definition arr_step (n : nat) (a : nat -> V) (op : arr_op) : option ((nat -> V) * arr_out) :=
    match op with
    | AReset => Some ((fun _ => default), None)
    | ASet i v => if i <? n then Some ((fun j => if j =? i then v else a j), None) else None
    | AModify i f => if i <? n then Some ((fun j => if j =? i then f (a i) else a j), None) else None
    | AGet i => if i <? n then Some (a, Some (a i)) else None
    end.

  (** Outputs of a run up to and including the first panic ([None] as last element of the result). *)
  Fixpoint arr_run (n : nat) (a : nat -> V) (ops : list arr_op) : list (option arr_out) :=
    match ops with
    | [] => []
    | op :: ops' =>
        match arr_step n a op with
        | None => [None]
        | Some (a', o) => Some o :: arr_run n a' ops'
        end
    end.
End Arr.
Arguments AReset {V}. Arguments ASet {V}. Arguments AModify {V}. Arguments AGet {V}.

(** Same for an arbitrary implementation. *)
Fixpoint impl_run {S Op Out : Type} (step : S -> Op -> option (S * Out)) (s : S) (ops : list Op) : list (option Out) :=
  match ops with
  | [] => []
  | op :: ops' =>
      match step s op with
      | None => [None]
      | Some (s', o) => Some o :: impl_run step s' ops'
      end
  end.

(** Final state of a run ([None] if some call panicked). *)
Fixpoint impl_final {S Op Out : Type} (step : S -> Op -> option (S * Out)) (s : S) (ops : list Op) : option S :=
  match ops with
  | [] => Some s
  | op :: ops' => match step s op with None => None | Some (s', _) => impl_final step s' ops' end
  end.
