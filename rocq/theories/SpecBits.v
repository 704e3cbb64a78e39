(** Abstract index sets: a set of indices is a boolean function. *)
From Verif Require Import Base.

(** number of [i < n] with [f i] *)
Fixpoint count (f : nat -> bool) (n : nat) : nat :=
  match n with O => O | S n' => count f n' + (if f n' then 1 else 0) end.

Inductive bits_op :=
| BSet (i : nat) | BUnset (i : nat) | BUnsetAround (i : nat) | BSetAll | BClear
| BGet (i : nat) | BCount | BLen.
Inductive bits_out := BoUnit | BoBool (b : bool) | BoNat (n : nat).

(** [None] = panic, exactly for indices out of range *)
Definition bits_step (n : nat) (s : nat -> bool) (op : bits_op) : option ((nat -> bool) * bits_out) :=
  match op with
  | BSet i => if i <? n then Some ((fun j => (j =? i) || s j), BoUnit) else None
  | BUnset i => if i <? n then Some ((fun j => negb (j =? i) && s j), BoUnit) else None
  (** clears the aligned window of 64 indices containing [i] *)
  | BUnsetAround i => if i <? n then Some ((fun j => negb (j / 64 =? i / 64) && s j), BoUnit) else None
  | BSetAll => Some ((fun _ => true), BoUnit)
  | BClear => Some ((fun _ => false), BoUnit)
  | BGet i => if i <? n then Some (s, BoBool (s i)) else None
  | BCount => Some (s, BoNat (count s n))
  | BLen => Some (s, BoNat n)
  end.

Fixpoint bits_run (n : nat) (s : nat -> bool) (ops : list bits_op) : list (option bits_out) :=
  match ops with
  | [] => []
  | op :: ops' => match bits_step n s op with None => [None] | Some (s', o) => Some o :: bits_run n s' ops' end
  end.

(** Histories of a set that is only filled and cleared. *)
Inductive fc_op := FSet (i : nat) | FClear.
(** the set after a history (latest operation last) *)
Definition fc_set_after (ops : list fc_op) : nat -> bool :=
  fold_left (fun s op => match op with FSet i => fun j => (j =? i) || s j | FClear => fun _ => false end) ops (fun _ => false).
