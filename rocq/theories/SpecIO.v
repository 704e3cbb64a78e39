(** Vocabulary for statements about stored data. Files are byte strings; a byte is a number below 256. *)
From Coq Require Export String.
From Verif Require Export Base.
Open Scope nat_scope.
Open Scope list_scope.

(** contents of the files by path; [None]: no such file *)
Definition files := string -> option (list N).

(** Memory representation of a plain (Copy) element type: [r_size] bytes, [r_valid] says which numbers (or tuples)
    are values of the type. *)
Record repr (T : Type) := mkRepr { r_size : nat; r_valid : T -> Prop; r_enc : T -> list N; r_dec : list N -> T }.
Arguments mkRepr {T}. Arguments r_size {T}. Arguments r_valid {T}. Arguments r_enc {T}. Arguments r_dec {T}.
Record repr_ok {T} (r : repr T) : Prop := {
  ro_size : 0 < r_size r;
  ro_len : forall x, r_valid r x -> List.length (r_enc r x) = r_size r;
  ro_bytes : forall x b, r_valid r x -> In b (r_enc r x) -> (b < 256)%N;
  ro_dec : forall x, r_valid r x -> r_dec r (r_enc r x) = x }.

(** little endian *)
Fixpoint le_bytes (k : nat) (x : N) : list N := match k with O => [] | S k => (x mod 256)%N :: le_bytes k (x / 256)%N end.
Fixpoint le_value (l : list N) : N := match l with [] => 0%N | b :: l => (b + 256 * le_value l)%N end.
(** unsigned integers of [k] bytes: u8, u32, u64, usize; f32 and f64 by their bit patterns *)
Definition uint_repr (k : nat) : repr N := mkRepr k (fun x => (x < 256 ^ N.of_nat k)%N) (le_bytes k) le_value.
(** signed integers of [k] bytes, two's complement *)
Definition int_repr (k : nat) : repr Z :=
  mkRepr k (fun z => (- 2 ^ (8 * Z.of_nat k - 1) <= z < 2 ^ (8 * Z.of_nat k - 1))%Z)
    (fun z => le_bytes k (Z.to_N (z mod 2 ^ (8 * Z.of_nat k)))%Z)
    (fun l => let x := Z.of_N (le_value l) in (if x <? 2 ^ (8 * Z.of_nat k - 1) then x else x - 2 ^ (8 * Z.of_nat k))%Z).
(** tuples without padding *)
Definition pair_repr {A B} (a : repr A) (b : repr B) : repr (A * B) :=
  mkRepr (r_size a + r_size b) (fun x => r_valid a (fst x) /\ r_valid b (snd x)) (fun x => r_enc a (fst x) ++ r_enc b (snd x))
    (fun l => (r_dec a (firstn (r_size a) l), r_dec b (skipn (r_size a) l))).
(** ids: u32 numbers as [nat] *)
Definition id_repr : repr nat :=
  mkRepr 4 (fun x => (N.of_nat x < 256 ^ 4)%N) (fun x => le_bytes 4 (N.of_nat x)) (fun l => N.to_nat (le_value l)).
