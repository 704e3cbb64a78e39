(** Model of engine/src/util/in_range_option.rs. [s] is the sentinel of the payload type, [eqb] its PartialEq;
    an InRangeOption is just the payload. *)
From Verif Require Import Base.
Section Model.
Context {T : Type} (eqb : T -> T -> bool) (s : T).
(** l.46 NONE *)
Definition iro_none : T := s.
(** l.48-52 some *)
Definition iro_some (v : T) : option T := _ <- guard (negb (eqb v s)) ;; Some v.
(** l.54-63 new *)
Definition iro_new (o : option T) : option T := match o with Some v => _ <- guard (negb (eqb v s)) ;; Some v | None => Some s end.
(** l.65-73 value *)
Definition iro_value (x : T) : option T := if negb (eqb x s) then Some x else None.
(** l.75-78 assume_some with its debug assertion *)
Definition iro_assume (x : T) : option T := _ <- guard (match iro_value x with Some _ => true | None => false end) ;; Some x.
End Model.
(** l.11-33: the sentinels and equality of the payload types *)
Definition sent_u32 : N := 4294967295.
Definition sent_u64 : N := 18446744073709551615.
Definition sent_i32 : Z := (-2147483648)%Z.
Definition pair_eqb (a b : N * N) : bool := (fst a =? fst b)%N && (snd a =? snd b)%N.
Definition triple_eqb (a b : N * N * N) : bool := pair_eqb (fst a) (fst b) && (snd a =? snd b)%N.
Definition sent_pair : N * N := (sent_u32, sent_u32).
Definition sent_triple : N * N * N := (sent_u32, sent_u32, sent_u32).
