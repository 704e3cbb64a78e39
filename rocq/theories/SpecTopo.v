(** Specification of graphs with degree information and of capped queries. *)
From Verif Require Import Base SpecGraph TopoDij.

(** A degree report is usable when it is defined for all nodes and a node reported as having degree at most two
    (exactly three) has, apart from arcs leading back, at most one (two) outgoing arcs for each node with an arc to it.
    Reporting "four or more" is always fine. *)
Definition out_other (links : nat -> option (list (nat * N))) (u v : nat) : list (nat * N) :=
  match links v with Some ls => filter (fun a => negb (fst a =? u)) ls | None => [] end.
Definition degree_report (n : nat) (links : nat -> option (list (nat * N))) (sdeg : nat -> option symdeg) : Prop :=
  (forall v, v < n -> sdeg v <> None) /\
  forall u v w, u < n -> garc links u v w ->
    (sdeg v = Some LessEqTwo -> length (out_other links u v) <= 1) /\ (sdeg v = Some Three -> length (out_other links u v) <= 2).

(** Potentials that bound the remaining distance from below (values at most [2^32 - 1 - INF]). *)
Definition lower_bounds (arc : nat -> nat -> N -> Prop) (t : nat) (h : nat -> option N) : Prop :=
  (forall u l, walk arc u t l -> (l < INF)%N -> exists p, h u = Some p /\ (p <= l)%N) /\
  (forall v p, h v = Some p -> (p + INF < U32)%N).

(** What a query with a cap may answer: only lengths of walks, and none longer than any walk within the cap
    (so the exact distance if that is at most the cap). *)
Definition capped_answer (arc : nat -> nat -> N -> Prop) (cap : N) (s t : nat) (r : option N) : Prop :=
  (forall x, r = Some x -> (x < INF)%N /\ walk arc s t x) /\
  (forall l, walk arc s t l -> (l < INF)%N -> (l <= cap)%N -> exists x, r = Some x /\ (x <= l)%N).
