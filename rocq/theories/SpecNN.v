(** Specification of k-nearest-neighbour queries. *)
From Verif Require Import Base SpecGraph.

(** the targets that have a distance, with it; [ans] are the answers for [targets] *)
Definition reached (targets : list nat) (ans : list (option N)) : list (N * nat) :=
  flat_map (fun tr => match snd tr with Some d => [(d, fst tr)] | None => [] end) (combine targets ans).

(** [res] are [k] nearest targets (all that can be reached if they are fewer) with their distances: together with [rest] they
    are the targets that can be reached, and none in [rest] is closer than one in [res]. A target listed twice counts twice. *)
Definition nearest (arc : nat -> nat -> N -> Prop) (source : nat) (targets : list nat) (k : nat) (res : list (N * nat)) : Prop :=
  exists ans rest, Forall2 (fun t r => exact_answer arc source t r) targets ans /\
    Permutation (reached targets ans) (res ++ rest) /\
    length res = Nat.min k (length (reached targets ans)) /\
    forall x y, In x res -> In y rest -> (fst x <= fst y)%N.
