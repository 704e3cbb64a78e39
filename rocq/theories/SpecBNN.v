(** Assumptions about bucket based nearest neighbour queries. *)
From Verif Require Import Base SpecGraph.
From Coq Require Import Permutation Sorting.Sorted.

(** (target, distance) pairs by distance *)
Definition le_snd (x y : nat * N) : Prop := (snd x <= snd y)%N.
(** slice::sort_unstable_by_key with the distance as key: some order of the entries in which distances do not decrease *)
Definition bucket_sort (sort : list (nat * N) -> list (nat * N)) : Prop := forall l, Permutation l (sort l) /\ StronglySorted le_snd (sort l).
(** no arc is so long that n arcs of its length reach INFINITY; in particular there are no arcs of length INFINITY, which stand for
    directions that cannot be travelled *)
Definition light_arcs (n : nat) (lb : nat -> option (list (nat * N))) : Prop := forall u v w, garc lb u v w -> (N.of_nat n * w < INF)%N.
