(** Vocabulary for the statements about customizable contraction hierarchies. Independent of the model. *)
From Verif Require Import Base SpecGraph.
From Coq Require Import Sorting.Sorted.

(** strictly ascending *)
Definition ascending_list (l : list nat) : Prop := StronglySorted lt l.

(** The nodes of rank [x] and [y] are joined by an arc, in one direction or the other ([order] lists nodes by rank). *)
Definition touching {W} (adj : list (list (nat * W))) (order : list nat) (x y : nat) : Prop :=
  exists u v w, nth_error order x = Some u /\ nth_error order y = Some v /\
    (In (v, w) (nth u adj []) \/ In (u, w) (nth v adj [])).

(** [low_path E b x y]: a path from [x] to [y] whose inner nodes are all smaller than [b]. *)
Inductive low_path (E : nat -> nat -> Prop) (b : nat) : nat -> nat -> Prop :=
| lp_arc x y : E x y -> low_path E b x y
| lp_step x z y : E x z -> z < b -> low_path E b z y -> low_path E b x y.

(** Ancestors in a forest given by parent pointers (proper or not). *)
Inductive ancestor (par : list (option nat)) : nat -> nat -> Prop :=
| anc_refl x : ancestor par x x
| anc_step x p y : nth_error par x = Some (Some p) -> ancestor par p y -> ancestor par x y.

(** Same arcs in the same order, possibly other weights: "a metric for the graph". *)
Definition same_topology {W V} (a : list (list (nat * W))) (b : list (list (nat * V))) : Prop :=
  map (map fst) a = map (map fst) b.
Definition weights_ok (adj : list (list (nat * N))) : Prop := forall u v w, adj_arc adj u v w -> (w <= INF)%N.

(** Walking up in one graph from [s] and up in another one from [t] to a common node; [l] is the total length. *)
Definition meets (fw bw : nat -> nat -> N -> Prop) (s t : nat) (l : N) : Prop :=
  exists m a b, walk fw s m a /\ walk bw t m b /\ l = (a + b)%N.
