(** Reachability in a graph given by adjacency lists, weights ignored. *)
From Verif Require Import Base.

Definition has_arc {W} (adj : list (list (nat * W))) (u v : nat) : Prop := exists w, In (v, w) (nth u adj []).

Inductive leads_to {W} (adj : list (list (nat * W))) : nat -> nat -> Prop :=
| lt_refl u : leads_to adj u u
| lt_step u v t : has_arc adj u v -> leads_to adj v t -> leads_to adj u t.

(** at least [k] nodes can reach [t] *)
Definition reached_from_many {W} (adj : list (list (nat * W))) (t k : nat) : Prop :=
  exists l, NoDup l /\ length l = k /\ forall x, In x l -> x < length adj /\ leads_to adj x t.
