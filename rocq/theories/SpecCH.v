(** Contraction hierarchies, independent of how they were computed. *)
From Verif Require Import Base SpecGraph SpecCCH.

(** A graph on ranks 0..n-1 (given by its link iterator) all of whose arcs lead to higher ranks. *)
Definition upward (n : nat) (links : nat -> option (list (nat * N))) : Prop :=
  forall u, u < n -> exists ls, links u = Some ls /\ forall v w, In (v, w) ls -> u < v /\ v < n /\ (w <= INF)%N.

(** [lf] and [lb] are a hierarchy for the graph [arc]: walking up in [lf] from the rank of [u] and up in [lb] from the
    rank of [v] to a common rank yields only lengths of walks from [u] to [v] and, for every walk, a length at most as long. *)
Record hierarchy (n : nat) (arc : nat -> nat -> N -> Prop) (order ranks : list nat) (lf lb : nat -> option (list (nat * N))) : Prop := {
  hi_order : node_order n order ranks;
  hi_fw : upward n lf;
  hi_bw : upward n lb;
  hi_sound : forall x y u v l, nth_error order x = Some u -> nth_error order y = Some v ->
    meets (garc lf) (garc lb) x y l -> (l < INF)%N -> walk arc u v l;
  hi_complete : forall x y u v l, nth_error order x = Some u -> nth_error order y = Some v ->
    walk arc u v l -> (l < INF)%N -> exists l', meets (garc lf) (garc lb) x y l' /\ (l' <= l)%N }.

(** node and arc counts fit into 32 bit *)
Definition out_degree (links : nat -> option (list (nat * N))) (u : nat) : nat := match links u with Some l => length l | None => 0 end.
Definition few_arcs (n : nat) (links : nat -> option (list (nat * N))) : Prop :=
  (N.of_nat n < 4294967295)%N /\ (N.of_nat (list_sum (map (out_degree links) (seq 0 n))) < 4294967296)%N.

(** no two arcs between the same two different nodes *)
Definition no_parallel (adj : list (list (nat * N))) : Prop := forall u v, u <> v -> length (filter (fun a => fst a =? v) (nth u adj [])) <= 1.
(** no arc is more than [K] times as long as a path between its ends *)
Definition stretch (adj : list (list (nat * N))) (K : N) : Prop :=
  forall u v w l, u <> v -> adj_arc adj u v w -> walk (adj_arc adj) u v l -> (w <= K * l)%N.
(** whenever there is a path, there is one that is not longer and of length at most [D] *)
Definition diameter (adj : list (list (nat * N))) (D : N) : Prop :=
  forall u v l, walk (adj_arc adj) u v l -> exists l', walk (adj_arc adj) u v l' /\ (l' <= l)%N /\ (l' <= D)%N.
