(** Specification of the core of a graph and its bridges, in terms of node_type, bridge_node and the node order. *)
From Verif Require Import Base SpecGraph NodeOrder VTopo.

Section SpecVT.
  Context {W : Type}.
  Variable adj : list (list (nat * W)).
  (** an arc between two nodes, in either direction *)
  Definition linked (u v : nat) : Prop := exists w, In (v, w) (nth u adj []) \/ In (u, w) (nth v adj []).
  (** [p] lists the nodes of a chain of neighbours from [u] to [v] *)
  Inductive chain : nat -> list nat -> nat -> Prop :=
  | ch_nil u : chain u [u] u
  | ch_cons u x p v : linked u x -> chain x p v -> chain u (u :: p) v.
  (** number of outgoing plus incoming arcs *)
  Definition arcs_at (u : nat) : nat := length (nth u adj []) + length (filter (fun a => fst a =? u) (concat adj)).
End SpecVT.

(** an original node lies in the core; a rank names the bridge of an original node *)
Definition core_node (vt : vtopo) (u : nat) : Prop := exists r ty, no_rank (vt_order vt) u = Some r /\ node_type vt r = Some ty /\ in_core ty = true.
Definition bridge_of (vt : vtopo) (u b : nat) : Prop := exists r rb, no_rank (vt_order vt) u = Some r /\ bridge_node vt r = Some (Some rb) /\ no_node (vt_order vt) rb = Some b.
(** where a node is attached to the core: a core node at itself, another node at its bridge, if it has one *)
Definition attached (vt : vtopo) (u : nat) (o : option nat) : Prop :=
  core_node vt u /\ o = Some u \/
  ~ core_node vt u /\ match o with Some b => bridge_of vt u b | None => forall b, ~ bridge_of vt u b end.
(** two nodes attached to the core at different places *)
Definition apart (vt : vtopo) (u v : nat) : Prop := forall o, attached vt u o -> attached vt v o -> False.
(** the core contains a node of degree at most two, or is everything *)
Definition split_ok (n : nat) (vt : vtopo) : Prop := (exists r, node_type vt r = Some Deg2OrLess) \/ vt_core vt = n.

(** the inputs of C57's query theorem: a nonempty graph with u32 sizes, weights up to [INF] and fewer than [k] arcs at each node *)
Definition server_input (k : nat) (adj : list (list (nat * N))) : Prop :=
  valid_adj adj /\ fits_u32 adj /\ adj <> [] /\ (forall u v w, In (v, w) (nth u adj []) -> (w <= INF)%N) /\ (forall u, u < length adj -> arcs_at adj u < k).
