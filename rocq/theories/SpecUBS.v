(** Specification of subpaths that are not (almost) shortest. Independent of the model. Positions on a path are counted from 0, a subpath is given by the
    positions (a, b) of its first and last node. *)
From Verif Require Import Base SpecGraph.
From Coq Require Import Sorting.Sorted.

(** [r] satisfies [R] and no other range inside of it does *)
Definition inclusion_minimal (R : nat * nat -> Prop) (r : nat * nat) : Prop :=
  R r /\ forall r', R r' -> fst r <= fst r' -> snd r' <= snd r -> r' = r.
(** both starts and ends strictly ascend *)
Definition ascending_ranges (l : list (nat * nat)) : Prop := StronglySorted (fun a b => fst a < fst b /\ snd a < snd b) l.
(** [l] lists exactly the minimal ranges of [R], in order, each once *)
Definition lists_minimal (R : nat * nat -> Prop) (l : list (nat * nat)) : Prop :=
  ascending_ranges l /\ forall r, In r l <-> inclusion_minimal R r.

Section Subpaths.
  Variable arc : nat -> nat -> N -> Prop.
  Definition cheapest (u v : nat) (w : N) : Prop := arc u v w /\ forall w', arc u v w' -> (w <= w')%N.
  (** [plen p x]: [x] is the length of the node sequence [p], walking the cheapest arcs *)
  Inductive plen : list nat -> N -> Prop :=
  | plen_one u : plen [u] 0
  | plen_cons u v p w x : cheapest u v w -> plen (v :: p) x -> plen (u :: v :: p) (w + x).
  Definition subpath (p : list nat) (a b : nat) : list nat := firstn (b - a + 1) (skipn a p).
  (** the subpath (a, b) exceeds the distance [d] between its ends by more than [thr d] *)
  Definition violates (thr : N -> N) (p : list nat) (r : nat * nat) : Prop :=
    fst r < snd r /\ exists u v x d, nth_error p (fst r) = Some u /\ nth_error p (snd r) = Some v /\
      plen (subpath p (fst r) (snd r)) x /\ is_dist arc u v d /\ (d + thr d < x)%N.
End Subpaths.

(** consecutive visits of the same node *)
Definition revisit (p : list nat) (r : nat * nat) : Prop :=
  fst r < snd r /\ exists v, nth_error p (fst r) = Some v /\ nth_error p (snd r) = Some v /\
    forall i, fst r < i < snd r -> nth_error p i <> Some v.

(** the node sequences asked for: the nodes exist and, if no node repeats, consecutive nodes are joined by arcs and the length is below INFINITY *)
Definition good_path (adj : list (list (nat * N))) (p : list nat) : Prop :=
  Forall (fun v => v < length adj) p /\ (NoDup p -> p = [] \/ exists x, plen (adj_arc adj) p x /\ (x < INF)%N).

(** sort_unstable_by: some permutation of the elements, ascending according to the comparator [ltb] *)
Definition cmp_sort {T} (ltb : T -> T -> bool) (sort : list T -> list T) : Prop :=
  forall l, Permutation.Permutation l (sort l) /\ StronglySorted (fun a b => ltb b a = false) (sort l).
