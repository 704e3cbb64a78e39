(** Specification of local optimality and of fixed paths. Independent of the model. *)
From Verif Require Import Base SpecGraph SpecUBS.

Section Spec.
  Variable arc : nat -> nat -> N -> Prop.
  (** the subpath [r] has length [y] and is not shortest *)
  Definition nonshortest (p : list nat) (r : nat * nat) (y : N) : Prop :=
    fst r < snd r /\ exists u v d, nth_error p (fst r) = Some u /\ nth_error p (snd r) = Some v /\ plen arc (subpath p (fst r) (snd r)) y /\ is_dist arc u v d /\ (d < y)%N.
  (** the length of the shortest subpath that is not a shortest path, at most the length [x] of [p] *)
  Definition locally_optimal_up_to (p : list nat) (x lo : N) : Prop :=
    (lo <= x)%N /\ (forall r y, nonshortest p r y -> (lo <= y)%N) /\ (lo = x \/ exists r, nonshortest p r lo).
  (** no node repeats and no subpath exceeds the distance of its ends by more than the threshold *)
  Definition fine (thr : N -> N) (p : list nat) : Prop := NoDup p /\ forall r, ~ violates arc thr p r.
End Spec.
(** same first and same last node *)
Definition same_ends (p q : list nat) : Prop := hd_error p = hd_error q /\ hd_error (rev p) = hd_error (rev q).
(** a path of the graph with a length below INFINITY *)
Definition finite_path (adj : list (list (nat * N))) (p : list nat) (x : N) : Prop :=
  Forall (fun v => v < length adj) p /\ plen (adj_arc adj) p x /\ (x < INF)%N.
