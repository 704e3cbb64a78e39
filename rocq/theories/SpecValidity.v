(** Specification of weights with validities on the arcs of a CCH. Independent of the customization. *)
From Verif Require Import Base SpecGraph CCH.

(** the arc [e] of the CCH goes from [x] up to [y] *)
Definition cch_arc (c : cch) (e x y : nat) : Prop :=
  exists a b, nth_error (c_fo c) x = Some a /\ nth_error (c_fo c) (x + 1) = Some b /\ a <= e < b /\ nth_error (c_head c) e = Some y.
(** from [x] one can get to [y] with at most [w] *)
Definition at_most (arc : nat -> nat -> N -> Prop) (x y : nat) (w : N) : Prop := exists l, walk arc x y l /\ (l <= w)%N.
(** [metric t] are the arc weights at time [t]. Every weight below INFINITY is an upper bound of the distance at all times from its validity on. *)
Definition valid_bounds (metric : N -> nat -> nat -> N -> Prop) (c : cch) (up dn upv dnv : list N) : Prop :=
  forall e x y, cch_arc c e x y ->
    (forall w v t, nth_error up e = Some w -> nth_error upv e = Some v -> (w < INF)%N -> (v <= t)%N -> at_most (metric t) x y w) /\
    (forall w v t, nth_error dn e = Some w -> nth_error dnv e = Some v -> (w < INF)%N -> (v <= t)%N -> at_most (metric t) y x w).
(** weights only decrease, the validity changes only with the weight, and only to some validity given *)
Definition refines (given ws vs ws' vs' : list N) : Prop :=
  length ws' = length ws /\ length vs' = length vs /\
  forall e w v w' v', nth_error ws e = Some w -> nth_error vs e = Some v -> nth_error ws' e = Some w' -> nth_error vs' e = Some v' ->
    (w' <= w)%N /\ (w' = w -> v' = v) /\ In v' given.
