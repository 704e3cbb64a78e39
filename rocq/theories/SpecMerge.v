(** Specification of greedy merging of metrics. A metric is a list of weights; a group of metrics is a list of indices. *)
From Verif Require Import Base.

(** lowest weight of arc [e] among the metrics of group [g] *)
Definition gweight (metrics : list (list N)) (g : list nat) (e : nat) : N :=
  let ws := map (fun a => nth e (nth a metrics []) 0%N) g in fold_right N.min (hd 0%N ws) ws.

(** sum of the squared differences between two groups over the first [m] arcs *)
Fixpoint gdist (metrics : list (list N)) (g h : list nat) (m : nat) : N :=
  match m with
  | 0 => 0%N
  | S m' => (gdist metrics g h m' + (N.max (gweight metrics g m') (gweight metrics h m') - N.min (gweight metrics g m') (gweight metrics h m')) ^ 2)%N
  end.

(** groups [i] and [j] are different and not empty *)
Definition live_pair (groups : list (list nat)) (i j : nat) : Prop :=
  i < j /\ nth i groups [] <> [] /\ nth j groups [] <> [].

(** [i], [j] is the closest pair of groups, the first one in lexicographic order among several *)
Definition closest (metrics : list (list N)) (m : nat) (groups : list (list nat)) (i j : nat) : Prop :=
  live_pair groups i j /\
  forall a b, live_pair groups a b ->
    let d := gdist metrics (nth i groups []) (nth j groups []) m in
    let d' := gdist metrics (nth a groups []) (nth b groups []) m in
    (d < d')%N \/ (d = d' /\ (i < a \/ (i = a /\ j <= b))).

(** [greedy metrics m t groups groups']: joining the closest pair [t] times leads from [groups] to [groups'] *)
Inductive greedy (metrics : list (list N)) (m : nat) : nat -> list (list nat) -> list (list nat) -> Prop :=
| greedy_nil : forall gs, greedy metrics m 0 gs gs
| greedy_cons : forall t gs i j gs', closest metrics m gs i j ->
    greedy metrics m t (upd (upd gs j []) i (nth i gs [] ++ nth j gs [])) gs' -> greedy metrics m (S t) gs gs'.

(** at first each metric is a group of its own *)
Definition singletons (k : nat) : list (list nat) := map (fun a => [a]) (seq 0 k).

(** the groups left *)
Definition nonempty (groups : list (list nat)) : list (list nat) := filter (fun g => match g with [] => false | _ => true end) groups.

(** sums of squared differences stay below 2^64 *)
Definition no_u64_overflow (metrics : list (list N)) (m : nat) : Prop :=
  exists D, (forall a b e, a < length metrics -> b < length metrics -> e < m -> (nth e (nth a metrics []) 0 <= nth e (nth b metrics []) 0 + D)%N) /\
    (N.of_nat m * D ^ 2 < 2 ^ 64)%N.
