(** Specification of time-dependent travel times, independent of the code.

    A travel time function is periodic and piecewise linear. It is given by points (departure, travel time).
    Between two neighbouring points it is the straight line, rounded down to whole units. *)
From Verif Require Import Base.

Definition ttf := list (N * N).

(** [p] and [q] are neighbouring points of [f]. *)
Definition consec (f : ttf) (p q : N * N) : Prop :=
  exists i, nth_error f i = Some p /\ nth_error f (S i) = Some q.

(** A travel time function over the period [P]:
    it starts at time 0; it is either a single point (a constant) or ends at time [P] with the travel time it
    starts with; departures increase strictly; and leaving later never means arriving earlier at the points. *)
Record valid_ttf (P : N) (f : ttf) : Prop := {
  vt_start : exists w0, nth_error f 0 = Some (0%N, w0);
  vt_end : exists p0 p, nth_error f 0 = Some p0 /\ nth_error f (length f - 1) = Some p /\ snd p = snd p0 /\
    (length f = 1 \/ fst p = P);
  vt_asc : forall p q, consec f p q -> (fst p < fst q)%N;
  vt_fifo : forall p q, consec f p q -> (fst p + snd p <= fst q + snd q)%N
}.

(** [w] is the value at [r] of the line through [p] and [q], rounded down:
    [w <= (snd p * (fst q - r) + snd q * (r - fst p)) / (fst q - fst p) < w + 1]. *)
Definition on_line (p q : N * N) (r w : N) : Prop :=
  (fst p <= r <= fst q /\
   (fst q - fst p) * w <= snd p * (fst q - r) + snd q * (r - fst p) < (fst q - fst p) * (w + 1))%N.

(** [w] is the travel time of [f] for departure [t]. *)
Definition ttf_value (P : N) (f : ttf) (t w : N) : Prop :=
  (length f = 1 /\ exists d, f = [(d, w)]) \/
  (exists p q, consec f p q /\ on_line p q (t mod P)%N w).

(** Leaving later never means arriving earlier. *)
Definition fifo (f : N -> N) : Prop := forall t t', (t <= t')%N -> (t + f t <= t' + f t')%N.

(** * Time-dependent graphs
    [nth u adj []] lists the arcs out of node [u], each with its travel time function. *)
Definition td_adj := list (list (nat * ttf)).

(** [e] is the id of the [k]-th arc out of [u]: arcs are numbered consecutively by tail. *)
Definition arc_at (adj : td_adj) (u e v : nat) (f : ttf) : Prop :=
  exists k, nth_error (nth u adj []) k = Some (v, f) /\ e = length (concat (firstn u adj)) + k.

(** Heads are nodes, functions are valid, departures plus travel times stay below [bound]. *)
Definition wf_td (P bound : N) (adj : td_adj) : Prop :=
  forall u e v f, arc_at adj u e v f ->
    v < length adj /\ valid_ttf P f /\ forall p, In p f -> (fst p + snd p < bound)%N.

(** Leaving [u] at time [d] one can be at [v] at time [d']. *)
Definition td_step (P : N) (adj : td_adj) (u : nat) (d : N) (v : nat) (d' : N) : Prop :=
  exists e f w, arc_at adj u e v f /\ ttf_value P f d w /\ d' = (d + w)%N.

(** The same for travel times given as functions of the arc id. *)
Definition tt_step (adj : td_adj) (tt : nat -> N -> N) (u : nat) (d : N) (v : nat) (d' : N) : Prop :=
  exists e f, arc_at adj u e v f /\ d' = (d + tt e d)%N.

(** [pred e] is the travel time function of arc [e]. *)
Definition td_pred (P : N) (adj : td_adj) (pred : nat -> N -> N) : Prop :=
  forall u e v f, arc_at adj u e v f -> forall t, ttf_value P f t (pred e t).

(** Raw data: what a user may hand over for one arc. One point is a constant function. With more points departures
    increase strictly within the period and the function is FIFO, also from the last point to the first point of
    the next day. If it covers the whole period, it has to end with the value it starts with. *)
Record raw_ttf (P : N) (r : ttf) : Prop := {
  rt_ne : r <> [];
  rt_asc : forall p q, consec r p q -> (fst p < fst q)%N;
  rt_fifo : forall p q, consec r p q -> (fst p + snd p <= fst q + snd q)%N;
  rt_wrap : forall p q, nth_error r 0 = Some p -> nth_error r (length r - 1) = Some q -> 1 < length r ->
    (fst q <= P /\ fst q + snd q <= P + snd p)%N /\ (fst q = P -> snd q = snd p)
}.

(** How raw data is completed to a function over the whole period: the value of the first point is used from
    time 0 on, and it is the value reached at the end of the period. *)
Definition completes (P : N) (r f : ttf) : Prop :=
  match r with
  | [] => False
  | [(_, w)] => f = [(0%N, w)]
  | (d0, w0) :: _ =>
      f = (if (d0 =? 0)%N then [] else [(0%N, w0)]) ++ r ++ (if (fst (last r (0, 0)) =? P)%N then [] else [(P, w0)])
  end.

(** * Live traffic *)

(** Live value until [soon], then a transition with slope -1 or +1 to the predicted travel time. *)
Definition overlay (pred : N -> N) (o : option N) (soon t : N) : N :=
  match o with
  | None => pred t
  | Some live =>
      if (t <? soon)%N then live
      else if (pred soon <? live)%N then N.max (live + soon - t) (pred t)
      else N.min (live + (t - soon)) (pred t)
  end.

(** Pessimistic combination: the larger of prediction and live value; the live value is valid until [soon] and never
    worse than waiting until then. *)
Definition pess (pred : N -> N) (o : option (N * N)) (t : N) : N :=
  match o with
  | None => pred t
  | Some (live, soon) => if (soon <=? t)%N then pred t else N.max (pred t) (N.min live (pred soon + (soon - t)))
  end.
