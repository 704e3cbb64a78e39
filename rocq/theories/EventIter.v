(** Model of engine/src/link_speed_estimates/event_iterator.rs (whole file) and of the two records of
    engine/src/link_speed_estimates/mod.rs l.9-21. The boxed input iterators are lists (they are only polled with [next]; a list
    iterator stays at its end, as slice iterators do). Event::Link / Event::Trace are inl / inr. [dbg] tells whether debug
    assertions are compiled in. None = panic. link_speed_estimator.rs (floating point) is not modelled. *)
From Coq Require Import List NArith Bool.
Import ListNotations.

(** mod.rs l.16-21 *)
Record link_data := Link { l_id : N; l_length : N; l_limit : N }.
(** mod.rs l.9-14; the f32 fraction is only passed on, its type is a parameter *)
Record trace_data (F : Type) := Trace { t_time : N; t_link : N; t_frac : F }.
Arguments Trace {F}. Arguments t_time {F}. Arguments t_link {F}. Arguments t_frac {F}.

Section Model.
  Context {F : Type}.
  Notation trace := (trace_data F).

  (** struct EventIterator, l.15-22; [ei_poll_links] is iterator_to_poll = Links (l.9-13) *)
  Record eit := EIt { ei_links : list link_data; ei_traces : list trace; ei_poll_links : bool; ei_link : option link_data; ei_trace : trace; ei_done : bool }.

  (** EventIterator::new, l.25-40; Err is None (inner), the two error texts are not distinguished *)
  Definition event_iter (ls : list link_data) (ts : list trace) : option eit :=
    match ls, ts with
    | l :: ls', t :: ts' => Some (EIt ls' ts' true (Some l) t false)
    | _, _ => None
    end.

  (** Iterator::next, l.46-87 *)
  Definition event_next (dbg : bool) (s : eit) : option (option (link_data + trace) * eit) :=
    if ei_done s then Some (None, s)                                              (* l.47-49 *)
    else if ei_poll_links s then                                                  (* l.52-64 *)
      match ei_link s with
      | None => None                                                              (* l.53 unwrap *)
      | Some l =>
        let poll := negb (N.eqb (l_id l) (t_link (ei_trace s))) in                (* l.55-59 *)
        Some (Some (inl l), EIt (tl (ei_links s)) (ei_traces s) poll (hd_error (ei_links s)) (ei_trace s) false) (* l.61-63 *)
      end
    else                                                                          (* l.65-85 *)
      match ei_traces s with
      | t :: ts =>                                                                (* l.69-77 *)
        let poll := negb (N.eqb (t_link (ei_trace s)) (t_link t)) in
        Some (Some (inr (ei_trace s)), EIt (ei_links s) ts poll (ei_link s) t false)
      | [] =>                                                                     (* l.78-81; debug_assert l.79 polls the links *)
        if dbg then
          match ei_links s with
          | [] => Some (Some (inr (ei_trace s)), EIt [] [] false (ei_link s) (ei_trace s) true)
          | _ => None
          end
        else Some (Some (inr (ei_trace s)), EIt (ei_links s) [] false (ei_link s) (ei_trace s) true)
      end.
End Model.
