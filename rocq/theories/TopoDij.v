(** Model of engine/src/algo/dijkstra/gen_topo_dijkstra.rs (TopoDijkstraRun: Dijkstra that walks through nodes of
    degree at most two, and through one node of degree three per arc, without queueing them) and of the
    SkipLowDegServer of engine/src/algo/ch_potentials/query.rs. Counters and report!() calls are not modelled, nor
    are the edge_callback and inspect closures (empty in all modelled callers). *)
From Verif Require Import Base IndexHeap TsVec Dijkstra DijServer PLF.

(** SymmetricDeg, gen_topo_dijkstra.rs l.302-306 *)
Inductive symdeg := LessEqTwo | Three | GreaterEqFour.

(** ChainStep, l.275-279 *)
Record cstep (P : Type) := mkCS { cs_prev : nat * P; cs_node : nat; cs_dist : N }.
Arguments mkCS {P}. Arguments cs_prev {P}. Arguments cs_node {P}. Arguments cs_dist {P}.

Section Topo.
  Context {A P E : Type}.
  Variable n : nat.                                   (** graph.num_nodes(); only used for the loop bounds *)
  Variable links : nat -> option (list A).            (** LinkIterable::link_iter *)
  Variable hd : A -> nat.                             (** Arc::head *)
  Variable lk : nat -> N -> A -> option N.            (** DijkstraOps::link *)
  Variable pl : A -> P.                               (** DijkstraOps::predecessor_link *)
  Variable sdeg : nat -> option symdeg.               (** SymmetricDegreeGraph::symmetric_degree *)
  Variables skip2 skip3 : bool.                       (** SKIP_DEG_2, SKIP_DEG_3 *)
  Variable cb : E -> nat -> N -> option (E * bool).   (** improve_callback *)
  Variable pot : E -> nat -> option (E * option N).   (** potential (the label it also gets is not used by any modelled caller) *)

  (** the loop over the arcs of a degree two node, l.163-167: the last arc that does not lead back to [p] *)
  Definition last_other (p : nat) (ls : list A) : option A :=
    fold_left (fun o a => if negb (hd a =? p) then Some a else o) ls None.
  (** the loop over the arcs of a degree three node, l.185-193: the first arc that does not lead back, and the
      last further one *)
  Definition first_others (p : nat) (ls : list A) : option A * option A :=
    fold_left (fun '(f, g) a => if negb (hd a =? p) then match f with None => (Some a, g) | Some _ => (f, Some a) end else (f, g)) ls (None, None).

  (** state of the while loop: search, closure state, chain, deg_three, had_deg_three *)
  Definition cstate := (dij P * E * option (cstep P) * option (nat * A) * bool)%type.

  (** l.226-241: when the chain has ended, go on with the second arc of the degree three node *)
  Definition take_three (d : dij P) (e : E) (chain : option (cstep P)) (three : option (nat * A)) (had : bool) : option cstate :=
    match chain, three with
    | None, Some (w, a) =>
        dw <- ts_get N INF (d_dist d) w ;;
        x <- lk w dw a ;;
        Some (d, e, Some (mkCS (w, pl a) (hd a) x), None, had)
    | _, _ => Some (d, e, chain, three, had)
    end.

  (** one iteration of the while loop, l.144-242, with the chain taken *)
  Definition chain_step (d : dij P) (e : E) (cs : cstep P) (three : option (nat * A)) (had : bool) : option cstate :=
    let v := cs_node cs in
    let x := cs_dist cs in
    old <- ts_get N INF (d_dist d) v ;;
    t <- ts_modify N INF (d_dist d) v (fun l => if (x <? l)%N then x else l) ;;      (* merge *)
    if (x <? old)%N then
      nd <- ts_get N INF t v ;;
      sd <- sdeg v ;;
      '(e, next_edge, three, had, endpoint) <-
        (match sd with
         | LessEqTwo =>
             if negb skip2 then Some (e, None, three, had, true)
             else ls <- links v ;; Some (e, last_other (fst (cs_prev cs)) ls, three, had, false)
         | Three =>
             c <- (if negb skip3 || had then Some true else hcontains (d_queue d) v) ;;
             if (c : bool) then Some (e, None, three, had, true)
             else
               '(e1, _) <- cb e v nd ;;
               ls <- links v ;;
               let '(f, g) := first_others (fst (cs_prev cs)) ls in
               Some (e1, f, match g with Some a => Some (v, a) | None => three end, true, false)
         | GreaterEqFour => Some (e, None, three, had, true)
         end) ;;
      pr <- set_at (d_pred d) v (cs_prev cs) ;;
      match (next_edge : option A) with
      | Some a =>
          y <- lk v nd a ;;
          take_three (mkDij t pr (d_queue d)) e (Some (mkCS (v, pl a) (hd a) y)) three had
      | None =>
          if (endpoint : bool) then
            '(e1, b) <- cb e v nd ;;
            if (b : bool) then
              '(e2, p) <- pot e1 v ;;
              match p with
              | Some p =>
                  k <- cadd p nd ;;
                  c <- hcontains (d_queue d) v ;;
                  q <- (if (c : bool) then hdecrease state st_idx st_ltb (d_queue d) (k, v) else hpush state st_idx st_ltb (d_queue d) (k, v)) ;;
                  take_three (mkDij t pr q) e2 None three had
              | None => take_three (mkDij t pr (d_queue d)) e2 None three had
              end
            else take_three (mkDij t pr (d_queue d)) e1 None three had
          else take_three (mkDij t pr (d_queue d)) e None three had
      end
    else take_three (mkDij t (d_pred d) (d_queue d)) e None three had.

  (** the body of the for loop over the arcs of the settled node, l.132-243 *)
  Definition topo_edge (u : nat) (st : dij P * E) (a : A) : option (dij P * E) :=
    let '(d, e) := st in
    du <- ts_get N INF (d_dist d) u ;;
    x <- lk u du a ;;
    loopN (dij_fuel n) (fun '(d, e, chain, three, had) =>
      match chain with
      | None => Some (inr (d, e))
      | Some cs => s <- chain_step d e cs three had ;; Some (inl s)
      end) (d, e, Some (mkCS (u, pl a) (hd a) x), None, false).

  (** settle_next_node, l.125-247 *)
  Definition topo_settle (d : dij P) (e : E) : option (dij P * E * option nat) :=
    '(q, o) <- hpop state st_idx st_ltb (d_queue d) ;;
    match o with
    | None => Some (mkDij (d_dist d) (d_pred d) q, e, None)
    | Some (_, u) =>
        ls <- links u ;;
        '(d', e') <- foldM (topo_edge u) ls (mkDij (d_dist d) (d_pred d) q, e) ;;
        Some (d', e', Some u)
    end.

  (** reinit_queue (called by continue_query), l.71-77 *)
  Definition topo_reinit (d : dij P) (v : nat) : option (dij P) :=
    q <- hclear state st_idx (d_queue d) ;;
    x <- ts_get N INF (d_dist d) v ;;
    q' <- hpush state st_idx st_ltb q (x, v) ;;
    Some (mkDij (d_dist d) (d_pred d) q').
End Topo.

Section Skip.
  Context {A P E : Type}.
  Variable n : nat.
  Variable links : nat -> option (list A).
  Variable hd : A -> nat.
  Variable lk : nat -> N -> A -> option N.
  Variable pl : A -> P.
  Variable sdeg : nat -> option symdeg.
  Variables skip2 skip3 : bool.
  Variable pot_init : E -> nat -> option E.
  Variable pot_get : E -> nat -> option (E * option N).
  Notation topo_settle' := (topo_settle n links hd lk pl sdeg skip2 skip3 no_cb pot_get).

  (** the while loop of distance_manually_initialized, query.rs l.432-445 *)
  Definition skip_loop (to : nat) (target_pot cap : N) (d : dij P) (e : E) : option (dij P * E) :=
    loopN (dij_fuel n) (fun '(d, e) =>
      '(d', e', o) <- topo_settle' d e ;;
      match o with
      | None => Some (inr (d', e'))
      | Some _ =>
          match hpeek (d_queue d') with
          | Some (k, _) =>
              x <- ts_get N INF (d_dist d') to ;;
              b <- cadd x target_pot ;;
              if (b <=? k)%N || (cap <? k)%N then Some (inr (d', e')) else Some (inl (d', e'))
          | None => Some (inl (d', e'))
          end
      end) (d, e).

  (** distance_manually_initialized, query.rs l.419-457 *)
  Definition skip_run (d : dij P) (e : E) (from to : nat) (cap : N) : option (dij P * E * option N) :=
    departure <- ts_get N INF (d_dist d) from ;;
    '(e1, tp) <- pot_get e to ;;
    match tp with
    | None => Some (d, e1, None)
    | Some tp =>
        '(d', e') <- skip_loop to tp cap d e1 ;;
        x <- ts_get N INF (d_dist d') to ;;
        if (x <? INF)%N then r <- csubN x departure ;; Some (d', e', Some r) else Some (d', e', None)
    end.

  (** SkipLowDegServer::distance, query.rs l.408-417; [d0] = query.initial_state() *)
  Definition skip_distance (sv : server P E) (from to : nat) (d0 cap : N) : option (server P E * option N) :=
    d <- dij_init (sv_dij sv) from d0 ;;
    e <- pot_init (sv_pot sv) to ;;
    '(d', e', r) <- skip_run d e from to cap ;;
    Some (mkSv d' e', r).

  (** one_to_all, query.rs l.492-503: no potential (Neutral() + key = key), runs until the queue is empty *)
  Definition skip_one_to_all (sv : server P E) (from : nat) : option (server P E) :=
    d <- dij_init (sv_dij sv) from 0 ;;
    d' <- loopN (dij_fuel n) (fun d =>
      '(d', _, o) <- topo_settle n links hd lk pl sdeg skip2 skip3 no_cb zero_get d tt ;;
      match o with None => Some (inr d') | Some _ => Some (inl d') end) d ;;
    Some (mkSv d' (sv_pot sv)).
End Skip.

(** Histories of a SkipLowDegServer on a static graph (DefaultOps): queries with a cap (distance_with_cap; the plain
    query method has cap INF, query.rs l.614) and one_to_all. *)
Inductive skip_op := SkQuery (from to : nat) (cap : N) | SkAll (from : nat).
Section SkipHistory.
  Context {E : Type}.
  Variable n : nat.
  Variable links : nat -> option (list (nat * N)).
  Variable sdeg : nat -> option symdeg.
  Variables skip2 skip3 : bool.
  Variable pot_init : E -> nat -> option E.
  Variable pot_get : E -> nat -> option (E * option N).
  Definition sk_distance (sv : server unit E) (from to : nat) (cap : N) : option (server unit E * option N) :=
    skip_distance n links fst def_lk def_pl sdeg skip2 skip3 pot_init pot_get sv from to 0 cap.
  Definition sk_all (sv : server unit E) (from : nat) : option (server unit E) :=
    skip_one_to_all n links fst def_lk def_pl sdeg skip2 skip3 sv from.
  Definition sk_step (sv : server unit E) (op : skip_op) : option (server unit E) :=
    match op with
    | SkQuery from to cap => '(sv', _) <- sk_distance sv from to cap ;; Some sv'
    | SkAll from => sk_all sv from
    end.
  (** SkipLowDegServer::new, query.rs l.392-400, followed by a sequence of operations *)
  Definition sk_history (e : E) (ops : list skip_op) : option (server unit E) := foldM sk_step ops (sv_new n tt e).
End SkipHistory.
(** existing nodes only *)
Definition sk_ok (n : nat) (op : skip_op) : Prop :=
  match op with SkQuery from to _ => from < n /\ to < n | SkAll from => from < n end.
