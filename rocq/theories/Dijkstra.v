(** Model of engine/src/algo/dijkstra.rs, dijkstra/generic_dijkstra.rs (DijkstraRun) and
    dijkstra/query/dijkstra.rs (Server). Counters (num_relaxed_arcs, num_queue_pushs) and report!() calls are
    not modelled. *)
From Verif Require Import Base IndexHeap TsVec.

(** Iterate [step] until it yields a result ([inr]), at most [fuel] times; [None] = panic or out of fuel.
    Models [loop]/[while]; the theorems show that the fuel given never runs out. *)
Fixpoint loop_pos {S R} (p : positive) (step : S -> option (S + R)) (s : S) : option (S + R) :=
  match p with
  | xH => step s
  | xO q => r <- loop_pos q step s ;; match r with inl s' => loop_pos q step s' | inr r' => Some (inr r') end
  | xI q => r <- step s ;;
            match r with
            | inl s1 => r <- loop_pos q step s1 ;; match r with inl s' => loop_pos q step s' | inr r' => Some (inr r') end
            | inr r' => Some (inr r')
            end
  end.
Definition loopN {S R} (fuel : N) (step : S -> option (S + R)) (s : S) : option R :=
  match fuel with
  | N0 => None
  | Npos p => r <- loop_pos p step s ;; match r with inl _ => None | inr r' => Some r' end
  end.

(** dijkstra.rs l.25-36: State { key, node }, index = node, derived lexicographic order *)
Definition state := (N * nat)%type.
Definition st_idx (x : state) : nat := snd x.
Definition st_ltb (a b : state) : bool := (fst a <? fst b)%N || ((fst a =? fst b)%N && (snd a <? snd b)).

(** DijkstraData, dijkstra.rs l.79-83; the label type is Weight with neutral element INFINITY *)
Record dij (P : Type) := mkDij { d_dist : tsvec N; d_pred : list (nat * P); d_queue : heap state }.
Arguments mkDij {P}. Arguments d_dist {P}. Arguments d_pred {P}. Arguments d_queue {P}.

Section Run.
  Context {A P E : Type}.
  Variable links : nat -> option (list A).            (** LinkIterable::link_iter *)
  Variable hd : A -> nat.                             (** Arc::head *)
  Variable lk : nat -> N -> A -> option N.            (** DijkstraOps::link: tail, label of tail, arc *)
  Variable pl : A -> P.                               (** DijkstraOps::predecessor_link *)
  Variable epred : A -> bool.                         (** edge_predicate (pure) *)
  Variable cb : E -> nat -> N -> option (E * bool).   (** improve_callback; [E] is the state captured by the closures *)
  Variable pot : E -> nat -> option (E * option N).   (** potential *)

  (** DijkstraData::new_with_pred_link, dijkstra.rs l.94-100 *)
  Definition dij_new (n : nat) (p0 : P) : dij P := mkDij (ts_new N INF n) (repeat (n, p0) n) (hnew n).

  (** add_start_node, generic_dijkstra.rs l.61-70 (only field .0 of the predecessor entry is written) *)
  Definition add_start (d : dij P) (s : nat) (l0 : N) : option (dij P) :=
    q <- hpush state st_idx st_ltb (d_queue d) (l0, s) ;;
    t <- ts_modify N INF (d_dist d) s (fun _ => l0) ;;
    '(_, p) <- nth_error (d_pred d) s ;;
    pr <- set_at (d_pred d) s (s, p) ;;
    Some (mkDij t pr q).

  (** initialize, l.55-59 *)
  Definition dij_init (d : dij P) (s : nat) (l0 : N) : option (dij P) :=
    q <- hclear state st_idx (d_queue d) ;;
    add_start (mkDij (ts_reset N INF (d_dist d)) (d_pred d) q) s l0.

  (** body of the loop of settle_next_node, l.117-139; merge is the one of all Ops with Label = Weight
      (dijkstra.rs l.181-187, l.217-223, l.251-257): replace if smaller *)
  Definition relax (u : nat) (st : dij P * E) (a : A) : option (dij P * E) :=
    let '(d, e) := st in
    if negb (epred a) then Some (d, e) else
    du <- ts_get N INF (d_dist d) u ;;
    x <- lk u du a ;;
    old <- ts_get N INF (d_dist d) (hd a) ;;
    t <- ts_modify N INF (d_dist d) (hd a) (fun l => if (x <? l)%N then x else l) ;;
    if (x <? old)%N then
      pr <- set_at (d_pred d) (hd a) (u, pl a) ;;
      nd <- ts_get N INF t (hd a) ;;
      '(e1, b) <- cb e (hd a) nd ;;
      if (b : bool) then
        '(e2, p) <- pot e1 (hd a) ;;
        match p with
        | Some p =>
            k <- cadd p nd ;;
            let next := (k, hd a) in
            c <- hcontains (d_queue d) (hd a) ;;
            q <- (if (c : bool) then hdecrease state st_idx st_ltb (d_queue d) next else hpush state st_idx st_ltb (d_queue d) next) ;;
            Some (mkDij t pr q, e2)
        | None => Some (mkDij t pr (d_queue d), e2)
        end
      else Some (mkDij t pr (d_queue d), e1)
    else Some (mkDij t (d_pred d) (d_queue d), e).

  (** settle_next_node, l.109-144 *)
  Definition settle (d : dij P) (e : E) : option (dij P * E * option nat) :=
    '(q, o) <- hpop state st_idx st_ltb (d_queue d) ;;
    match o with
    | None => Some (mkDij (d_dist d) (d_pred d) q, e, None)
    | Some (_, u) =>
        ls <- links u ;;
        '(d', e') <- foldM (relax u) ls (mkDij (d_dist d) (d_pred d) q, e) ;;
        Some (d', e', Some u)
    end.

  (** Bound for the settle loops: a settle shrinks the queue by one or lowers labels (all at most INFINITY). *)
  Definition dij_fuel (n : nat) : N := (N.of_nat n * (2 * INF + 1) + 1)%N.

  (** the loop of Server::distance, query/dijkstra.rs l.57-63: settle until [to] is settled *)
  Definition run_until (n to : nat) (d : dij P) (e : E) : option (dij P * E * option N) :=
    loopN (dij_fuel n) (fun '(d, e) =>
      '(d', e', o) <- settle d e ;;
      match o with
      | None => Some (inr (d', e', None))
      | Some u => if u =? to then x <- ts_get N INF (d_dist d') u ;; Some (inr (d', e', Some x)) else Some (inl (d', e'))
      end) (d, e).

  (** DijkstraData::node_path, dijkstra.rs l.102-113: predecessors from [to] back to [from], then reversed.
      The loop runs at most once per node. *)
  Fixpoint back_nodes (fuel : nat) (pr : list (nat * P)) (from cur : nat) : option (list nat) :=
    if cur =? from then Some [cur] else
    match fuel with
    | O => None
    | S fuel => '(u, _) <- nth_error pr cur ;; r <- back_nodes fuel pr from u ;; Some (cur :: r)
    end.
  Definition node_path (d : dij P) (from to : nat) : option (list nat) :=
    r <- back_nodes (length (d_pred d)) (d_pred d) from to ;; Some (rev r).
  (** edge_path, l.115-127 *)
  Fixpoint back_links (fuel : nat) (pr : list (nat * P)) (from cur : nat) : option (list P) :=
    if cur =? from then Some [] else
    match fuel with
    | O => None
    | S fuel => '(u, p) <- nth_error pr cur ;; r <- back_links fuel pr from u ;; Some (p :: r)
    end.
  Definition edge_path (d : dij P) (from to : nat) : option (list P) :=
    r <- back_links (length (d_pred d)) (d_pred d) from to ;; Some (rev r).
End Run.
