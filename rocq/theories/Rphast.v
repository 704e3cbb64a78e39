(** Model of engine/src/algo/rphast.rs: RPHAST::{new, select}, RPHASTQuery::{new, query}, RPHASTResult::distance.
    The graphs are given by their link iterators, [ranks] is the rank array of the node order.
    SSERPHASTQuery is not modelled. *)
From Verif Require Import Base BitVec IndexHeap TsVec Graph Dijkstra DijServer.

(** l.4-15. InRangeOption<NodeId> entries are options; the stack is empty between calls and lives in [rp_select] *)
Record rphast := mkRp { rp_ids : list (option nat); rp_nodes : list nat; rp_first : list nat; rp_head : list nat; rp_weight : list N }.

(** l.18-31 *)
Definition rp_new (n : nat) : rphast := mkRp (repeat None n) [] [0] [] [].

(** l.55-61: the first upward neighbour without a local id *)
Fixpoint rp_open (ids : list (option nat)) (ls : list (nat * N)) : option (option nat) :=
  match ls with
  | [] => Some None
  | (v, _) :: ls => i <- nth_error ids v ;; match i with None => Some (Some v) | Some _ => rp_open ids ls end
  end.

(** l.62-73: number [node] and copy its arcs. InRangeOption::some panics for u32::MAX; [as EdgeId] would truncate, which
    the guard reports as a failure *)
Definition rp_finish (r : rphast) (node : nat) (ls : list (nat * N)) : option rphast :=
  let c := length (rp_nodes r) in
  _ <- guard (N.of_nat c <? U32MAX)%N ;;
  ids <- set_at (rp_ids r) node (Some c) ;;
  hs <- mapM (fun a => i <- nth_error ids (fst a) ;; i) ls ;;
  let head := rp_head r ++ hs in
  _ <- guard (N.of_nat (length head) <? U32)%N ;;
  Some (mkRp ids (rp_nodes r ++ [node]) (rp_first r ++ [length head]) head (rp_weight r ++ map snd ls)).

(** l.49-74: the loop over the stack (top first) *)
Definition rp_step (links : nat -> option (list (nat * N))) (st : list nat * rphast) : option ((list nat * rphast) + rphast) :=
  let '(stack, r) := st in
  match stack with
  | [] => Some (inr r)
  | node :: rest =>
      i <- nth_error (rp_ids r) node ;;
      match i with
      | Some _ => Some (inl (rest, r))
      | None =>
          ls <- links node ;;
          o <- rp_open (rp_ids r) ls ;;
          match o with
          | Some v => Some (inl (v :: stack, r))
          | None => r' <- rp_finish r node ls ;; Some (inl (rest, r'))
          end
      end
  end.
Definition rp_fuel (n : nat) : N := ((N.of_nat n + 1) * (N.of_nat n + 2) + 2)%N.

(** l.33-77 *)
Definition rp_select (n : nat) (ranks : list nat) (links : nat -> option (list (nat * N))) (r : rphast) (nodes : list nat) : option rphast :=
  ids <- foldM (fun ids node => set_at ids node None) (rp_nodes r) (rp_ids r) ;;
  foldM (fun r node =>
    node <- nth_error ranks node ;;
    loopN (rp_fuel n) (rp_step links) ([node], r)) nodes (mkRp ids [] (firstn 1 (rp_first r)) [] []).

(** l.92-95 *)
Record rpquery := mkRq { rq_dist : list N; rq_dij : dij unit }.
(** l.98-104 *)
Definition rq_new (n : nat) : rpquery := mkRq (repeat INF n) (dij_new n tt).

(** l.125-130: body of the sweep *)
Definition rp_relax (r : rphast) (node : nat) (dist : list N) (e : nat) : option (list N) :=
  head <- nth_error (rp_head r) e ;;
  weight <- nth_error (rp_weight r) e ;;
  hd <- nth_error dist head ;;
  x <- cadd hd weight ;;
  old <- nth_error dist node ;;
  set_at dist node (N.min old x).
(** l.121-133 *)
Definition rp_sweep (r : rphast) (dist : list N) : option (list N) :=
  foldM (fun dist node =>
    a <- nth_error (rp_first r) node ;;
    b <- nth_error (rp_first r) (node + 1) ;;
    foldM (rp_relax r node) (seq a (b - a)) dist) (seq 0 (length (rp_nodes r))) dist.

(** l.106-136 *)
Definition rp_query (n : nat) (ranks : list nat) (links : nat -> option (list (nat * N))) (r : rphast) (q : rpquery) (node : nat) : option rpquery :=
  let k := length (rp_nodes r) in
  _ <- guard (k <=? length (rq_dist q)) ;;
  let dist := repeat INF k ++ skipn k (rq_dist q) in
  s <- nth_error ranks node ;;
  d <- dij_init (rq_dij q) s 0 ;;
  '(d, dist) <- loopN (dij_fuel n) (fun '(d, dist) =>
      '(d', _, o) <- settle links fst def_lk def_pl all_edges no_cb zero_get d tt ;;
      match o with
      | None => Some (inr (d', dist))
      | Some u =>
          i <- nth_error (rp_ids r) u ;;
          match i with
          | Some i => x <- ts_get N INF (d_dist d') u ;; dist <- set_at dist i x ;; Some (inl (d', dist))
          | None => Some (inl (d', dist))
          end
      end) (d, dist) ;;
  dist <- rp_sweep r dist ;;
  Some (mkRq dist d).

(** l.142-144 *)
Definition rp_distance (ranks : list nat) (r : rphast) (q : rpquery) (node : nat) : option N :=
  v <- nth_error ranks node ;;
  i <- nth_error (rp_ids r) v ;;
  i <- i ;;
  nth_error (rq_dist q) i.

(** Histories of a selection object and a query object *)
Inductive rp_op := RpSelect (nodes : list nat) | RpQuery (node : nat).
Definition rp_do (n : nat) (ranks : list nat) (lf lb : nat -> option (list (nat * N))) (st : rphast * rpquery) (op : rp_op) : option (rphast * rpquery) :=
  match op with
  | RpSelect nodes => r <- rp_select n ranks lb (fst st) nodes ;; Some (r, snd st)
  | RpQuery node => q <- rp_query n ranks lf (fst st) (snd st) node ;; Some (fst st, q)
  end.
Definition rp_history (n : nat) (ranks : list nat) (lf lb : nat -> option (list (nat * N))) (ops : list rp_op) : option (rphast * rpquery) :=
  foldM (rp_do n ranks lf lb) ops (rp_new n, rq_new n).
