(** Model of engine/src/algo/contraction_hierarchy/query.rs. The forward and backward graphs are given by their link
    iterators, [ranks] and [order] are the two arrays of the node order. *)
From Verif Require Import Base IndexHeap TsVec Graph Dijkstra DijServer.

(** Server, l.10-18 (the graphs, the order and the middle nodes are parameters of the functions below) *)
Record chserver := mkHS { hs_fw : dij unit; hs_bw : dij unit; hs_meet : nat }.
(** new, l.21-32 *)
Definition hs_new (n : nat) : chserver := mkHS (dij_new n tt) (dij_new n tt) 0.

(** state of one of the two searches of [distance], l.42-49: Dijkstra data, progress, done *)
Definition chdir := (dij unit * N * bool)%type.

(** l.54-69 and l.71-86: settle the next node of one search; [goal] is the root of the other search, [other] its data *)
Definition ch_advance (links : nat -> option (list (nat * N))) (goal : nat) (d : chdir) (other : dij unit) (tm : N * nat) : option (chdir * (N * nat)) :=
  let '(dd, p, done) := d in
  '(dd', _, o) <- settle links fst def_lk def_pl all_edges no_cb zero_get dd tt ;;
  match o with
  | Some node =>
      dist <- ts_get N INF (d_dist dd') node ;;
      od <- ts_get N INF (d_dist other) node ;;
      x <- cadd dist od ;;
      Some ((dd', dist, if node =? goal then true else done), if (x <? fst tm)%N then (x, node) else tm)
  | None => Some ((dd', p, true), tm)
  end.

(** one evaluation of the condition and of the body of the while loop, l.52-88; [from] and [to] are ranks *)
Definition ch_step (lf lb : nat -> option (list (nat * N))) (from to : nat) (st : chdir * chdir * (N * nat)) : option ((chdir * chdir * (N * nat)) + (chdir * chdir * (N * nat))) :=
  let '(f, b, tm) := st in
  let '(fd, fp, fdone) := f in
  let '(bd, bp, bdone) := b in
  let tent := fst tm in
  if ((fp <? tent)%N || (bp <? tent)%N) && negb (fdone && bdone) then
    if bdone || ((fp <=? bp)%N && negb fdone) then
      '(f', tm') <- ch_advance lf to f bd tm ;; Some (inl (f', b, tm'))
    else
      '(b', tm') <- ch_advance lb from b fd tm ;; Some (inl (f, b', tm'))
  else Some (inr st).

(** Bound for the loop: every round shrinks one of the searches or ends it. *)
Definition ch_fuel (n : nat) : N := (2 * dij_fuel n + 2)%N.

(** distance, l.34-92 *)
Definition ch_distance (n : nat) (ranks : list nat) (lf lb : nat -> option (list (nat * N))) (sv : chserver) (from to : nat) : option (chserver * option N) :=
  from <- nth_error ranks from ;;
  to <- nth_error ranks to ;;
  fd <- dij_init (hs_fw sv) from 0 ;;
  bd <- dij_init (hs_bw sv) to 0 ;;
  '((fd', _, _), (bd', _, _), (tent, m)) <- loopN (ch_fuel n) (ch_step lf lb from to) ((fd, 0%N, false), (bd, 0%N, false), (INF, hs_meet sv)) ;;
  Some (mkHS fd' bd' m, if (tent =? INF)%N then None else Some tent).

(** any sequence of queries on one server object *)
Definition ch_history (n : nat) (ranks : list nat) (lf lb : nat -> option (list (nat * N))) (sv : chserver) (qs : list (nat * nat)) : option chserver :=
  foldM (fun sv '((s, t) : nat * nat) => '(sv', _) <- ch_distance n ranks lf lb sv s t ;; Some sv') qs sv.

(** edge_indices(from, to).next(): index of the first arc of [from] with head [to] (datastr/graph/first_out_graph.rs,
    LinkIterable/EdgeIdGraph); [first] is the first_out array *)
Fixpoint pos_of (ls : list (nat * N)) (v : nat) : option nat :=
  match ls with
  | [] => None
  | (h, _) :: ls => if h =? v then Some 0 else option_map S (pos_of ls v)
  end.
Definition edge_ix (first : list nat) (links : nat -> option (list (nat * N))) (u v : nat) : option nat :=
  ls <- links u ;; f <- nth_error first u ;; p <- pos_of ls v ;; Some (f + p).

(** one direction of path, l.104-118 and l.123-137: [acc] is the list under construction with its growing end first,
    [stop] the id the growing end is compared with. The inner while loop: *)
Definition ch_unpack_step (n : nat) (first : list nat) (links : nat -> option (list (nat * N))) (mids : list nat) (pred : list (nat * unit))
  (st : list nat * list nat) : option ((list nat * list nat) + list nat) :=
  let '(stack, acc) := st in
  match stack with
  | [] => Some (inr acc)
  | node :: rest =>
      front <- hd_error acc ;;
      '(next, _) <- nth_error pred front ;;
      e <- edge_ix first links node next ;;
      middle <- nth_error mids e ;;
      if middle <? n then Some (inl (middle :: node :: rest, acc)) else Some (inl (rest, node :: acc))
  end.
(** the outer while loop *)
Definition ch_walk_back (fuel : N) (n : nat) (first : list nat) (links : nat -> option (list (nat * N))) (mids : list nat) (pred : list (nat * unit))
  (meet stop : nat) : option (list nat) :=
  loopN fuel (fun acc =>
    front <- hd_error acc ;;
    if front =? stop then Some (inr acc) else
    '(next, _) <- nth_error pred front ;;
    acc' <- loopN fuel (ch_unpack_step n first links mids pred) ([next], acc) ;;
    Some (inl acc')) [meet].

(** path, l.96-146: [from] and [to] are the fields of the query, which are node ids; [mids] is shortcut_middle_nodes *)
Definition ch_path (fuel : N) (n : nat) (order : list nat) (ff fb : list nat) (lf lb : nat -> option (list (nat * N))) (mids : option (list nat * list nat))
  (sv : chserver) (from to : nat) : option (list nat) :=
  '(fm, bm) <- mids ;;
  fp <- ch_walk_back fuel n ff lf fm (d_pred (hs_fw sv)) (hs_meet sv) from ;;
  bp <- ch_walk_back fuel n fb lb bm (d_pred (hs_bw sv)) (hs_meet sv) to ;;
  mapM (fun x => nth_error order x) (removelast fp ++ rev bp).
