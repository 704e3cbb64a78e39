(** Model of engine/src/algo/minimal_nonshortest_subpaths.rs: filter_covered, the search for subpaths that are not (almost)
    shortest, with shortest path trees from Dijkstra's algorithm (MinimalNonShortestSubPathsDijkstra) or given abstractly,
    and the naive search that compares all pairs.
    Ranges [a..b] of positions on a path are pairs of [nat]. [dbg] = debug build: debug_assert!s panic, otherwise they are skipped.
    The tolerance [(shortest_dist as f64 * epsilon) as Weight] is a function [thr : N -> N]. Not modelled: report!(), timers. *)
From Verif Require Import Base SpecGraph BitVec Graph IndexHeap TsVec Dijkstra DijServer PLF.

Definition prange := (nat * nat)%type.

(** * filter_covered, l.419-447 *)
(** the comparator of the sort, l.420-427: by start, ties by descending end *)
Definition rg_ltb (a b : prange) : bool := (fst a <? fst b) || ((fst a =? fst b) && (snd b <? snd a)).
(** BTreeMap<usize, Vec<usize>> as list ordered by key. split_off(&k) keeps the keys below [k] and returns the others. *)
Definition btree := list (nat * list nat).
Definition bt_split_off (m : btree) (k : nat) : btree * btree := (filter (fun e => fst e <? k) m, filter (fun e => k <=? fst e) m).
(** entry(k).or_insert_with(Vec::new).push(i) *)
Fixpoint bt_push (m : btree) (k i : nat) : btree :=
  match m with
  | [] => [(k, [i])]
  | (k', l) :: m' => if k' =? k then (k', l ++ [i]) :: m' else if k <? k' then (k, [i]) :: m else (k', l) :: bt_push m' k i
  end.
(** body of the loop l.432-444 *)
Definition cover_step (st : bitvec * btree) (x : nat * prange) : option (bitvec * btree) :=
  let '(covered, active) := st in
  let '(i, r) := x in
  let active := snd (bt_split_off active (fst r)) in
  let '(active, active_and_covered) := bt_split_off active (snd r) in
  covered <- foldM (fun c e => foldM bv_set (snd e) c) active_and_covered covered ;;
  Some (covered, bt_push active (snd r) i).
(** retain(with_index(..)), l.446 *)
Fixpoint retain_uncovered (covered : bitvec) (l : list (nat * prange)) : option (list prange) :=
  match l with
  | [] => Some []
  | (i, r) :: l => c <- bv_get covered i ;; rest <- retain_uncovered covered l ;; Some (if (c : bool) then rest else r :: rest)
  end.
Definition numbered (l : list prange) : list (nat * prange) := combine (seq 0 (length l)) l.
Definition filter_covered (sort : list prange -> list prange) (ranges : list prange) : option (list prange) :=
  let ranges := sort ranges in
  '(covered, _) <- foldM cover_step (numbered ranges) (bv_new (length ranges), []) ;;
  retain_uncovered covered (numbered ranges).

(** * Positions of the path nodes and cycles (l.36-44, 79-88, 531-540, 601-610) *)
Definition ranks := list (option nat).
Definition note_step (st : ranks * list prange) (x : nat * nat) : option (ranks * list prange) :=
  let '(pr, vio) := st in
  let '(rank, node) := x in
  o <- nth_error pr node ;;
  pr <- set_at pr node (Some rank) ;;
  Some (pr, match o with Some prev => vio ++ [(prev, rank)] | None => vio end).
Definition note_ranks (path : list nat) (pr : ranks) : option (ranks * list prange) :=
  foldM note_step (combine (seq 0 (length path)) path) (pr, []).
(** l.46-48, 91-93, 110-112, 542-544, 613-615, 632-634 *)
Definition clear_ranks (path : list nat) (pr : ranks) : option ranks := foldM (fun pr v => set_at pr v None) path pr.
(** [path_ranks[node].value().unwrap()] *)
Definition rank_of (pr : ranks) (v : nat) : option nat := x <- nth_error pr v ;; x.

(** * path_dists, path_dist_iter, l.402-417: prefix sums of the cheapest arcs *)
Definition dassert {T} (dbg b : bool) (k : option T) : option T := if dbg && negb b then None else k.
Definition min_arc (dbg : bool) (g : fograph N) (u v : nat) : option N :=
  ids <- edge_indices g u v ;;
  m <- foldM (fun m e => '(_, w) <- link g e ;; Some (N.min m w)) ids INF ;;
  dassert dbg (negb (m =? INF)%N) (Some m).
Fixpoint dist_scan (dbg : bool) (g : fograph N) (state : N) (path : list nat) : option (list N) :=
  match path with
  | u :: ((v :: _) as rest) => m <- min_arc dbg g u v ;; s <- cadd state m ;; r <- dist_scan dbg g s rest ;; Some (s :: r)
  | _ => Some []
  end.
Definition path_dists (dbg : bool) (g : fograph N) (path : list nat) : option (list N) := r <- dist_scan dbg g 0 path ;; Some (0%N :: r).

(** * path_parent and reset_path_parent_cache, l.449-474. [pred v] = predecessors[v].0. The recursion follows the tree, at most one call per node. *)
Section Parents.
  Variable pred : nat -> option nat.
  Variable on_path : nat -> option bool.
  Fixpoint path_parent (fuel : nat) (cache : ranks) (node : nat) : option (ranks * nat) :=
    match fuel with
    | O => None
    | S fuel =>
        c <- nth_error cache node ;;
        match c with
        | Some pp => Some (cache, pp)
        | None =>
            p <- pred node ;; b <- on_path p ;;
            if (b : bool) then cache <- set_at cache node (Some p) ;; Some (cache, p)
            else '(cache, pp) <- path_parent fuel cache p ;; cache <- set_at cache node (Some pp) ;; Some (cache, pp)
        end
    end.
  Fixpoint reset_cache (fuel : nat) (cache : ranks) (node : nat) : option ranks :=
    match fuel with
    | O => None
    | S fuel =>
        c <- nth_error cache node ;;
        match c with
        | None => Some cache
        | Some _ => cache <- set_at cache node None ;; p <- pred node ;; reset_cache fuel cache p
        end
    end.
End Parents.
Definition all_none (cache : ranks) : bool := forallb (fun c => match c with None => true | Some _ => false end) cache.

(** * tree_find_minimal_nonshortest, l.262-395 and l.640-794.
    The two copies differ only in where distances and tree come from. A tree object [T] offers: [t_init t root path]: grow the tree of
    [root] as far as needed for the nodes of [path]; [t_dist]: the distance between a node and the root; [t_unpack]: make the tree path of
    a node available (CCH potentials only); [t_pred]: the tree. [tt] is the tree of shortest paths to the last node (target), [ts] that of shortest paths
    from the first node (source). *)
Section Tree.
  Context {T V : Type}.
  Variable dbg : bool.
  Variable n : nat.
  Variable t_init s_init : ranks -> T -> nat -> list nat -> option T.
  Variable t_dist s_dist : T -> nat -> option (T * N).
  Variable t_unpack s_unpack : T -> nat -> option T.
  Variable t_pred s_pred : T -> nat -> option nat.
  Variable found : V -> prange -> N -> N -> option (V * bool).

  (** the closures l.293-297, 336-340, 682-686, 735-739 (on the current part of the path, between [start] and [stop]) *)
  Definition in_window (pr : ranks) (start stop v : nat) : option bool :=
    o <- nth_error pr v ;;
    match o with
    | None => Some false
    | Some r => a <- rank_of pr start ;; if a <=? r then b <- rank_of pr stop ;; Some (r <=? b) else Some false
    end.
  (** [dists[path_ranks[v]]] *)
  Definition at_dist (dists : list N) (pr : ranks) (v : nat) : option N := r <- rank_of pr v ;; nth_error dists r.

  (** loop l.282-307, 672-696 on the pairs (node, next), resp. l.325-350, 725-749 on the pairs of the reversed path. [pdist node] = length of the path between
      [node] and the root; [comb] = max resp. min *)
  Section Scan.
    Variable dist : T -> nat -> option (T * N).
    Variable unpack : T -> nat -> option T.
    Variable tpred : T -> nat -> option nat.
    Variable pdist : nat -> option N.
    Variable comb : nat -> nat -> nat.
    Variable pr : ranks.
    Variables start stop : nat.
    Fixpoint scan (l : list nat) (t : T) (cache : ranks) (dev : option nat) (sub : nat) : option (T * ranks * option nat * nat) :=
      match l with
      | node :: ((next :: _) as rest) =>
          path_dist <- pdist node ;;
          '(t, shortest) <- dist t node ;;
          if (path_dist =? shortest)%N then Some (t, cache, dev, sub) else
          sub <- rank_of pr node ;;
          t <- unpack t node ;;
          p <- tpred t node ;;
          if negb (p =? next) && negb (shortest =? path_dist)%N then
            '(cache, _) <- path_parent (tpred t) (in_window pr start stop) n cache node ;;
            pp <- rank_of cache node ;; r <- rank_of pr pp ;;
            scan rest t cache (Some match dev with Some d => comb d r | None => r end) sub
          else scan rest t cache dev sub
      | _ => Some (t, cache, dev, sub)
      end.
    (** with the resets l.309-314, 352-357, 698-703, 751-756 *)
    Definition scan_reset (l path : list nat) (t : T) (cache : ranks) (sub : nat) : option (T * ranks * option nat * nat) :=
      '(t, cache, dev, sub) <- scan l t cache None sub ;;
      cache <- foldM (reset_cache (tpred t) (S n)) path cache ;;
      dassert dbg (all_none cache) (Some (t, cache, dev, sub)).
  End Scan.

  (** loops l.369-379, 380-390, 768-778, 779-789: report ranges until one is accepted. [mk i] is the range reported for the node with rank [i] *)
  Fixpoint report (dist : T -> nat -> option (T * N)) (pdist : nat -> option N) (base : N) (pr : ranks) (mk : nat -> prange) (l : list nat) (t : T) (v : V) : option (T * V) :=
    match l with
    | [] => Some (t, v)
    | node :: l =>
        path_dist <- (x <- pdist node ;; csubN x base) ;;
        '(t, x) <- dist t node ;; shortest <- csubN x base ;;
        r <- rank_of pr node ;;
        '(v, stop) <- found v (mk r) path_dist shortest ;;
        if (stop : bool) then Some (t, v) else report dist pdist base pr mk l t v
    end.

  (** one iteration of the while loop, l.273-393, 651-792. [inr]: break *)
  Definition tree_step (full : list nat) (dists : list N) (pr : ranks) (st : T * T * ranks * V * list nat) : option ((T * T * ranks * V * list nat) + (T * T * ranks * V)) :=
    let '(t, s, cache, v, path) := st in
    match path with
    | [] => Some (inr (t, s, cache, v))
    | start :: _ =>
        let stop := last path start in
        t <- t_init pr t stop path ;;
        let to_stop node := e <- at_dist dists pr stop ;; x <- at_dist dists pr node ;; csubN e x in
        let from_start node := x <- at_dist dists pr node ;; b <- at_dist dists pr start ;; csubN x b in
        sub0 <- rank_of pr start ;;
        '(t, cache, dev, t_sub) <- scan_reset t_dist t_unpack t_pred to_stop Nat.max pr start stop path path t cache sub0 ;;
        match dev with
        | None => Some (inr (t, s, cache, v))
        | Some t_dev =>
            s <- s_init pr s start path ;;
            sub1 <- rank_of pr stop ;;
            '(s, cache, dev, s_sub) <- scan_reset s_dist s_unpack s_pred from_start Nat.min pr start stop (rev path) path s cache sub1 ;;
            s_dev <- dev ;;
            t_node <- nth_error full t_dev ;; s_node <- nth_error full s_dev ;;
            t_base <- (e <- at_dist dists pr stop ;; x <- nth_error dists t_dev ;; csubN e x) ;;
            '(t, x) <- t_dist t t_node ;;
            s_base <- (x <- nth_error dists s_dev ;; b <- at_dist dists pr start ;; csubN x b) ;;
            '(s, y) <- s_dist s s_node ;;
            dassert dbg ((t_base =? x)%N && (s_base =? y)%N) (
            l1 <- slice full s_sub (t_dev + 1) ;;
            '(s, v) <- report s_dist from_start s_base pr (fun r => (s_dev, r)) l1 s v ;;
            l2 <- slice full s_dev (t_sub + 1) ;;
            '(t, v) <- report t_dist to_stop t_base pr (fun r => (r, t_dev)) (rev l2) t v ;;
            path <- slice full (s_dev + 1) t_dev ;;
            Some (inl (t, s, cache, v, path)))
        end
    end.
  (** the debug_assert l.265-267, 643-645 and the loop; every iteration drops the ends of the path *)
  Definition tree_find (full : list nat) (dists : list N) (pr : ranks) (t s : T) (cache : ranks) (v : V) : option (T * T * ranks * V) :=
    dassert dbg (forallb (fun '(i, v) => match rank_of pr v with Some r => r =? i | None => false end) (combine (seq 0 (length full)) full)) (
    loopN (N.of_nat (length full) + 1) (tree_step full dists pr) (t, s, cache, v, full)).
End Tree.

(** the closure of find_ubs_violating_subpaths, l.99-108, 621-630 *)
Definition ubs_found (dbg : bool) (thr : N -> N) (vio : list prange) (r : prange) (path_dist shortest : N) : option (list prange * bool) :=
  dassert dbg ((shortest <=? path_dist)%N && (0 <? shortest)%N) (
  x <- csubN path_dist shortest ;;
  Some (if (thr shortest <? x)%N then (vio ++ [r], true) else (vio, false))).
(** the closure of local_optimality, l.206-213 *)
Definition lo_found (lo : N) (r : prange) (path_dist shortest : N) : option (N * bool) :=
  Some (if (path_dist =? shortest)%N then (lo, false) else (N.min lo path_dist, true)).

(** * MinimalNonShortestSubPathsDijkstra, l.573-799. DijkstraData are created in new, l.585-595. *)
Section Dij.
  Variable dbg : bool.
  Variable g rg : fograph N.                     (** forward_graph, backward_graph *)
  Variable sort : list prange -> list prange.    (** sort_unstable_by with the comparator [rg_ltb] *)
  Variable thr : N -> N.

  Record ubs := mkUbs { u_fd : dij unit; u_bd : dij unit; u_cache : ranks; u_ranks : ranks }.
  (** new, l.585-595 *)
  Definition ubs_new : ubs :=
    mkUbs (dij_new (num_nodes g) tt) (dij_new (num_nodes g) tt) (repeat None (num_nodes g)) (repeat None (num_nodes g)).

  (** the searches l.656-667, 710-720: settle until all nodes of the path are settled *)
  Definition grow (links : nat -> option (list (nat * N))) (on_window : nat -> option bool) (d : dij unit) (root : nat) (path : list nat) : option (dij unit) :=
    d <- dij_init d root 0 ;;
    loopN (dij_fuel (num_nodes g)) (fun '(d, c) =>
      '(d', _, o) <- settle links fst def_lk def_pl all_edges no_cb zero_get d tt ;;
      match o with
      | None => Some (inr d')
      | Some u =>
          b <- on_window u ;;
          if (b : bool) then match c with O => None | S c => if c =? 0 then Some (inr d') else Some (inl (d', c)) end
          else Some (inl (d', c))
      end) (d, length path).
  Definition dij_dist (d : dij unit) (v : nat) : option (dij unit * N) := x <- ts_get N INF (d_dist d) v ;; Some (d, x).
  Definition dij_pred (d : dij unit) (v : nat) : option nat := '(u, _) <- nth_error (d_pred d) v ;; Some u.
  Definition window_of (pr : ranks) (path : list nat) : nat -> option bool := in_window pr (hd 0 path) (last path 0).
  Definition dij_tree {V} (found : V -> prange -> N -> N -> option (V * bool)) :=
    tree_find dbg (num_nodes g) (fun pr d root path => grow (link_iter rg) (window_of pr path) d root path)
      (fun pr d root path => grow (link_iter g) (window_of pr path) d root path) dij_dist dij_dist (fun d _ => Some d) (fun d _ => Some d) dij_pred dij_pred found.

  (** find_ubs_violating_subpaths, l.597-638 *)
  Definition ubs_find (u : ubs) (path : list nat) : option (ubs * list prange) :=
    dassert dbg (all_none (u_ranks u)) (
    '(pr, vio) <- note_ranks path (u_ranks u) ;;
    match vio with
    | _ :: _ => pr <- clear_ranks path pr ;; Some (mkUbs (u_fd u) (u_bd u) (u_cache u) pr, vio)
    | [] =>
        dists <- path_dists dbg g path ;;
        '(bd, fd, cache, vio) <- dij_tree (ubs_found dbg thr) path dists pr (u_bd u) (u_fd u) (u_cache u) [] ;;
        pr <- clear_ranks path pr ;;
        vio <- filter_covered sort vio ;;
        Some (mkUbs fd bd cache pr, vio)
    end).
  Definition ubs_history (u : ubs) (paths : list (list nat)) : option ubs := foldM (fun u p => '(u, _) <- ubs_find u p ;; Some u) paths u.
End Dij.
