(** Model of engine/src/datastr/graph/first_out_graph.rs, graph.rs and link_id_to_tail_mapper.rs.
    Node and edge ids are [nat] (u32 in the code; FirstOutGraph::new asserts that both counts are below
    u32::MAX, so no id computation wraps), payloads (weights, edge ids) have an arbitrary type [W]. *)
From Verif Require Import Base BitVec.

Section FirstOut.
  Variable W : Type.

  (** first_out_graph.rs l.15-28 *)
  Record fograph := mkFo { first_out : list nat; head : list nat; weight : list W }.

  Definition U32MAX : N := 4294967295.

  (** new, l.52-65 *)
  Definition fo_new (fo hd : list nat) (wt : list W) : option fograph :=
    _ <- guard (N.of_nat (length fo) <? U32MAX)%N ;;
    _ <- guard (N.of_nat (length hd) <? U32MAX)%N ;;
    f <- nth_error fo 0 ;; _ <- guard (f =? 0) ;;
    l <- nth_error fo (length fo - 1) ;; _ <- guard (l =? length hd) ;;
    _ <- guard (length wt =? length hd) ;;
    Some (mkFo fo hd wt).

  (** num_nodes l.214-216 (on a constructed graph first_out is not empty), num_arcs l.218-220 *)
  Definition num_nodes (g : fograph) : nat := length (first_out g) - 1.
  Definition num_arcs (g : fograph) : nat := length (head g).
  (** degree, l.222-225 *)
  Definition degree (g : fograph) (u : nat) : option nat :=
    b <- nth_error (first_out g) (u + 1) ;; a <- nth_error (first_out g) u ;; Some (b - a).
  (** SlcsIdx::range, util.rs l.145-147; neighbor_edge_indices l.297-299 *)
  Definition range (g : fograph) (u : nat) : option (nat * nat) :=
    a <- nth_error (first_out g) u ;; b <- nth_error (first_out g) (u + 1) ;; Some (a, b).
  (** link_iter, l.237-243 *)
  Definition link_iter (g : fograph) (u : nat) : option (list (nat * W)) :=
    '(a, b) <- range g u ;; h <- slice (head g) a b ;; w <- slice (weight g) a b ;; Some (combine h w).
  (** link_iter with edge ids, l.347-354 *)
  Definition link_iter_ids (g : fograph) (u : nat) : option (list (nat * W * nat)) :=
    '(a, b) <- range g u ;; h <- slice (head g) a b ;; w <- slice (weight g) a b ;;
    Some (combine (combine h w) (seq a (b - a))).
  (** edge_indices, l.292-294 *)
  Definition edge_indices (g : fograph) (u v : nat) : option (list nat) :=
    '(a, b) <- range g u ;;
    foldM (fun acc e => h <- nth_error (head g) e ;; Some (if h =? v then acc ++ [e] else acc)) (seq a (b - a)) [].
  (** EdgeRandomAccessGraph::link, l.309-314 *)
  Definition link (g : fograph) (e : nat) : option (nat * W) :=
    h <- nth_error (head g) e ;; w <- nth_error (weight g) e ;; Some (h, w).

  (** degrees_to_first_out, l.622-627: [once(0).chain(degrees.scan(0, ..))] *)
  Fixpoint scan_sum (s : nat) (ds : list nat) : list nat :=
    match ds with [] => [] | d :: ds' => (s + d) :: scan_sum (s + d) ds' end.
  Definition degrees_to_first_out (ds : list nat) : list nat := 0 :: scan_sum 0 ds.

  (** from_adjancecy_lists, l.112-126; Vecs::from_iters (util.rs l.99-110) is the same computation *)
  Definition from_adjacency_lists (adj : list (list (nat * W))) : option fograph :=
    let fo := degrees_to_first_out (map (@length _) adj) in
    let l := concat adj in
    fo_new fo (map fst l) (map snd l).

  (** The sequence of pairs visited by [for node in 0..n { for link in graph.link_iter(node) {..} }]. *)
  Definition arc_seq (links : nat -> option (list (nat * W))) (n : nat) : option (list (nat * (nat * W))) :=
    ls <- mapM (fun u => l <- links u ;; Some (map (fun a => (u, a)) l)) (seq 0 n) ;; Some (concat ls).

  (** BuildReversed for OwnedGraph, l.130-163; same code for UnweightedOwnedGraph (l.492-526, payload unit,
      without the assertions of [new]) and ReversedGraphWithEdgeIds (l.556-593, payload edge id).
      [dflt] is the filler of [vec![0; m]]. *)
  Definition incr_at (l : list nat) (i : nat) : option (list nat) := d <- nth_error l i ;; set_at l i (d + 1).
  Definition rev_count (fo : list nat) (a : nat * (nat * W)) : option (list nat) :=
    let '(_, (v, _)) := a in incr_at fo (v + 1).
  Fixpoint prefix_sums (s : nat) (l : list nat) : list nat :=
    match l with [] => [] | d :: l' => (s + d) :: prefix_sums (s + d) l' end.
  Definition rev_scatter (st : list nat * list nat * list W) (a : nat * (nat * W)) : option (list nat * list nat * list W) :=
    let '(fo, hd, wt) := st in
    let '(u, (v, w)) := a in
    idx <- nth_error fo v ;;
    fo' <- incr_at fo v ;;
    hd' <- set_at hd idx u ;;
    wt' <- set_at wt idx w ;;
    Some (fo', hd', wt').
  Definition rev_shift (fo : list nat) (node : nat) : option (list nat) :=
    x <- nth_error fo (node - 1) ;; set_at fo node x.
  Definition reversed (dflt : W) (n m : nat) (links : nat -> option (list (nat * W))) : option fograph :=
    arcs <- arc_seq links n ;;
    fo1 <- foldM rev_count arcs (repeat 0 (n + 1)) ;;
    let fo2 := prefix_sums 0 fo1 in
    '(fo3, hd, wt) <- foldM rev_scatter arcs (fo2, repeat 0 m, repeat dflt m) ;;
    fo4 <- foldM rev_shift (rev (seq 1 (n - 1))) fo3 ;;
    fo5 <- set_at fo4 0 0 ;;
    fo_new fo5 hd wt.

  (** BuildPermutated for OwnedGraph, l.167-188. [order] lists the nodes by rank, [rank] is its inverse
      array (NodeOrder), [sort] stands for sort_unstable_by_key on the rank (any sorted permutation is
      allowed by its contract). [predicate] is called once per link; a pure predicate is assumed. *)
  Definition permutated_filtered (sort : (nat * W -> nat) -> list (nat * W) -> list (nat * W))
      (n : nat) (links : nat -> option (list (nat * W))) (order ranks : list nat)
      (predicate : nat -> nat -> bool) : option fograph :=
    let rank v := nth_error ranks v in
    '(fo, hd, wt) <- foldM (fun st '(r, node) =>
        let '(fo, hd, wt) := st in
        ls <- links node ;;
        kept <- foldM (fun acc l => rv <- rank (fst l) ;; Some (if predicate r rv then acc ++ [l] else acc)) ls [] ;;
        last <- nth_error fo (length fo - 1) ;;
        let fo' := fo ++ [last + length kept] in
        let sorted := sort (fun l => nth (fst l) ranks 0) kept in
        hs <- mapM (fun l => rank (fst l)) sorted ;;
        Some (fo', hd ++ hs, wt ++ map snd sorted))
      (combine (seq 0 (length order)) order) ([0], [], []) ;;
    fo_new fo hd wt.

  (** LinkIterGraph::ch_split, graph.rs l.111-127 *)
  Definition ch_split (n : nat) (links : nat -> option (list (nat * W))) (ranks : list nat) : option (fograph * fograph) :=
    arcs <- arc_seq links n ;;
    '(up, down) <- foldM (fun st a =>
        let '(up, down) := st in
        let '(u, (v, w)) := a in
        ru <- nth_error ranks u ;; rv <- nth_error ranks v ;;
        if ru <? rv
        then l <- nth_error up u ;; up' <- set_at up u (l ++ [(v, w)]) ;; Some (up', down)
        else l <- nth_error down v ;; down' <- set_at down v (l ++ [(u, w)]) ;; Some (up, down'))
      arcs (repeat [] n, repeat [] n) ;;
    g1 <- from_adjacency_lists up ;; g2 <- from_adjacency_lists down ;; Some (g1, g2).
End FirstOut.
Arguments mkFo {W}. Arguments first_out {W}. Arguments head {W}. Arguments weight {W}.
Arguments fo_new {W}. Arguments num_nodes {W}. Arguments num_arcs {W}. Arguments degree {W}. Arguments range {W}.
Arguments link_iter {W}. Arguments link_iter_ids {W}. Arguments edge_indices {W}. Arguments link {W}.
Arguments from_adjacency_lists {W}. Arguments arc_seq {W}. Arguments reversed {W}.
Arguments permutated_filtered {W}. Arguments ch_split {W}.
Arguments rev_count {W}. Arguments rev_scatter {W}.

(** unify_parallel_edges, graph.rs l.136-149. The three passes over link_iter_mut(node) of one node. *)
Definition unify_node (hd : list nat) (a b : nat) (st : list N * list N) : option (list N * list N) :=
  let '(cache, wt) := st in
  cache1 <- foldM (fun c e => h <- nth_error hd e ;; w <- nth_error wt e ;; x <- nth_error c h ;; set_at c h (N.min x w)) (seq a (b - a)) cache ;;
  wt1 <- foldM (fun w e => h <- nth_error hd e ;; x <- nth_error cache1 h ;; set_at w e x) (seq a (b - a)) wt ;;
  cache2 <- foldM (fun c e => h <- nth_error hd e ;; set_at c h INF) (seq a (b - a)) cache1 ;;
  Some (cache2, wt1).
Definition unify_parallel_edges (g : fograph N) : option (fograph N) :=
  '(_, wt) <- foldM (fun st u => '(a, b) <- range g u ;; unify_node (head g) a b st)
      (seq 0 (num_nodes g)) (repeat INF (num_nodes g), weight g) ;;
  Some (mkFo (first_out g) (head g) wt).

(** line_graph, graph.rs l.181-201. [turn_costs] is assumed pure. *)
Definition line_graph (g : fograph N) (turn_costs : nat -> nat -> option N) : option (fograph N) :=
  '(fo, hd, wt) <- foldM (fun st e =>
      let '(fo, hd, wt) := st in
      '(v, w) <- link g e ;;
      '(a, b) <- range g v ;;
      let '(hd', wt') := fold_left (fun acc e' =>
           match turn_costs e e' with
           | Some c => (fst acc ++ [e'], snd acc ++ [wadd w c])
           | None => acc
           end) (seq a (b - a)) (hd, wt) in
      Some (fo ++ [length hd'], hd', wt'))
    (seq 0 (num_arcs g)) ([0], [], []) ;;
  fo_new fo hd wt.

(** InfinityFilteringGraph::link_iter, graph.rs l.240-242 *)
Definition inf_filter_links (links : nat -> option (list (nat * N))) (u : nat) : option (list (nat * N)) :=
  l <- links u ;; Some (filter (fun a => snd a <? INF)%N l).

(** slice::binary_search: result [inl i] = Ok(i), [inr i] = Err(i). The concrete algorithm of the standard
    library (1.52 to 1.81): size = right - left, mid = left + size/2. *)
Fixpoint binary_search_loop (fuel : nat) (l : list nat) (x left right : nat) : option (nat + nat) :=
  match fuel with
  | O => None
  | S fuel =>
    if left <? right then
      let mid := left + (right - left) / 2 in
      y <- nth_error l mid ;;
      if y <? x then binary_search_loop fuel l x (mid + 1) right
      else if x <? y then binary_search_loop fuel l x left mid
      else Some (inl mid)
    else Some (inr left)
  end.
Definition binary_search (l : list nat) (x : nat) : option (nat + nat) :=
  binary_search_loop (S (length l)) l x 0 (length l).

(** link_id_to_tail, link_id_to_tail_mapper.rs l.70-81; [bs] is slice::binary_search *)
Fixpoint skip_equal (fuel : nat) (fo : list nat) (x i : nat) : option nat :=
  match fuel with
  | O => None
  | S fuel => y <- nth_error fo (i + 1) ;; if y =? x then skip_equal fuel fo x (i + 1) else Some i
  end.
Definition link_id_to_tail (bs : list nat -> nat -> option (nat + nat)) (fo : list nat) (x : nat) : option nat :=
  r <- bs fo x ;;
  match r with
  | inl i => skip_equal (S (length fo)) fo x i
  | inr i => _ <- guard (0 <? i) ;; Some (i - 1)
  end.

(** LinkIdToTailMapper, l.9-68. The debug_assert loop l.44-51 is not modelled. *)
Record tail_mapper := mkTm { tm_map : rankmap; tm_zero : list nat }.
Definition tm_new (g : fograph N) : option tail_mapper :=
  '(bits, zeros, _) <- foldM (fun st u =>
      let '(bits, zeros, counter) := st in
      deg <- degree g u ;;
      if deg =? 0 then Some (bits, zeros ++ [counter], counter + deg)
      else b <- bv_set bits counter ;; Some (b, zeros, counter + deg))
    (seq 0 (num_nodes g)) (bv_new (num_arcs g + 1), [], 0) ;;
  m <- rm_new bits ;; Some (mkTm m zeros).
Fixpoint skip_equal_to_end (fuel : nat) (l : list nat) (x i : nat) : nat :=
  match fuel with
  | O => i
  | S fuel => match nth_error l i with
              | Some y => if y =? x then skip_equal_to_end fuel l x (i + 1) else i
              | None => i
              end
  end.
Definition tm_tail (bs : list nat -> nat -> option (nat + nat)) (t : tail_mapper) (x : nat) : option nat :=
  r <- bs (tm_zero t) x ;;
  let below := match r with inl i => skip_equal_to_end (length (tm_zero t)) (tm_zero t) x i | inr i => i end in
  k <- rm_at_or_next_lower (tm_map t) x ;;
  Some (k + below).
