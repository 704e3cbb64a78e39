(** Model of engine/src/algo/customizable_contraction_hierarchy/query/nearest_neighbor.rs: LazyRphastNearestNeighbor and
    SeparatorBasedNearestNeighbor. *)
From Verif Require Import Base BitVec SpecGraph Graph Dijkstra CCH CCHQuery CCHPot SepTree.

(** BinaryHeap<(Weight, NodeId)> (l.15, l.128): peek and pop give the greatest pair. As the order is total the heap is determined
    by its contents, kept as a list in descending order. drain (l.114, l.153) empties it and yields them in some order; the
    statements do not depend on that order. *)
Definition nge (x y : N * nat) : bool := (fst y <? fst x)%N || ((fst y =? fst x)%N && (snd y <=? snd x)).
Fixpoint nn_push (x : N * nat) (h : list (N * nat)) : list (N * nat) :=
  match h with
  | [] => [x]
  | y :: r => if nge x y then x :: h else y :: nn_push x r
  end.
(** l.75-80, l.89-94, l.144-149: keep the [k] best; peek().unwrap() panics on an empty heap *)
Definition offer (k : nat) (h : list (N * nat)) (d : N) (t : nat) : option (list (N * nat)) :=
  if length h <? k then Some (nn_push (d, t) h)
  else match h with
  | [] => None
  | (d0, _) :: r => if (d <? d0)%N then Some (nn_push (d, t) r) else Some h
  end.

(** *** LazyRphastNearestNeighbor: the state between queries is the potential, the heap is empty *)
(** l.142-151 one target *)
Definition lr_step (k : nat) (s : cpot * list (N * nat)) (t : nat) : option (cpot * list (N * nat)) :=
  '(p, r) <- pot_value (fst s) t ;;
  match r with Some d => h <- offer k (snd s) d t ;; Some (p, h) | None => Some (p, snd s) end.
(** l.139-154 query *)
Definition lr_query (p : cpot) (source : nat) (targets : list nat) (k : nat) : option (cpot * list (N * nat)) :=
  p <- pot_init p source ;; foldM (lr_step k) targets (p, []).

(** *** SeparatorBasedNearestNeighbor. [targets] are ranks, ascending; the stack is a list with its top first. *)
(** separator_decomposition.rs l.74-79 separator_nodes_range *)
Definition sn_range (s : sepnodes) : option (nat * nat) := match s with Consecutive a b => Some (a, b) | Random _ => None end.
(** l.62-69 binary_search, either result *)
Definition bs_idx (bs : list nat -> nat -> option (nat + nat)) (l : list nat) (x : nat) : option nat :=
  r <- bs l x ;; Some (match r with inl i => i | inr i => i end).
(** l.73-82, l.88-95 *)
Definition sep_offer (k : nat) (s : cpot * list (N * nat)) (t : nat) : option (cpot * list (N * nat)) :=
  '(p, r) <- pot_rank (fst s) t ;;
  match r with Some d => h <- offer k (snd s) d t ;; Some (p, h) | None => Some (p, snd s) end.
(** l.84-87: targets from the end on while they are separator nodes *)
Fixpoint upto_sep (start : nat) (l : list nat) : list nat :=
  match l with [] => [] | t :: r => if t <? start then [] else t :: upto_sep start r end.
(** l.101-107 lower bound of a child cell *)
Definition child_bound (c : cch) (s : cpot * list (N * septree)) (child : septree) : option (cpot * list (N * septree)) :=
  top <- sn_high (st_nodes child) ;;
  a <- nth_error (c_fo c) top ;; b <- nth_error (c_fo c) (top + 1) ;; heads <- slice (c_head c) a b ;;
  '(p, lb) <- foldM (fun '(p, lb) boundary => '(p, r) <- pot_rank p boundary ;; Some (p, N.min lb (match r with Some d => d | None => INF end))) heads (fst s, INF) ;;
  Some (p, snd s ++ [(lb, child)]).
Definition sstate := (cpot * list (N * nat) * list (N * septree))%type.
(** l.50-112 one pass of the loop. [sort] is sort_unstable_by_key with the key Reverse(d): descending *)
Definition sep_step (bs : list nat -> nat -> option (nat + nat)) (sort : list (N * septree) -> list (N * septree)) (c : cch) (targets : list nat) (k : nat) (s : sstate) : option (sstate + sstate) :=
  let '(p, h, stack) := s in
  match stack with
  | [] => Some (inr s)
  | (min_dist, cell) :: stack =>
    skip <- (if k <=? length h then match h with [] => None | (d0, _) :: _ => Some (d0 <=? min_dist)%N end else Some false) ;;
    if (skip : bool) then Some (inl (p, h, stack)) else
    '(a, b) <- sn_range (st_nodes cell) ;;
    '(lo, hi, sstart) <- (if b <=? a then Some (0, st_num cell, st_num cell) else lo <- csub b (st_num cell) ;; Some (lo, b, a)) ;;
    i <- bs_idx bs targets lo ;; j <- bs_idx bs targets hi ;; ts <- slice targets i j ;;
    if length ts <? 8 then '(p, h) <- foldM (sep_offer k) ts (p, h) ;; Some (inl (p, h, stack))
    else
      '(p, h) <- foldM (sep_offer k) (upto_sep sstart (rev ts)) (p, h) ;;
      '(p, children) <- foldM (child_bound c) (st_children cell) (p, []) ;;
      Some (inl (p, h, rev (sort children) ++ stack))
  end.
(** l.29-35 select_targets *)
Definition sep_select (ranks : list nat) (targets : list nat) : option (list nat) :=
  l <- mapM (fun t => nth_error ranks t) targets ;; Some (CCH.isort l).
(** l.37-115 query, without the translation of the result (l.114) *)
Definition sep_query_ranks (bs : list nat -> nat -> option (nat + nat)) (sort : list (N * septree) -> list (N * septree)) (c : cch) (tree : septree) (p : cpot) (targets : list nat) (source k : nat) : option (cpot * list (N * nat)) :=
  p <- pot_init p source ;;
  '(p, h) <- (if k <? length targets then Some (p, []) else
     foldM (fun s t => '(p, r) <- pot_rank (fst s) t ;; Some (p, match r with Some d => nn_push (d, t) (snd s) | None => snd s end)) targets (p, [])) ;;
  '(p, h, _) <- loopN (N.of_nat (st_count tree + 1)) (sep_step bs sort c targets k) (p, h, if k <? length targets then [(0%N, tree)] else []) ;;
  Some (p, h).
Definition sep_query (bs : list nat -> nat -> option (nat + nat)) (sort : list (N * septree) -> list (N * septree)) (c : cch) (tree : septree) (p : cpot) (targets : list nat) (source k : nat) : option (cpot * list (N * nat)) :=
  '(p, h) <- sep_query_ranks bs sort c tree p targets source k ;;
  res <- mapM (fun '(d, t) => node <- nth_error (c_order c) t ;; Some (d, node)) h ;; Some (p, res).

(** any number of queries, one after the other *)
Definition lr_history (p : cpot) (qs : list (nat * list nat * nat)) : option cpot :=
  foldM (fun p '(source, targets, k) => '(p, _) <- lr_query p source targets k ;; Some p) qs p.
Definition sep_history (bs : list nat -> nat -> option (nat + nat)) (sort : list (N * septree) -> list (N * septree)) (c : cch) (tree : septree) (p : cpot) (qs : list (nat * list nat * nat)) : option cpot :=
  foldM (fun p '(source, targets, k) => ts <- sep_select (c_ranks c) targets ;; '(p, _) <- sep_query bs sort c tree p ts source k ;; Some p) qs p.
