(** Model of BCCHNearestNeighbor (engine/src/algo/customizable_contraction_hierarchy/query/nearest_neighbor.rs l.157-258): the buckets of
    the targets are filled once, a query walks up the elimination tree and merges the buckets it meets. *)
From Verif Require Import Base SpecPQ IndexHeap Graph Dijkstra CCH CCHQuery Bucket.

(** Reverse<(Weight, NodeId)> in the heap: its index is the number of the target (l.166-170), its order the reversed lexicographic one *)
Definition bh_idx (x : N * nat) : nat := snd x.
Definition bh_lt (x y : N * nat) : bool := (fst y <? fst x)%N || ((fst y =? fst x)%N && (snd y <? snd x)).
Notation bheap := (heap (N * nat)).

(** l.159-164; [bn_fd] are the forward distances *)
Record bnn := mkBnn { bn_sel : bsel; bn_heap : bheap; bn_fd : list N }.
(** l.173-181 *)
Definition bnn_new (n : nat) : bnn := mkBnn (bs_new n) (hnew n) (repeat INF n).

(** l.183-198 select_targets; [sort] is sort_unstable_by_key on the distance. The backward graph is searched, the forward graph prunes. *)
Definition bnn_select (n : nat) (ranks : list nat) (lf lb : nat -> option (list (nat * N))) (sort : list (nat * N) -> list (nat * N)) (b : bnn) (targets : list nat) : option bnn :=
  ts <- mapM (fun t => nth_error ranks t) targets ;;
  sel <- bs_run n lb lf sort (bn_sel b) ts ;; Some (mkBnn sel (bn_heap b) (bn_fd b)).

(** l.215, l.219: the greatest distance in the heap, INFINITY if it is empty *)
Definition bh_top (h : bheap) : N := match hpeek h with Some x => fst x | None => INF end.
(** l.216-236: the entries of a bucket *)
Fixpoint bnn_scan (k : nat) (fw : N) (es : list (nat * N)) (h : bheap) : option bheap :=
  match es with
  | [] => Some h
  | (target, bw) :: es =>
      dist <- cadd fw bw ;;
      if (bh_top h <=? dist)%N && (k <=? hlen h) then Some h else
      o <- hget h target ;;
      h <- match o with
           | Some x => if (dist <? fst x)%N then hincrease _ bh_idx bh_lt h (dist, target) else Some h
           | None =>
               if hlen h <? k then hpush _ bh_idx bh_lt h (dist, target)
               else top <- hpeek h ;;
                    if (dist <? fst top)%N then '(h, _) <- hpop _ bh_idx bh_lt h ;; hpush _ bh_idx bh_lt h (dist, target) else Some h
           end ;;
      bnn_scan k fw es h
  end.
(** l.213-243: one node of the walk *)
Definition bnn_step (links : idlinks) (elim : list (option nat)) (dist : list (list (nat * N))) (k : nat) (s : etw * bheap) : option ((etw * bheap) + (etw * bheap)) :=
  let '(w, h) := s in
  match w_next w with
  | None => Some (inr s)
  | Some node =>
      fw <- nth_error (w_dist w) node ;;
      '(w, h) <- (if (hlen h <? k) || (fw <? bh_top h)%N then
                    es <- nth_error dist node ;; h <- bnn_scan k fw (firstn k es) h ;; w <- etw_next links elim w ;; Some (w, h)
                  else w <- etw_skip elim w ;; Some (w, h)) ;;
      w <- etw_reset w node ;; Some (inl (w, h))
  end.
(** l.200-250 query; the parents of the walk (ForgetParentInfo) are thrown away *)
Definition bnn_query (n : nat) (ranks : list nat) (links : idlinks) (elim : list (option nat)) (b : bnn) (targets : list nat) (source k : nat) : option (bnn * list (N * nat)) :=
  source <- nth_error ranks source ;;
  w <- etw_query elim (bn_fd b) (repeat (0, 0) n) source ;;
  '(w, h) <- loopN (N.of_nat (n + 1)) (bnn_step links elim (bs_dist (bn_sel b)) k) (w, bn_heap b) ;;
  '(h, l) <- hdrain _ bh_idx h ;;
  res <- mapM (fun x => t <- nth_error targets (snd x) ;; Some (fst x, t)) l ;;
  Some (mkBnn (bn_sel b) h (w_dist w), res).

(** a history of calls on one object: targets are selected, and queries are answered for those selected last *)
Inductive bn_op := BnSelect (targets : list nat) | BnQuery (source k : nat).
Definition bn_do (n : nat) (ranks : list nat) (links : idlinks) (elim : list (option nat)) (lf lb : nat -> option (list (nat * N))) (sort : list (nat * N) -> list (nat * N))
  (s : bnn * list nat) (op : bn_op) : option (bnn * list nat) :=
  match op with
  | BnSelect ts => b <- bnn_select n ranks lf lb sort (fst s) ts ;; Some (b, ts)
  | BnQuery source k => '(b, _) <- bnn_query n ranks links elim (fst s) (snd s) source k ;; Some (b, snd s)
  end.
(** on customized graphs *)
Definition bnn_history (n : nat) (kc : customized) (sort : list (nat * N) -> list (nat * N)) (s : bnn * list nat) (ops : list bn_op) : option (bnn * list nat) :=
  foldM (bn_do n (k_ranks kc) (k_links (k_fw kc)) (k_elim kc) (link_iter (k_fw kc)) (link_iter (k_bw kc)) sort) ops s.
Definition bnn_answer (n : nat) (kc : customized) (s : bnn * list nat) (source k : nat) : option (list (N * nat)) :=
  '(_, res) <- bnn_query n (k_ranks kc) (k_links (k_fw kc)) (k_elim kc) (fst s) (snd s) source k ;; Some res.
