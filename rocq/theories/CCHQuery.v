(** Model of engine/src/algo/customizable_contraction_hierarchy/query.rs and query/stepped_elimination_tree.rs.
    The elimination tree is a list of parents; graphs are given by their link iterator (head, weight, edge id). *)
From Verif Require Import Base Graph Dijkstra CCH.

Definition idlinks := nat -> option (list (nat * N * nat)).

(** stepped_elimination_tree.rs l.26-33: distances, predecessors and the next node of a walk to the root.
    relaxed_edges (statistics) is left out. *)
Record etw := mkEtw { w_dist : list N; w_par : list (nat * nat); w_next : option nat }.

(** l.59-65: the debug assertion that all distances on the path to the root are INFINITY *)
Fixpoint root_path_inf (fuel : nat) (elim : list (option nat)) (d : list N) (cur : option nat) : option unit :=
  match cur with
  | None => Some tt
  | Some node =>
      match fuel with
      | O => None
      | S fuel =>
          x <- nth_error d node ;; _ <- guard (x =? INF)%N ;; p <- nth_error elim node ;; root_path_inf fuel elim d p
      end
  end.

(** l.52-79 query_with_resetted *)
Definition etw_query (elim : list (option nat)) (d : list N) (par : list (nat * nat)) (from : nat) : option etw :=
  _ <- root_path_inf (S (length elim)) elim d (Some from) ;;
  d' <- set_at d from 0%N ;; par' <- set_at par from (from, 0) ;; Some (mkEtw d' par' (Some from)).

(** l.87-96: relax one edge out of [node] *)
Definition etw_relax (node : nat) (dist : N) (s : list N * list (nat * nat)) (a : nat * N * nat) : option (list N * list (nat * nat)) :=
  let '(h, w, e) := a in
  nd <- cadd dist w ;; dh <- nth_error (fst s) h ;;
  if (nd <? dh)%N then d' <- set_at (fst s) h nd ;; p' <- set_at (snd s) h (node, e) ;; Some (d', p') else Some s.

(** l.81-102 settle_next_node (l.129-131 next) *)
Definition etw_next (links : idlinks) (elim : list (option nat)) (s : etw) : option etw :=
  match w_next s with
  | Some node =>
      dist <- nth_error (w_dist s) node ;; nx <- nth_error elim node ;; ls <- links node ;;
      '(d, p) <- foldM (etw_relax node dist) ls (w_dist s, w_par s) ;; Some (mkEtw d p nx)
  | None => Some s
  end.
(** l.108-113 skip_next *)
Definition etw_skip (elim : list (option nat)) (s : etw) : option etw :=
  match w_next s with Some node => nx <- nth_error elim node ;; Some (mkEtw (w_dist s) (w_par s) nx) | None => Some s end.
(** l.115-121 tentative_distance, reset_distance *)
Definition etw_reset (s : etw) (node : nat) : option etw := d <- set_at (w_dist s) node INF ;; Some (mkEtw d (w_par s) (w_next s)).

(** query.rs l.72-119: one iteration of the loop; the state is (forward walk, backward walk, tentative distance, meeting node) *)
Definition cq_state := (etw * etw * N * nat)%type.
Definition cq_step (lf lb : idlinks) (elim : list (option nat)) (s : cq_state) : option (cq_state + cq_state) :=
  let '(f, b, tent, meet) := s in
  match w_next f, w_next b with
  | Some x, Some y =>
      if x <? y then f <- etw_next lf elim f ;; f <- etw_reset f x ;; Some (inl (f, b, tent, meet))
      else if y <? x then b <- etw_next lb elim b ;; b <- etw_reset b y ;; Some (inl (f, b, tent, meet))
      else
        df <- nth_error (w_dist f) x ;;
        f <- (if (df <? tent)%N then etw_next lf elim f else etw_skip elim f) ;;
        db <- nth_error (w_dist b) x ;;
        b <- (if (db <? tent)%N then etw_next lb elim b else etw_skip elim b) ;;
        df <- nth_error (w_dist f) x ;; db <- nth_error (w_dist b) x ;; dist <- cadd df db ;;
        f <- etw_reset f x ;; b <- etw_reset b x ;;
        if (dist <? tent)%N then Some (inl (f, b, dist, x)) else Some (inl (f, b, tent, meet))
  | Some x, None => f <- etw_next lf elim f ;; f <- etw_reset f x ;; Some (inl (f, b, tent, meet))
  | None, Some y => b <- etw_next lb elim b ;; b <- etw_reset b y ;; Some (inl (f, b, tent, meet))
  | None, None => Some (inr s)
  end.

(** query.rs l.9-18 Server, without the statistics *)
Record cserver := mkCsv { q_cust : customized; q_fd : list N; q_bd : list N; q_fp : list (nat * nat); q_bp : list (nat * nat); q_meet : nat }.
(** l.20-35 new, l.38-40 update *)
Definition cs_new (k : customized) : cserver :=
  let n := num_nodes (k_fw k) in let m := num_arcs (k_fw k) in
  mkCsv k (repeat INF n) (repeat INF n) (repeat (n, m) n) (repeat (n, m) n) 0.
Definition cs_update (sv : cserver) (k : customized) : cserver := mkCsv k (q_fd sv) (q_bd sv) (q_fp sv) (q_bp sv) (q_meet sv).

Definition k_links (g : fograph N) : idlinks := link_iter_ids g.

(** l.44-129 distance, from ranks on *)
Definition cq_run (lf lb : idlinks) (elim : list (option nat)) (fd bd : list N) (fp bp : list (nat * nat)) (from to : nat) : option cq_state :=
  f <- etw_query elim fd fp from ;; b <- etw_query elim bd bp to ;;
  loopN (N.of_nat (2 * length elim + 1)) (cq_step lf lb elim) (f, b, INF, 0).
Definition cs_distance (sv : cserver) (from to : nat) : option (cserver * option N) :=
  let k := q_cust sv in
  from <- nth_error (k_ranks k) from ;; to <- nth_error (k_ranks k) to ;;
  '(f, b, tent, meet) <- cq_run (k_links (k_fw k)) (k_links (k_bw k)) (k_elim k) (q_fd sv) (q_bd sv) (q_fp sv) (q_bp sv) from to ;;
  Some (mkCsv k (w_dist f) (w_dist b) (w_par f) (w_par b) meet, if (tent =? INF)%N then None else Some tent).

(** mod.rs l.481-490 (and 525-534) unpack_outgoing / unpack_incoming *)
Definition unpack_edge (us : list unp) (btail : list nat) (e : nat) : option (option (nat * nat * nat)) :=
  '(down, up) <- nth_error us e ;;
  match down with
  | None => Some None
  | Some d => u <- up ;; z <- nth_error btail d ;; Some (Some (d, u, z))
  end.

(** query.rs l.134-140: reverse the forward parents into the backward ones *)
Definition flip_step (from : nat) (fp : list (nat * nat)) (s : nat * list (nat * nat)) : option (nat * list (nat * nat) + list (nat * nat)) :=
  let '(node, bp) := s in
  if node =? from then Some (inr bp)
  else '(parent, e) <- nth_error fp node ;; bp' <- set_at bp parent (node, e) ;; Some (inl (parent, bp')).

(** l.158-176 unpack_path *)
Definition unpack_step (k : customized) (origin : nat) (s : nat * list (nat * nat)) : option (nat * list (nat * nat) + list (nat * nat)) :=
  let '(cur, ps) := s in
  if cur =? origin then Some (inr ps)
  else
    '(pred, e) <- nth_error ps cur ;;
    u <- (if cur <? pred then unpack_edge (k_upu k) (k_btail k) e else unpack_edge (k_dnu k) (k_btail k) e) ;;
    match u with
    | Some (down, up, middle) => ps1 <- set_at ps cur (middle, down) ;; ps2 <- set_at ps1 middle (pred, up) ;; Some (inl (cur, ps2))
    | None => Some (inl (pred, ps))
    end.

(** l.145-149: follow the pointers *)
Definition follow_step (to : nat) (ps : list (nat * nat)) (s : nat * list nat) : option (nat * list nat + list nat) :=
  let '(cur, acc) := s in
  if cur =? to then Some (inr acc) else '(nx, _) <- nth_error ps cur ;; Some (inl (nx, acc ++ [nx])).

(** l.131-156 path *)
Definition cs_path (sv : cserver) (from to : nat) : option (cserver * list nat) :=
  let k := q_cust sv in let n := length (k_elim k) in
  from <- nth_error (k_ranks k) from ;; to <- nth_error (k_ranks k) to ;;
  bp <- loopN (N.of_nat (n + 1)) (flip_step from (q_fp sv)) (q_meet sv, q_bp sv) ;;
  bp <- loopN (N.of_nat (2 * n + 1)) (unpack_step k to) (from, bp) ;;
  p <- loopN (N.of_nat (n + 1)) (follow_step to bp) (from, [from]) ;;
  p' <- mapM (fun x => nth_error (k_order k) x) p ;;
  Some (mkCsv k (q_fd sv) (q_bd sv) (q_fp sv) bp (q_meet sv), p').

(** A history of operations on one server: update, or a query followed by any number of path reconstructions (which the
    API offers only for a successful query). *)
Inductive cs_op := OpUpdate (k : customized) | OpQuery (from to paths : nat).
Fixpoint cs_paths (sv : cserver) (from to paths : nat) : option cserver :=
  match paths with O => Some sv | S p => '(sv, _) <- cs_path sv from to ;; cs_paths sv from to p end.
Definition cs_do (sv : cserver) (op : cs_op) : option cserver :=
  match op with
  | OpUpdate k => Some (cs_update sv k)
  | OpQuery from to paths =>
      '(sv, r) <- cs_distance sv from to ;;
      match r with Some _ => cs_paths sv from to paths | None => Some sv end
  end.
Definition cs_history (sv : cserver) (ops : list cs_op) : option cserver := foldM cs_do ops sv.
