(** Model of CCHPotentialWithPathUnpacking in engine/src/algo/ch_potentials.rs (l.18-29, 61-99, 202-326) and of the searches for subpaths that are not
    (almost) shortest built on it, MinimalNonShortestSubPaths in engine/src/algo/minimal_nonshortest_subpaths.rs (l.11-27, 72-219).
    All nodes given to the potential are ranks. Timestamped vectors and the FastClearBitVec are lists that a reset refills with the default; the stack
    is empty between calls and num_pot_computations (statistics) is left out. [dbg] = debug build. *)
From Verif Require Import Base SpecGraph BitVec Graph Dijkstra CCH CCHQuery CCHPerfect CCHRebuild CCHPot PLF UBS.

(** l.18-29 CCHPotData: the perfect customization together with forward_tail, which [customized] leaves out.
    See CCHRebuild.customize_perfect for the first steps. *)
Definition pot_data (c : cch) (k : customized) : option (customized * list nat) :=
  s <- perfect_weights c (weight (k_fw k)) (weight (k_bw k)) ;;
  r <- rebuild_seq (mkFo (c_fo c) (c_head c) (g_up s)) (mkFo (c_fo c) (c_head c) (g_dn s)) (g_upm s) (g_dnm s) (k_upu k) (k_dnu k) ;;
  kp <- perfect_of c r ;; Some (kp, x_tail (fst r)).

(** l.202-215; [pp_flip] = FLIP_UNPACKING. The elimination tree is that of the CCH. *)
Record ppot := mkPP { pp_fw : fograph N; pp_bw : fograph N; pp_elim : list (option nat); pp_fu : list unp; pp_bu : list unp; pp_ft : list nat; pp_flip : bool;
  pp_pots : list (option N); pp_bd : list N; pp_par : list (nat * nat); pp_un : list bool }.
(** l.61-79 forward_path_potential *)
Definition pp_forward (d : customized * list nat) : ppot :=
  let k := fst d in let n := num_nodes (k_fw k) in let m := length (head (k_fw k)) in
  mkPP (k_fw k) (k_bw k) (k_elim k) (k_upu k) (k_dnu k) (snd d) false (repeat None n) (repeat INF n) (repeat (n, m) n) (repeat false n).
(** l.81-99 backward_path_potential *)
Definition pp_backward (d : customized * list nat) : ppot :=
  let k := fst d in let n := num_nodes (k_fw k) in let m := length (head (k_fw k)) in
  mkPP (k_bw k) (k_fw k) (k_elim k) (k_dnu k) (k_upu k) (k_btail k) true (repeat None n) (repeat INF n) (repeat (n, m) n) (repeat false n).

Definition pp_set (p : ppot) (pots : list (option N)) (bd : list N) (par : list (nat * nat)) (un : list bool) : ppot :=
  mkPP (pp_fw p) (pp_bw p) (pp_elim p) (pp_fu p) (pp_bu p) (pp_ft p) (pp_flip p) pots bd par un.

(** l.227-233: for _ in EliminationTreeWalk { } *)
Definition pwalk_step (links : idlinks) (elim : list (option nat)) (s : etw) : option (etw + (list N * list (nat * nat))) :=
  match w_next s with None => Some (inr (w_dist s, w_par s)) | Some _ => s' <- etw_next links elim s ;; Some (inl s') end.
(** l.224-235 init; stepped_elimination_tree.rs l.36-46 query resets the distances, the parents stay *)
Definition pp_init (p : ppot) (target : nat) : option ppot :=
  let n := length (pp_bd p) in
  w <- etw_query (pp_elim p) (repeat INF n) (pp_par p) target ;;
  '(bd, par) <- loopN (N.of_nat (n + 1)) (pwalk_step (k_links (pp_bw p)) (pp_elim p)) w ;;
  Some (pp_set p (repeat None (length (pp_pots p))) bd par (repeat false (length (pp_un p)))).

(** l.252-258: relax one edge of [node] *)
Definition pp_relax (pots : list (option N)) (node : nat) (s : N * list (nat * nat)) (a : nat * N * nat) : option (N * list (nat * nat)) :=
  let '(h, w, e) := a in
  pv <- nth_error pots h ;; v <- pv ;; r <- cadd w v ;;
  if (r <? fst s)%N then par <- set_at (snd s) node (h, e) ;; Some (r, par) else Some s.
(** l.249-261; InRangeOption::some asserts that the value is not the sentinel *)
Definition pp_settle (fw : fograph N) (bd : list N) (s : list (option N) * list (nat * nat)) (node : nat) : option (list (option N) * list (nat * nat)) :=
  dist <- nth_error bd node ;; ls <- link_iter_ids fw node ;; '(dist, par) <- foldM (pp_relax (fst s) node) ls (dist, snd s) ;;
  _ <- guard (negb (dist =? U32MAX)%N) ;; pots <- set_at (fst s) node (Some dist) ;; Some (pots, par).
(** l.237-269 potential; the climb l.238-247 is that of CCHPotential *)
Definition pp_value (p : ppot) (node : nat) : option (ppot * option N) :=
  stack <- loopN (N.of_nat (length (pp_elim p) + 1)) (climb_step (pp_elim p) (pp_pots p)) ([], node) ;;
  '(pots, par) <- foldM (pp_settle (pp_fw p) (pp_bd p)) stack (pp_pots p, pp_par p) ;;
  v <- nth_error pots node ;; dist <- v ;;
  Some (pp_set p pots (pp_bd p) par (pp_un p), if (dist <? INF)%N then Some dist else None).

Definition pp_parent (p : ppot) (x : nat) (y : nat * nat) : option ppot :=
  par <- set_at (pp_par p) x y ;; Some (pp_set p (pp_pots p) (pp_bd p) par (pp_un p)).
Definition pp_flag (p : ppot) (x : nat) : option ppot :=
  un <- set_at (pp_un p) x true ;; Some (pp_set p (pp_pots p) (pp_bd p) (pp_par p) un).
(** l.287-301 *)
Definition pp_unpacking (p : ppot) (node parent edge : nat) : option unp :=
  '(down, up) <- (if node <? parent then nth_error (pp_fu p) edge else nth_error (pp_bu p) edge) ;;
  Some (if pp_flip p then (up, down) else (down, up)).
(** the debug_assert_eq l.318; potential() changes the object in debug builds only *)
Definition pp_check (dbg : bool) (p : ppot) (middle : nat) (parent_dist : N) (up : nat) : option ppot :=
  if dbg then
    '(p, o) <- pp_value p middle ;; d <- o ;; w <- nth_error (weight (pp_fw p)) up ;; x <- cadd parent_dist w ;; _ <- guard (d =? x)%N ;; Some p
  else Some p.
(** l.273-322 unpack_path. [fuel] bounds the depth of the recursion. *)
Fixpoint pp_unpack (dbg : bool) (fuel : nat) (p : ppot) (node : nat) : option ppot :=
  match fuel with
  | O => None
  | S fuel =>
      b <- nth_error (pp_un p) node ;;
      if (b : bool) then Some p else
      '(p, o) <- pp_value p node ;; self_dist <- o ;;
      '(parent, edge) <- nth_error (pp_par p) node ;;
      if parent =? node then pp_flag p node else
      '(p, o) <- pp_value p parent ;; parent_dist <- o ;;
      p <- pp_unpack dbg fuel p parent ;;
      dassert dbg (parent_dist <=? self_dist)%N (
      '(down, up) <- pp_unpacking p node parent edge ;;
      match down with
      | Some down =>
          up <- up ;;
          middle <- nth_error (pp_ft p) up ;;
          p <- pp_parent p node (middle, down) ;;
          b <- nth_error (pp_un p) middle ;;
          p <- (if (b : bool) then Some p else
                '(p, _) <- pp_value p middle ;; p <- pp_parent p middle (parent, up) ;; pp_unpack dbg fuel p middle) ;;
          p <- pp_check dbg p middle parent_dist up ;;
          p <- pp_unpack dbg fuel p node ;;
          pp_flag p node
      | None => pp_flag p node
      end)
  end.
Definition pp_fuel (p : ppot) : nat := let n := length (pp_bd p) in S n * (n + 2).
Definition pp_path (dbg : bool) (p : ppot) (node : nat) : option ppot := pp_unpack dbg (pp_fuel p) p node.
(** target_shortest_path_tree, l.324-326 *)
Definition pp_pred (p : ppot) (x : nat) : option nat := '(y, _) <- nth_error (pp_par p) x ;; Some y.

(** a history of calls on one potential *)
Inductive pp_op := PPInit (target : nat) | PPValue (node : nat) | PPUnpack (node : nat).
Definition pp_do (dbg : bool) (p : ppot) (op : pp_op) : option ppot :=
  match op with PPInit t => pp_init p t | PPValue v => '(p, _) <- pp_value p v ;; Some p | PPUnpack v => pp_path dbg p v end.
Definition pp_history (dbg : bool) (p : ppot) (ops : list pp_op) : option ppot := foldM (pp_do dbg) ops p.
(** follow the tree from [x] to [t] *)
Fixpoint pp_follow (fuel : nat) (p : ppot) (t x : nat) : option (list nat) :=
  if x =? t then Some [x] else match fuel with O => None | S fuel => y <- pp_pred p x ;; r <- pp_follow fuel p t y ;; Some (x :: r) end.

(** * MinimalNonShortestSubPaths *)
Section Ubs.
  Variable dbg : bool.
  Variable g : fograph N.                        (** smooth_graph *)
  Variables order rks : list nat.                (** the node order of the CCH *)
  Variable sort : list prange -> list prange.    (** sort_unstable_by with the comparator [rg_ltb] *)
  Variable thr : N -> N.

  (** l.11-17 *)
  Record cubs := mkCubs { cu_t : ppot; cu_s : ppot; cu_cache : ranks; cu_ranks : ranks }.
  (** l.20-29 new *)
  Definition cubs_new (d : customized * list nat) : cubs :=
    let n := num_nodes (k_fw (fst d)) in mkCubs (pp_forward d) (pp_backward d) (repeat None n) (repeat None n).
  (** potential(node).unwrap() *)
  Definition pp_dist (p : ppot) (v : nat) : option (ppot * N) := '(p, o) <- pp_value p v ;; d <- o ;; Some (p, d).
  (** l.262-395: tree_find_minimal_nonshortest, see UBS.tree_find *)
  Definition cch_tree {V} (found : V -> prange -> N -> N -> option (V * bool)) (n : nat) :=
    tree_find dbg n (fun _ p root _ => pp_init p root) (fun _ p root _ => pp_init p root) pp_dist pp_dist (pp_path dbg) (pp_path dbg) pp_pred pp_pred found.

  (** l.72-115 find_ubs_violating_subpaths *)
  Definition cubs_find (u : cubs) (orig : list nat) : option (cubs * list prange) :=
    path <- mapM (nth_error rks) orig ;;
    dassert dbg (all_none (cu_ranks u)) (
    '(pr, vio) <- note_ranks path (cu_ranks u) ;;
    match vio with
    | _ :: _ => pr <- clear_ranks path pr ;; Some (mkCubs (cu_t u) (cu_s u) (cu_cache u) pr, vio)
    | [] =>
        dists <- path_dists dbg g orig ;;
        '(t, s, cache, vio) <- cch_tree (ubs_found dbg thr) (length (cu_ranks u)) path dists pr (cu_t u) (cu_s u) (cu_cache u) [] ;;
        pr <- clear_ranks path pr ;;
        vio <- filter_covered sort vio ;;
        Some (mkCubs t s cache pr, vio)
    end).
  Definition cubs_history (u : cubs) (paths : list (list nat)) : option cubs := foldM (fun u p => '(u, _) <- cubs_find u p ;; Some u) paths u.
End Ubs.
