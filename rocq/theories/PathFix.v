(** Model of the other searches of MinimalNonShortestSubPaths in engine/src/algo/minimal_nonshortest_subpaths.rs: the naive search (l.31-70),
    fix_violating_subpaths (l.118-184) and local_optimality (l.186-220). Reports and timers (statistics) are left out; fix_violating_subpaths is modelled
    without the time limit (TRAFFIC_MAX_QUERY_TIME = None, or not reached). *)
From Verif Require Import Base SpecGraph BitVec Graph Dijkstra CCH CCHQuery PLF UBS PathPot.

Section Fix.
  Variable dbg : bool.
  Variable g : fograph N.                        (** smooth_graph *)
  Variables order rks : list nat.                (** the node order of the CCH *)
  Variable sort : list prange -> list prange.    (** sort_unstable_by in filter_covered *)
  Variable sort_start : list prange -> list prange.  (** sort_unstable_by_key(|r| r.start), l.148 *)
  Variable thr : N -> N.

  (** l.55-65: from one start, the first end that violates *)
  Fixpoint naive_scan (dists : list N) (p : ppot) (di : N) (ends : list (nat * nat)) : option (ppot * option nat) :=
    match ends with
    | [] => Some (p, None)
    | (j, v) :: ends =>
        '(p, sd) <- pp_dist p v ;; dj <- nth_error dists j ;; pd <- csubN dj di ;;
        dassert dbg ((sd <=? pd)%N && (0 <? sd)%N) (
        x <- csubN pd sd ;; if (thr sd <? x)%N then Some (p, Some j) else naive_scan dists p di ends)
    end.
  (** l.53-66 *)
  Definition naive_row (path : list nat) (dists : list N) (s : ppot * list prange) (a : nat * nat) : option (ppot * list prange) :=
    let '(i, x) := a in
    p <- pp_init (fst s) x ;; di <- nth_error dists i ;;
    '(p, o) <- naive_scan dists p di (skipn (i + 1) (combine (seq 0 (length path)) path)) ;;
    Some (p, match o with Some j => snd s ++ [(i, j)] | None => snd s end).
  (** l.31-70; path[..path.len() - 1] panics if the path is empty *)
  Definition cubs_naive (u : cubs) (orig : list nat) : option (cubs * list prange) :=
    dists <- path_dists dbg g orig ;; path <- mapM (nth_error rks) orig ;;
    '(pr, vio) <- note_ranks path (cu_ranks u) ;; pr <- clear_ranks path pr ;;
    match vio with
    | _ :: _ => Some (mkCubs (cu_t u) (cu_s u) (cu_cache u) pr, vio)
    | [] =>
        _ <- guard (0 <? length path) ;;
        '(s, vio) <- foldM (naive_row path dists) (firstn (length path - 1) (combine (seq 0 (length path)) path)) (cu_s u, []) ;;
        vio <- filter_covered sort vio ;;
        Some (mkCubs (cu_t u) s (cu_cache u) pr, vio)
    end.

  (** l.186-220 local_optimality: the two numbers whose quotient (f64) is returned *)
  Definition cubs_local (u : cubs) (orig : list nat) : option (cubs * (N * N)) :=
    path <- mapM (nth_error rks) orig ;;
    dassert dbg (all_none (cu_ranks u)) (
    '(pr, vio) <- note_ranks path (cu_ranks u) ;; _ <- guard (length vio =? 0) ;;
    dists <- path_dists dbg g orig ;; base <- nth_error dists (length dists - 1) ;;
    '(t, s, cache, lo) <- cch_tree dbg lo_found (length (cu_ranks u)) path dists pr (cu_t u) (cu_s u) (cu_cache u) base ;;
    pr <- clear_ranks path pr ;;
    Some (mkCubs t s cache pr, (lo, base))).

  (** l.150-158: retain ranges that start behind the last retained one *)
  Fixpoint disjoint (until : nat) (l : list prange) : list prange :=
    match l with [] => [] | r :: l => if until <=? fst r then r :: disjoint (snd r) l else disjoint until l end.
  (** l.173-177 *)
  Fixpoint fix_follow (fuel : nat) (p : ppot) (last stop : nat) : option (list nat) :=
    if last =? stop then Some [] else
    match fuel with O => None | S fuel => r <- nth_error rks last ;; y <- pp_pred p r ;; v <- nth_error order y ;; l <- fix_follow fuel p v stop ;; Some (v :: l) end.
  (** l.165-180 *)
  Definition fix_seg (orig : list nat) (s : ppot * list nat * nat) (r : prange) : option (ppot * list nat * nat) :=
    let '(p, fixed, pushed) := s in
    pre <- slice orig pushed (fst r + 1) ;; let fixed := fixed ++ pre in
    stop <- nth_error orig (snd r) ;; e <- nth_error rks stop ;; start <- nth_error orig (fst r) ;; b <- nth_error rks start ;;
    p <- pp_init p e ;; p <- pp_path dbg p b ;;
    last <- nth_error fixed (length fixed - 1) ;; l <- fix_follow (length rks) p last stop ;;
    Some (p, fixed ++ l, snd r + 1).
  (** l.143-184 fix_violating_subpaths_int *)
  Definition fix_once (u : cubs) (orig : list nat) : option (cubs * option (list nat)) :=
    '(u, vio) <- cubs_find dbg g rks sort thr u orig ;;
    match vio with
    | [] => Some (u, None)
    | _ =>
        '(p, fixed, pushed) <- foldM (fix_seg orig) (disjoint 0 (sort_start vio)) (cu_t u, [], 0) ;;
        rest <- slice orig pushed (length orig) ;;
        Some (mkCubs p (cu_s u) (cu_cache u) (cu_ranks u), Some (fixed ++ rest))
    end.
  (** l.118-141 fix_violating_subpaths. The path gets shorter in every round and is shorter than INFINITY. *)
  Definition fix_paths (u : cubs) (orig : list nat) : option (cubs * option (list nat)) :=
    loopN INF (fun '(u, result) =>
      '(u, o) <- fix_once u (match result with Some p => p | None => orig end) ;;
      match o with None => Some (inr (u, result)) | Some p => Some (inl (u, Some p)) end) (u, None).
End Fix.

(** Repeated use of one search object *)
Inductive pf_op := PfFind (p : list nat) | PfNaive (p : list nat) | PfLocal (p : list nat) | PfFix (p : list nat).
Section History.
  Variable dbg : bool.
  Variable g : fograph N.
  Variables order rks : list nat.
  Variables sort sort_start : list prange -> list prange.
  Variable thr : N -> N.
  (** the object after one call (l.31-220); the result is dropped *)
  Definition pf_step (u : cubs) (op : pf_op) : option cubs :=
    match op with
    | PfFind p => '(u, _) <- cubs_find dbg g rks sort thr u p ;; Some u
    | PfNaive p => '(u, _) <- cubs_naive dbg g rks sort thr u p ;; Some u
    | PfLocal p => '(u, _) <- cubs_local dbg g rks u p ;; Some u
    | PfFix p => '(u, _) <- fix_paths dbg g order rks sort sort_start thr u p ;; Some u
    end.
  Definition pf_history (u : cubs) (ops : list pf_op) : option cubs := foldM pf_step ops u.
End History.
