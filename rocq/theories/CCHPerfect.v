(** Model of the perfect customization: engine/src/algo/customizable_contraction_hierarchy/customization.rs l.257-346
    customize_perfect_without_rebuild and customization/parallelization.rs l.277-411.

    Like the basic routine in CCHPar.v the closure [customize_perfect] is given as a list of instructions with at most
    one access to the shared vectors each. Its only data dependent branches are the entry of the workspace
    (node_edge_ids[target] is Some) and the comparisons; instructions are skipped accordingly. Raw pointer accesses
    are modelled as checked ones. The triangle counter is left out. *)
From Verif Require Import Base BitVec Graph SpecGraph CCH SepTree.

(** l.322-323, 327-330: the vectors shared by all tasks *)
Record pshared := mkPsh { g_up : list N; g_dn : list N; g_upm : list bool; g_dnm : list bool }.
(** the thread local workspace node_edge_ids (l.332) and the local variables other_edge_id, the two summands of
    relax_weight, *edge_weight *)
Record pregs := mkRg { r_ws : list (option nat); r_oth : option nat; r_a : N; r_b : N; r_c : N }.

(** an edge id: known from the CCH, or other_edge_id *)
Inductive opnd := Own (e : nat) | Oth.
Inductive preg := RA | RB | RC.
(** vectors are chosen by a boolean: true is upward, false is downward *)
Inductive pinstr :=
| PSet (x e : nat)                              (* l.279 *)
| PClr (x : nat)                                (* l.341 *)
| PGet (x : nat)                                (* l.285 *)
| PLd (r : preg) (up : bool) (o : opnd)         (* read a weight *)
| PSt (up : bool) (o : opnd)                    (* if relax_weight < *edge_weight then *edge_weight = relax_weight *)
| PMark (up : bool) (o : opnd).                 (* the modified flag, under the same condition *)

Definition g_w (up : bool) (s : pshared) : list N := if up then g_up s else g_dn s.
Definition g_m (up : bool) (s : pshared) : list bool := if up then g_upm s else g_dnm s.
Definition put_w (up : bool) (s : pshared) (l : list N) : pshared :=
  if up then mkPsh l (g_dn s) (g_upm s) (g_dnm s) else mkPsh (g_up s) l (g_upm s) (g_dnm s).
Definition put_m (up : bool) (s : pshared) (l : list bool) : pshared :=
  if up then mkPsh (g_up s) (g_dn s) l (g_dnm s) else mkPsh (g_up s) (g_dn s) (g_upm s) l.
Definition opnd_id (p : pregs) (o : opnd) : option nat := match o with Own e => Some e | Oth => r_oth p end.

Definition pstep (sp : pshared * pregs) (i : pinstr) : option (pshared * pregs) :=
  let '(s, p) := sp in
  match i with
  | PSet x e => ws <- set_at (r_ws p) x (Some e) ;; Some (s, mkRg ws (r_oth p) (r_a p) (r_b p) (r_c p))
  | PClr x => ws <- set_at (r_ws p) x None ;; Some (s, mkRg ws (r_oth p) (r_a p) (r_b p) (r_c p))
  | PGet x => o <- nth_error (r_ws p) x ;; Some (s, mkRg (r_ws p) o (r_a p) (r_b p) (r_c p))
  | PLd r up o =>
      match r_oth p with None => Some (s, p) | Some _ =>
        e <- opnd_id p o ;; w <- nth_error (g_w up s) e ;;
        Some (s, match r with
                 | RA => mkRg (r_ws p) (r_oth p) w (r_b p) (r_c p)
                 | RB => mkRg (r_ws p) (r_oth p) (r_a p) w (r_c p)
                 | RC => mkRg (r_ws p) (r_oth p) (r_a p) (r_b p) w end)
      end
  | PSt up o =>
      match r_oth p with None => Some (s, p) | Some _ =>
        e <- opnd_id p o ;; t <- cadd (r_a p) (r_b p) ;;
        if (t <? r_c p)%N then l <- set_at (g_w up s) e t ;; Some (put_w up s l, p) else Some (s, p)
      end
  | PMark up o =>
      match r_oth p with None => Some (s, p) | Some _ =>
        e <- opnd_id p o ;; t <- cadd (r_a p) (r_b p) ;;
        if (t <? r_c p)%N then l <- set_at (g_m up s) e true ;; Some (put_m up s l, p) else Some (s, p)
      end
  end.
Definition prun (code : list pinstr) (sp : pshared * pregs) : option (pshared * pregs) := foldM pstep code sp.

(** one of the four relaxations: the weight of [tgt] in direction [up] by that of [a] in the same direction plus
    [sc] in direction [scup] *)
Definition rel_code (up : bool) (a : opnd) (scup : bool) (sc : nat) (tgt : opnd) : list pinstr :=
  [PLd RA up a; PLd RB scup (Own sc); PLd RC up tgt; PSt up tgt; PMark up tgt].
(** l.284-336 for one (target, shortcut_edge_id) *)
Definition tri_code (e : nat) (ts : nat * nat) : list pinstr :=
  let '(t, sc) := ts in
  PGet t :: rel_code true (Own e) true sc Oth          (* l.292-297 *)
  ++ rel_code true Oth false sc (Own e)                (* l.299-304 *)
  ++ rel_code false (Own e) false sc Oth               (* l.306-311 *)
  ++ rel_code false Oth true sc (Own e).               (* l.313-318 *)
(** neighbor_iter zipped with neighbor_edge_indices *)
Definition cch_ids (c : cch) (x : nat) : option (list (nat * nat)) :=
  '(a, b) <- cch_range c x ;; h <- slice (c_head c) a b ;; Some (combine h (seq a (b - a))).
(** l.273-342: the body of the loop over the nodes *)
Definition pnode_code (c : cch) (cur : nat) : option (list pinstr) :=
  own <- cch_ids c cur ;;
  tri <- mapM (fun ve => up <- cch_ids c (fst ve) ;; Some (flat_map (tri_code (snd ve)) up)) own ;;
  Some (map (fun ve => PSet (fst ve) (snd ve)) own ++ concat tri ++ map (fun ve => PClr (fst ve)) own).
(** l.266-345: the closure customize_perfect for the nodes u..u+k-1, from high to low *)
Definition pnodes_code (c : cch) (u k : nat) : option (list pinstr) :=
  l <- mapM (pnode_code c) (rev (seq u k)) ;; Some (concat l).

Definition regs_new (ws : list (option nat)) : pregs := mkRg ws None 0 0 0.
Definition psh_init (up dn : list N) : pshared := mkPsh up dn (repeat false (length up)) (repeat false (length dn)).
(** l.257-347 with feature cch-disable-par (parallelization.rs l.351-360): one call for all nodes. [up], [dn] are the
    weights of the basic customization. For the parallel version see [qstep] below. *)
Definition perfect_weights (c : cch) (up dn : list N) : option pshared :=
  code <- pnodes_code c 0 (cch_nodes c) ;;
  '(s, _) <- prun code (psh_init up dn, regs_new (repeat None (cch_nodes c))) ;; Some s.

(** ** The parallel version (parallelization.rs l.362-411)

    A call of customize_tree that no worker has started; a running call of the routine, with the calls to spawn
    afterwards; a scope with spawned calls. *)
Inductive qtask :=
| QExec (code : list pinstr) (subs : list qtask)
| QRun (p : pregs) (code : list pinstr) (subs : list qtask)
| QScope (subs : list qtask).
Inductive qfinished : qtask -> Prop := qf_scope subs : Forall qfinished subs -> qfinished (QScope subs).

(** One step of some worker. [pool] holds the workspaces of the workers not running the routine at the moment
    (l.331-333 gives each worker one): a call of the routine borrows the one of its worker and leaves it behind in the
    state at its end (the calls do not nest: the routine spawns nothing). *)
Inductive qstep : pshared * list (list (option nat)) -> qtask -> pshared * list (list (option nat)) -> qtask -> Prop :=
| qs_start s pool1 ws pool2 code subs : qstep (s, pool1 ++ ws :: pool2) (QExec code subs) (s, pool1 ++ pool2) (QRun (regs_new ws) code subs)
| qs_instr s pool p i code subs s' p' : pstep (s, p) i = Some (s', p') -> qstep (s, pool) (QRun p (i :: code) subs) (s', pool) (QRun p' code subs)
| qs_end s pool p subs : qstep (s, pool) (QRun p [] subs) (s, r_ws p :: pool) (QScope subs)
| qs_sub s pool l1 t l2 s' pool' t' : qstep (s, pool) t (s', pool') t' -> qstep (s, pool) (QScope (l1 ++ t :: l2)) (s', pool') (QScope (l1 ++ t' :: l2)).
Inductive qsteps : nat -> pshared * list (list (option nat)) -> qtask -> pshared * list (list (option nat)) -> qtask -> Prop :=
| qss_nil s t : qsteps 0 s t s t
| qss_cons k s t s1 t1 s2 t2 : qstep s t s1 t1 -> qsteps k s1 t1 s2 t2 -> qsteps (S k) s t s2 t2.
(** some worker is about to panic *)
Inductive qpanic : pshared -> qtask -> Prop :=
| qp_instr s p i code subs : pstep (s, p) i = None -> qpanic s (QRun p (i :: code) subs)
| qp_sub s l1 t l2 : qpanic s t -> qpanic s (QScope (l1 ++ t :: l2)).

(** parallelization.rs l.385-411 customize_tree; [hi] is the parameter offset, the end of the node range; [q] is
    n / (32 * number of threads) *)
Fixpoint perf_tree (c : cch) (q : nat) (t : septree) (hi : nat) {struct t} : option qtask :=
  match t with Sep nodes children num =>
    if num <? q then u <- csub hi num ;; code <- pnodes_code c u num ;; Some (QExec code []) else
    u <- csub hi (sn_len nodes) ;; code <- pnodes_code c u (sn_len nodes) ;;
    r <- (fix go (l : list septree) {struct l} : option (nat * list qtask) :=
       match l with
       | [] => Some (u, [])
       | sub :: l' => '(e, tks) <- go l' ;; tk <- perf_tree c q sub e ;; e' <- csub e (st_num sub) ;; Some (e', tk :: tks)
       end) children ;;
    Some (QExec code (snd r))
  end.
(** customize_with_aux on [threads] workers *)
Definition par_perfect (c : cch) (threads : nat) (sep : septree) : option qtask := perf_tree c (cch_nodes c / (32 * threads)) sep (cch_nodes c).
