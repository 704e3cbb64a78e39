(** Model of the separator based parallel customization: engine/src/algo/customizable_contraction_hierarchy/
    customization/parallelization.rs with the customization routine of customization.rs l.137-232.

    The routine is given as a list of instructions, each with at most one access to the weight vectors shared by all
    tasks, and the tasks run as an interleaving of these instructions. The library rayon is not modelled; what is
    assumed of it is exactly the relation [tstep] below: spawned tasks run in any interleaving, [scope] returns when
    all tasks spawned in it are finished, a worker runs one task at a time. *)
From Verif Require Import Base BitVec Graph SpecGraph CCH SepTree.

(** the slices shared between tasks *)
Record shared := mkShr { h_up : list N; h_dn : list N; h_upu : list unp; h_dnu : list unp }.
(** thread local workspaces (customization.rs l.236-246) and the local variables first_up_weight, first_down_weight *)
Record priv := mkPrv { p_wo : list (N * unp); p_wi : list (N * unp); p_fu : N; p_fd : N }.

Inductive instr :=
| ILoadDn (x e : nat) | ILoadUp (x e : nat)            (* customization.rs l.162-163 *)
| IFirstDn (e1 : nat) | IFirstUp (e1 : nat)            (* l.168-169 *)
| IRelUp (e1 e2 x : nat) | IRelDn (e1 e2 x : nat)      (* l.198-207 *)
| IStDn (x e : nat) | IStUp (x e : nat)                (* l.221-222 *)
| IStDnu (x e : nat) | IStUpu (x e : nat).             (* l.223-226 *)

(** One instruction of a task that got the sub-slices lo..hi; an access outside panics. *)
Definition istep (lo hi : nat) (sp : shared * priv) (i : instr) : option (shared * priv) :=
  let '(s, p) := sp in
  let inw (e : nat) := guard ((lo <=? e) && (e <? hi)) in
  match i with
  | ILoadDn x e => _ <- inw e ;; w <- nth_error (h_dn s) e ;; wi <- set_at (p_wi p) x (w, no_unp) ;; Some (s, mkPrv (p_wo p) wi (p_fu p) (p_fd p))
  | ILoadUp x e => _ <- inw e ;; w <- nth_error (h_up s) e ;; wo <- set_at (p_wo p) x (w, no_unp) ;; Some (s, mkPrv wo (p_wi p) (p_fu p) (p_fd p))
  | IFirstDn e1 => _ <- inw e1 ;; w <- nth_error (h_dn s) e1 ;; Some (s, mkPrv (p_wo p) (p_wi p) (p_fu p) w)
  | IFirstUp e1 => _ <- inw e1 ;; w <- nth_error (h_up s) e1 ;; Some (s, mkPrv (p_wo p) (p_wi p) w (p_fd p))
  | IRelUp e1 e2 x => _ <- inw e2 ;; w <- nth_error (h_up s) e2 ;; r <- nth_error (p_wo p) x ;; t <- cadd w (p_fd p) ;;
      wo <- (if (t <? fst r)%N then set_at (p_wo p) x (t, (Some e1, Some e2)) else Some (p_wo p)) ;;
      Some (s, mkPrv wo (p_wi p) (p_fu p) (p_fd p))
  | IRelDn e1 e2 x => _ <- inw e2 ;; w <- nth_error (h_dn s) e2 ;; r <- nth_error (p_wi p) x ;; t <- cadd w (p_fu p) ;;
      wi <- (if (t <? fst r)%N then set_at (p_wi p) x (t, (Some e2, Some e1)) else Some (p_wi p)) ;;
      Some (s, mkPrv (p_wo p) wi (p_fu p) (p_fd p))
  | IStDn x e => _ <- inw e ;; r <- nth_error (p_wi p) x ;; dn <- set_at (h_dn s) e (fst r) ;; Some (mkShr (h_up s) dn (h_upu s) (h_dnu s), p)
  | IStUp x e => _ <- inw e ;; r <- nth_error (p_wo p) x ;; up <- set_at (h_up s) e (fst r) ;; Some (mkShr up (h_dn s) (h_upu s) (h_dnu s), p)
  | IStDnu x e => _ <- inw e ;; r <- nth_error (p_wi p) x ;; dnu <- set_at (h_dnu s) e (snd r) ;; Some (mkShr (h_up s) (h_dn s) (h_upu s) dnu, p)
  | IStUpu x e => _ <- inw e ;; r <- nth_error (p_wo p) x ;; upu <- set_at (h_upu s) e (snd r) ;; Some (mkShr (h_up s) (h_dn s) upu (h_dnu s), p)
  end.

(** l.189: the loop goes from high to low and stops at the current node *)
Fixpoint above (cur : nat) (l : list (nat * nat)) : list (nat * nat) :=
  match l with [] => [] | (x, e) :: l' => if x <=? cur then [] else (x, e) :: above cur l' end.
(** customization.rs l.166-210 *)
Definition low_code (c : cch) (cur : nat) (ze : nat * nat) : option (list instr) :=
  let '(z, e1) := ze in
  '(a, b) <- cch_range c z ;; h <- slice (c_head c) a b ;;
  Some (IFirstDn e1 :: IFirstUp e1 :: flat_map (fun xe => [IRelUp e1 (snd xe) (fst xe); IRelDn e1 (snd xe) (fst xe)]) (above cur (rev (combine h (seq a (b - a)))))).
(** customization.rs l.150-229: what the closure does for one node, cf. CCH.customize_node *)
Definition node_code (c : cch) (cur : nat) : option (list instr) :=
  '(a, b) <- cch_range c cur ;; h <- slice (c_head c) a b ;;
  let own := combine h (seq a (b - a)) in
  lows <- link_iter (c_inv c) cur ;;
  tri <- mapM (low_code c cur) lows ;;
  Some (flat_map (fun xe => [ILoadDn (fst xe) (snd xe); ILoadUp (fst xe) (snd xe)]) own ++ concat tri ++
        flat_map (fun xe => [IStDn (fst xe) (snd xe); IStUp (fst xe) (snd xe); IStDnu (fst xe) (snd xe); IStUpu (fst xe) (snd xe)]) own).
Definition nodes_code (c : cch) (u k : nat) : option (list instr) :=
  l <- mapM (node_code c) (seq u k) ;; Some (concat l).

(** Tasks: a call of the routine waiting for a worker; a running one with its private memory and the rest of its
    code; a scope with its subtasks and the separator to do afterwards. *)
Inductive task :=
| TExec (lo hi : nat) (code : list instr)
| TRun (lo hi : nat) (p : priv) (code : list instr)
| TScope (subs : list task) (lo hi : nat) (after : list instr).
Definition finished (t : task) : Prop := match t with TRun _ _ _ [] => True | _ => False end.

(** One step of some worker. When a worker picks up a task its workspaces contain whatever earlier tasks left there,
    so they are arbitrary vectors of length [n]. Small cells, which the code runs without spawning (l.208-209), are
    treated like spawned ones: more interleavings than the program has. *)
Inductive tstep (n : nat) : shared -> task -> shared -> task -> Prop :=
| ts_start s lo hi code p : length (p_wo p) = n -> length (p_wi p) = n -> tstep n s (TExec lo hi code) s (TRun lo hi p code)
| ts_instr s lo hi p i code s' p' : istep lo hi (s, p) i = Some (s', p') -> tstep n s (TRun lo hi p (i :: code)) s' (TRun lo hi p' code)
| ts_sub s l1 t l2 lo hi after s' t' : tstep n s t s' t' -> tstep n s (TScope (l1 ++ t :: l2) lo hi after) s' (TScope (l1 ++ t' :: l2) lo hi after)
| ts_join s subs lo hi after : Forall finished subs -> tstep n s (TScope subs lo hi after) s (TExec lo hi after).
Inductive tsteps (n : nat) : nat -> shared -> task -> shared -> task -> Prop :=
| tss_nil s t : tsteps n 0 s t s t
| tss_cons k s t s1 t1 s2 t2 : tstep n s t s1 t1 -> tsteps n k s1 t1 s2 t2 -> tsteps n (S k) s t s2 t2.
(** some worker is about to panic *)
Inductive tpanic : shared -> task -> Prop :=
| tp_instr s lo hi p i code : istep lo hi (s, p) i = None -> tpanic s (TRun lo hi p (i :: code))
| tp_sub s l1 t l2 lo hi after : tpanic s t -> tpanic s (TScope (l1 ++ t :: l2) lo hi after).

(** parallelization.rs l.167-233 customize_tree for the undirected CCH (both first_out arrays are the same).
    [off] is the first node of the cell, [lo..hi) the position of the sub-slices in the vectors; the code computes
    indices relative to first_out[off], so a position other than that is treated as a failure here (stricter than the
    code). [q] is n / (32 * number of threads). *)
Fixpoint par_tree (c : cch) (q : nat) (t : septree) (off lo hi : nat) {struct t} : option task :=
  match t with Sep nodes children num =>
    eo <- nth_error (c_fo c) off ;; _ <- guard (eo =? lo) ;;
    if num <? q then code <- nodes_code c off num ;; Some (TExec lo hi code) else
    (fix go (l : list septree) (so se : nat) (acc : list task) {struct l} : option task :=
       match l with
       | [] => code <- nodes_code c so (off + num - so) ;; Some (TScope acc lo hi code)
       | sub :: l' =>
           e <- nth_error (c_fo c) (so + st_num sub) ;; mid <- csub e se ;; _ <- guard (se + mid <=? hi) ;;
           tk <- par_tree c q sub so se (se + mid) ;;
           go l' (so + st_num sub) (se + mid) (acc ++ [tk])
       end) children off lo []
  end.

(** parallelization.rs l.126-165 new_with_aux and customize_with_aux on [threads] workers, customization.rs l.234-240:
    the task run on the thread pool and the vectors it starts with *)
Definition par_customize (c : cch) (threads : nat) (sep : septree) : option task :=
  _ <- validate sep ;; par_tree c (cch_nodes c / (32 * threads)) sep 0 0 (cch_arcs c).
Definition par_init (c : cch) (up dn : list N) : shared := mkShr up dn (repeat no_unp (cch_arcs c)) (repeat no_unp (cch_arcs c)).
