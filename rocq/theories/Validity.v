(** Model of the perfect customization with validities: engine/src/algo/customizable_contraction_hierarchy/customization/validity.rs l.4-83.

    The closure is that of customize_perfect_without_rebuild (CCHPerfect.v) with another assignment in place of the modified flags, so its instructions
    [pnodes_code] are taken from there: PLd also reads the validity of the same arc (l.32, 40, 48, 56), PMark assigns relax_valid (l.36, 44, 52, 60).
    First the sequential execution (feature cch-disable-par: one call for all nodes), below the parallel one. *)
From Verif Require Import Base SpecGraph BitVec Graph CCH SepTree CCHPerfect.

(** upward, downward, up_valid, down_valid *)
Record vshared := mkVsh { v_up : list N; v_dn : list N; v_upv : list N; v_dnv : list N }.
(** the workspace, other_edge_id, the summands of relax_weight, *edge_weight, the operands of relax_valid *)
Record vregs := mkVr { x_ws : list (option nat); x_oth : option nat; x_a : N; x_b : N; x_c : N; x_va : N; x_vb : N }.
Definition v_w (up : bool) (s : vshared) : list N := if up then v_up s else v_dn s.
Definition v_v (up : bool) (s : vshared) : list N := if up then v_upv s else v_dnv s.
Definition v_put_w (up : bool) (s : vshared) (l : list N) : vshared :=
  if up then mkVsh l (v_dn s) (v_upv s) (v_dnv s) else mkVsh (v_up s) l (v_upv s) (v_dnv s).
Definition v_put_v (up : bool) (s : vshared) (l : list N) : vshared :=
  if up then mkVsh (v_up s) (v_dn s) l (v_dnv s) else mkVsh (v_up s) (v_dn s) (v_upv s) l.
Definition v_id (p : vregs) (o : opnd) : option nat := match o with Own e => Some e | Oth => x_oth p end.

(** l.19-71 *)
Definition vstep (sp : vshared * vregs) (i : pinstr) : option (vshared * vregs) :=
  let '(s, p) := sp in
  match i with
  | PSet x e => ws <- set_at (x_ws p) x (Some e) ;; Some (s, mkVr ws (x_oth p) (x_a p) (x_b p) (x_c p) (x_va p) (x_vb p))
  | PClr x => ws <- set_at (x_ws p) x None ;; Some (s, mkVr ws (x_oth p) (x_a p) (x_b p) (x_c p) (x_va p) (x_vb p))
  | PGet x => o <- nth_error (x_ws p) x ;; Some (s, mkVr (x_ws p) o (x_a p) (x_b p) (x_c p) (x_va p) (x_vb p))
  | PLd r up o =>
      match x_oth p with None => Some (s, p) | Some _ =>
        e <- v_id p o ;; w <- nth_error (v_w up s) e ;; v <- nth_error (v_v up s) e ;;
        Some (s, match r with
                 | RA => mkVr (x_ws p) (x_oth p) w (x_b p) (x_c p) v (x_vb p)
                 | RB => mkVr (x_ws p) (x_oth p) (x_a p) w (x_c p) (x_va p) v
                 | RC => mkVr (x_ws p) (x_oth p) (x_a p) (x_b p) w (x_va p) (x_vb p) end)
      end
  | PSt up o =>
      match x_oth p with None => Some (s, p) | Some _ =>
        e <- v_id p o ;; t <- cadd (x_a p) (x_b p) ;;
        if (t <? x_c p)%N then l <- set_at (v_w up s) e t ;; Some (v_put_w up s l, p) else Some (s, p)
      end
  | PMark up o =>
      match x_oth p with None => Some (s, p) | Some _ =>
        e <- v_id p o ;; t <- cadd (x_a p) (x_b p) ;;
        if (t <? x_c p)%N then l <- set_at (v_v up s) e (N.max (x_va p) (x_vb p)) ;; Some (v_put_v up s l, p) else Some (s, p)
      end
  end.
Definition vrun (code : list pinstr) (sp : vshared * vregs) : option (vshared * vregs) := foldM vstep code sp.
Definition vregs_new (ws : list (option nat)) : vregs := mkVr ws None 0 0 0 0 0.
(** l.4-83 *)
Definition customize_with_validity (c : cch) (up dn upv dnv : list N) : option vshared :=
  code <- pnodes_code c 0 (cch_nodes c) ;;
  '(s, _) <- vrun code (mkVsh up dn upv dnv, vregs_new (repeat None (cch_nodes c))) ;; Some s.

(** ** The parallel version (parallelization.rs l.362-411): as [qtask], [qstep], [qsteps], [qpanic] of CCHPerfect.v with [vstep] for the instructions *)
Inductive vtask :=
| VExec (code : list pinstr) (subs : list vtask)
| VRun (p : vregs) (code : list pinstr) (subs : list vtask)
| VScope (subs : list vtask).
Inductive vfinished : vtask -> Prop := vf_scope subs : Forall vfinished subs -> vfinished (VScope subs).
Inductive vtstep : vshared * list (list (option nat)) -> vtask -> vshared * list (list (option nat)) -> vtask -> Prop :=
| vs_start s pool1 ws pool2 code subs : vtstep (s, pool1 ++ ws :: pool2) (VExec code subs) (s, pool1 ++ pool2) (VRun (vregs_new ws) code subs)
| vs_instr s pool p i code subs s' p' : vstep (s, p) i = Some (s', p') -> vtstep (s, pool) (VRun p (i :: code) subs) (s', pool) (VRun p' code subs)
| vs_end s pool p subs : vtstep (s, pool) (VRun p [] subs) (s, x_ws p :: pool) (VScope subs)
| vs_sub s pool l1 t l2 s' pool' t' : vtstep (s, pool) t (s', pool') t' -> vtstep (s, pool) (VScope (l1 ++ t :: l2)) (s', pool') (VScope (l1 ++ t' :: l2)).
Inductive vtsteps : nat -> vshared * list (list (option nat)) -> vtask -> vshared * list (list (option nat)) -> vtask -> Prop :=
| vss_nil s t : vtsteps 0 s t s t
| vss_cons k s t s1 t1 s2 t2 : vtstep s t s1 t1 -> vtsteps k s1 t1 s2 t2 -> vtsteps (S k) s t s2 t2.
(** some worker is about to panic *)
Inductive vpanic : vshared -> vtask -> Prop :=
| vp_instr s p i code subs : vstep (s, p) i = None -> vpanic s (VRun p (i :: code) subs)
| vp_sub s l1 t l2 : vpanic s t -> vpanic s (VScope (l1 ++ t :: l2)).
(** customize_with_aux makes the same calls as for the perfect customization, [par_perfect] *)
Fixpoint vtask_of (t : qtask) : vtask :=
  match t with
  | QExec code subs => VExec code (map vtask_of subs)
  | QRun p code subs => VRun (mkVr (r_ws p) (r_oth p) (r_a p) (r_b p) (r_c p) 0 0) code (map vtask_of subs)
  | QScope subs => VScope (map vtask_of subs)
  end.
Definition par_validity (c : cch) (threads : nat) (sep : septree) : option vtask := t <- par_perfect c threads sep ;; Some (vtask_of t).
