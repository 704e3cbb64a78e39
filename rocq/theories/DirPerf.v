(** Model of the perfect customization of directed CCHs: engine/src/algo/customizable_contraction_hierarchy/customization/directed.rs l.180-302
    customize_directed_perfect_without_rebuild, sequential execution (feature cch-disable-par: one call for all nodes). Accesses through raw pointers
    are bounds checked in the model. The triangle counter (statistics) is left out. *)
From Verif Require Import Base Graph BitVec CCH CCHRebuild DirCCH.

(** customized.upward, customized.downward, upward_modified, downward_modified *)
Record dps := mkDps { dp_up : list N; dp_dn : list N; dp_um : list bool; dp_dm : list bool }.
Definition dpw (b : bool) (s : dps) : list N := if b then dp_up s else dp_dn s.
Definition dpm (b : bool) (s : dps) : list bool := if b then dp_um s else dp_dm s.
Definition dp_put (b : bool) (s : dps) (l : list N) (m : list bool) : dps := if b then mkDps l (dp_dn s) m (dp_dm s) else mkDps (dp_up s) l (dp_um s) m.

(** e.g. cch.forward()[x].iter().zip(cch.forward().range(x)) *)
Definition dp_ids (fo hd : list nat) (x : nat) : option (list (nat * nat)) :=
  '(a, b) <- fo_range fo x ;; h <- slice hd a b ;; Some (combine h (seq a (b - a))).
Definition dp_arcs (d : dcch) (b : bool) (x : nat) : option (list (nat * nat)) := if b then dp_ids (d_ffo d) (d_fhead d) x else dp_ids (d_bfo d) (d_bhead d) x.
(** e.g. l.209-214: the weight of [te] by that of [a] in the same direction plus that of [sc] in direction [sd] *)
Definition dp_relax (b : bool) (te a : nat) (sd : bool) (sc : nat) (s : dps) : option dps :=
  wa <- nth_error (dpw b s) a ;; wb <- nth_error (dpw sd s) sc ;; r <- cadd wa wb ;; wt <- nth_error (dpw b s) te ;;
  if (r <? wt)%N then l <- set_at (dpw b s) te r ;; m <- set_at (dpm b s) te true ;; Some (dp_put b s l m) else Some s.
(** the bodies of the four loops over (target, shortcut_edge_id); [b]: direction of edge_id, [sd]: of shortcut_edge_id; [ws]: the half of the workspace for [b] *)
Definition dp_tri (b sd : bool) (ws : list (option nat)) (e : nat) (s : dps) (ts : nat * nat) : option dps :=
  let '(t, sc) := ts in
  o <- nth_error ws t ;;
  match o with
  | None => Some s
  | Some other =>
      match b, sd with
      | true, true => dp_relax true other e true sc s       (* l.206-219 *)
      | true, false => dp_relax true e other false sc s     (* l.221-233 *)
      | false, true => dp_relax false e other true sc s     (* l.237-249 *)
      | false, false => dp_relax false other e false sc s   (* l.251-263 *)
      end
  end.
(** l.205-234 or l.236-264, one (node, edge_id) *)
Definition dp_edge (d : dcch) (b : bool) (ws : list (option nat)) (s : dps) (ye : nat * nat) : option dps :=
  let '(y, e) := ye in
  fs <- dp_arcs d true y ;; s <- foldM (dp_tri b true ws e) fs s ;;
  bs <- dp_arcs d false y ;; foldM (dp_tri b false ws e) bs s.
Definition dp_set (l : list (nat * nat)) (ws : list (option nat)) : option (list (option nat)) := foldM (fun w '(y, e) => set_at w y (Some e)) l ws.
Definition dp_clr (l : list (nat * nat)) (ws : list (option nat)) : option (list (option nat)) := foldM (fun w '(y, _) => set_at w y None) l ws.
(** l.196-272; the workspace is kept as two vectors *)
Definition dp_node (d : dcch) (st : list (option nat) * list (option nat) * dps) (cur : nat) : option (list (option nat) * list (option nat) * dps) :=
  let '(w0, w1, s) := st in
  fs <- dp_arcs d true cur ;; bs <- dp_arcs d false cur ;;
  w0 <- dp_set fs w0 ;; w1 <- dp_set bs w1 ;;
  s <- foldM (dp_edge d true w0) fs s ;; s <- foldM (dp_edge d false w1) bs s ;;
  w0 <- dp_clr fs w0 ;; w1 <- dp_clr bs w1 ;; Some (w0, w1, s).
(** l.180-302 *)
Definition directed_perfect (d : dcch) (up dn : list N) : option dps :=
  let n := dcch_nodes d in
  '(_, _, s) <- foldM (dp_node d) (rev (seq 0 n)) (repeat None n, repeat None n, mkDps up dn (repeat false (length up)) (repeat false (length dn))) ;; Some s.

(** l.174-177 customize_directed_perfect with the rebuild of one thread, see CCHRebuild *)
Definition customize_directed_perfect (d : dcch) (kd : customized) : option customized :=
  s <- directed_perfect d (weight (k_fw kd)) (weight (k_bw kd)) ;;
  r <- rebuild_seq (mkFo (d_ffo d) (d_fhead d) (dp_up s)) (mkFo (d_bfo d) (d_bhead d) (dp_dn s)) (dp_um s) (dp_dm s) (k_upu kd) (k_dnu kd) ;;
  fw <- fo_new (x_fo (fst r)) (x_head (fst r)) (x_wt (fst r)) ;; bw <- fo_new (x_fo (snd r)) (x_head (snd r)) (x_wt (snd r)) ;;
  Some (mkCust fw bw (x_unp (fst r)) (x_unp (snd r)) (x_tail (snd r)) (d_elim d) (d_order d) (d_ranks d)).
