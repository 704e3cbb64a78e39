(** Model of directed CCHs: engine/src/algo/customizable_contraction_hierarchy/mod.rs l.159-219 (to_directed_cch), l.221-276
    (remove_always_infinity), l.606-671 (DirectedCCH), customization.rs l.37-51 and customization/directed.rs l.3-167. *)
From Verif Require Import Base Graph BitVec CCH.

(** mod.rs l.606-620 DirectedCCH, without the separator tree *)
Record dcch := mkDcch {
  d_ffo : list nat; d_fhead : list nat; d_ftail : list nat;
  d_bfo : list nat; d_bhead : list nat; d_btail : list nat;
  d_order : list nat; d_ranks : list nat;
  d_fw_orig : list (list nat); d_bw_orig : list (list nat);
  d_elim : list (option nat);
  d_finv : fograph nat; d_binv : fograph nat }.

(** mod.rs l.178-191: the entries of the edges of weight below INFINITY *)
Definition keep_finite {A} (l : list A) (ws : list N) : list A := map fst (filter (fun x => snd x <? INF)%N (combine l ws)).
(** mod.rs l.167-176, l.193-200, one of the two directions (they are filled in one loop but do not interact) *)
Definition finite_side (g : fograph N) (n : nat) : option (list nat * list nat * list nat) :=
  foldM (fun '(fo, hd, tl) u =>
    ls <- link_iter g u ;;
    let hs := map fst (filter (fun l => snd l <? INF)%N ls) in
    Some (fo ++ [length (hd ++ hs)], hd ++ hs, tl ++ map (fun _ => u) hs)) (seq 0 n) ([0], [], []).
(** UnweightedFirstOutGraph::new (first_out_graph.rs l.384-391) and ReversedGraphWithEdgeIds::reversed *)
Definition inverted (fo hd : list nat) : option (fograph nat) :=
  g <- fo_new fo hd (map (fun _ => tt) hd) ;; reversed 0 (num_nodes g) (num_arcs g) (links_ids g).

(** mod.rs l.159-219 to_directed_cch *)
Definition to_directed (c : cch) : option dcch :=
  k <- always_infinity c ;;
  '(ffo, fhd, ftl) <- finite_side (k_fw k) (cch_nodes c) ;;
  '(bfo, bhd, btl) <- finite_side (k_bw k) (cch_nodes c) ;;
  finv <- inverted ffo fhd ;; binv <- inverted bfo bhd ;;
  Some (mkDcch ffo fhd ftl bfo bhd btl (c_order c) (c_ranks c)
    (keep_finite (c_fw_orig c) (weight (k_fw k))) (keep_finite (c_bw_orig c) (weight (k_bw k))) (c_elim c) finv binv).

(** mod.rs l.622-626 *)
Definition dcch_nodes (d : dcch) : nat := length (d_ffo d) - 1.
(** Slcs::range *)
Definition fo_range (fo : list nat) (u : nat) : option (nat * nat) := a <- nth_error fo u ;; b <- nth_error fo (u + 1) ;; Some (a, b).

(** directed.rs l.47-52: copy the weights of the edges of the current node into a workspace *)
Definition dload (l : list (nat * N)) (w : list (N * unp)) : option (list (N * unp)) := foldM (fun w '(x, v) => set_at w x (v, no_unp)) l w.
(** directed.rs l.62-88, l.98-124: relax the lower triangles with a fixed first edge; [l] is already reversed, [mk] builds the unpacking information *)
Fixpoint drelax (cur : nat) (first : N) (mk : nat -> unp) (l : list (nat * N * nat)) (w : list (N * unp)) : option (list (N * unp)) :=
  match l with
  | [] => Some w
  | (x, v, e2) :: l' =>
      if x <=? cur then Some w else
      r <- nth_error w x ;; t <- cadd v first ;;
      w' <- (if (t <? fst r)%N then set_at w x (t, mk e2) else Some w) ;;
      drelax cur first mk l' w'
  end.
(** directed.rs l.55-89 and l.92-125, one downward edge [e1] from [z] of the current node: its weight is read from [ws1], the edges of [z] in
    the other direction are those of [fo2], [hd2] with the weights [ws2]. Slices as in CCH.v. *)
Definition drelax_edge (lo1 hi1 : nat) (ws1 : list N) (fo2 hd2 : list nat) (lo2 hi2 : nat) (ws2 : list N) (mk : nat -> nat -> unp) (cur : nat) (w : list (N * unp)) (ze : nat * nat) : option (list (N * unp)) :=
  let '(z, e1) := ze in
  first <- wget lo1 hi1 ws1 e1 ;;
  '(a, b) <- fo_range fo2 z ;;
  h <- slice hd2 a b ;; vs <- wslice lo2 hi2 ws2 a b ;;
  drelax cur first (mk e1) (rev (combine (combine h vs) (seq a (b - a)))) w.
(** directed.rs l.127-145: copy the results back, one direction *)
Definition dstore (lo hi : nat) (w : list (N * unp)) (s : list N * list unp) (xe : nat * nat) : option (list N * list unp) :=
  let '(x, e) := xe in
  _ <- guard (lo <=? e) ;; _ <- guard (e <? hi) ;;
  r <- nth_error w x ;; ws <- set_at (fst s) e (fst r) ;; us <- set_at (snd s) e (snd r) ;; Some (ws, us).
(** directed.rs l.37-146: the body of the loop over the nodes of a task. [lou], [hiu] and [lod], [hid] bound the slices of the upward and downward edges. *)
Definition dcustomize_node (d : dcch) (lou hiu lod hid : nat) (s : cst) (cur : nat) : option cst :=
  '(fa, fb) <- fo_range (d_ffo d) cur ;; '(ba, bb) <- fo_range (d_bfo d) cur ;;
  fh <- slice (d_fhead d) fa fb ;; us <- wslice lou hiu (s_up s) fa fb ;; wo <- dload (combine fh us) (s_wo s) ;;
  bh <- slice (d_bhead d) ba bb ;; ds <- wslice lod hid (s_dn s) ba bb ;; wi <- dload (combine bh ds) (s_wi s) ;;
  blows <- link_iter (d_binv d) cur ;;
  wo <- foldM (drelax_edge lod hid (s_dn s) (d_ffo d) (d_fhead d) lou hiu (s_up s) (fun e1 e2 => (Some e1, Some e2)) cur) blows wo ;;
  flows <- link_iter (d_finv d) cur ;;
  wi <- foldM (drelax_edge lou hiu (s_up s) (d_bfo d) (d_bhead d) lod hid (s_dn s) (fun e1 e2 => (Some e2, Some e1)) cur) flows wi ;;
  '(up, upu) <- foldM (dstore lou hiu wo) (combine fh (seq fa (fb - fa))) (s_up s, s_upu s) ;;
  '(dn, dnu) <- foldM (dstore lod hid wi) (combine bh (seq ba (bb - ba))) (s_dn s, s_dnu s) ;;
  Some (mkCst up dn upu dnu wo wi).
(** directed.rs l.3-167 customize_directed_basic, run sequentially (feature cch-disable-par): one task with all nodes *)
Definition customize_directed_basic (d : dcch) (up dn : list N) : option cst :=
  let n := dcch_nodes d in let mu := length (d_fhead d) in let md := length (d_bhead d) in
  foldM (dcustomize_node d 0 mu 0 md) (seq 0 n) (mkCst up dn (repeat no_unp mu) (repeat no_unp md) (repeat (INF, no_unp) n) (repeat (INF, no_unp) n)).
(** mod.rs l.436-471 CustomizedBasic of a directed CCH *)
Definition dcustomized_of (d : dcch) (s : cst) : option customized :=
  fw <- fo_new (d_ffo d) (d_fhead d) (s_up s) ;; bw <- fo_new (d_bfo d) (d_bhead d) (s_dn s) ;;
  Some (mkCust fw bw (s_upu s) (s_dnu s) (d_btail d) (d_elim d) (d_order d) (d_ranks d)).
(** customization.rs l.37-51 customize_directed *)
Definition customize_directed (d : dcch) (metric : fograph N) : option customized :=
  up <- prepare_weights (d_fw_orig d) metric (repeat INF (length (d_fhead d))) ;;
  dn <- prepare_weights (d_bw_orig d) metric (repeat INF (length (d_bhead d))) ;;
  s <- customize_directed_basic d up dn ;;
  dcustomized_of d s.

(** mod.rs l.221-276 remove_always_infinity *)
Definition keep_either {A} (l : list A) (fs bs : list N) : list A :=
  map (fun x => fst (fst x)) (filter (fun x => (snd (fst x) <? INF) || (snd x <? INF))%N (combine (combine l fs) bs)).
Definition remove_always_infinity (c : cch) : option cch :=
  k <- always_infinity c ;;
  let fw := weight (k_fw k) in let bw := weight (k_bw k) in
  '(fo, hd, tl) <- foldM (fun '(fo, hd, tl) u =>
      '(a, b) <- cch_range c u ;;
      h <- slice (c_head c) a b ;; fs <- slice fw a b ;; bs <- slice bw a b ;;
      let hd := hd ++ keep_either h fs bs in
      l <- nth_error fo (length fo - 1) ;; _ <- guard (l <=? length hd) ;;
      Some (fo ++ [length hd], hd, tl ++ repeat u (length hd - l))) (seq 0 (cch_nodes c)) ([0], [], []) ;;
  inv <- inverted fo hd ;;
  Some (mkCch fo hd tl (c_order c) (c_ranks c) (keep_either (c_fw_orig c) fw bw) (keep_either (c_bw_orig c) fw bw) (c_elim c) inv).
