(** Model of engine/src/algo/customizable_contraction_hierarchy: contraction.rs, mod.rs (CCH construction) and the
    basic customization of customization.rs. Ranks, node ids and edge ids are [nat]; the vectors of vectors of
    [Vecs] (util.rs l.91-133) are lists of lists; [InRangeOption] is [option] (util/in_range_option.rs; the sentinel
    u32::MAX is no id because edge and node counts are asserted to be below u32::MAX). *)
From Verif Require Import Base Graph BitVec.

(** contraction.rs l.28-37 Node::insert *)
Definition node_insert (es : list nat) (x : nat) : list nat :=
  if existsb (Nat.eqb x) es then es else es ++ [x].

(** contraction.rs l.41-78 Node::merge_neighbors; [a] = self.edges, [b] = others. The two one-sided cases push the
    remaining elements one by one. *)
Fixpoint merge_neighbors (a : list nat) : list nat -> list nat :=
  fix mb (b : list nat) : list nat :=
    match a, b with
    | x :: a', y :: b' =>
        match Nat.compare x y with
        | Lt => x :: merge_neighbors a' b
        | Gt => y :: mb b'
        | Eq => x :: merge_neighbors a' b'
        end
    | _ :: _, [] => a
    | [], _ => b
    end.

(** sort_unstable on u32: the result is determined by the input; modelled by insertion sort. *)
Fixpoint ins (x : nat) (l : list nat) : list nat :=
  match l with [] => [x] | y :: l' => if x <=? y then x :: l else y :: ins x l' end.
Fixpoint isort (l : list nat) : list nat := match l with [] => [] | x :: l' => ins x (isort l') end.
(** Vec::dedup *)
Fixpoint dedup (l : list nat) : list nat :=
  match l with
  | x :: l' => match dedup l' with y :: r => if x =? y then y :: r else x :: y :: r | [] => [x] end
  | [] => []
  end.

(** contraction.rs l.89-139 ContractionGraph::new. [links] lists the heads of the links of an original node. The
    split borrows of l.110-127 are index accesses; [neighbor == node] (subtraction underflow) is a panic. *)
Definition undirect_node (nodes : list (list nat)) (r : nat) : option (list (list nat)) :=
  es <- nth_error nodes r ;;
  foldM (fun nodes v => _ <- guard (negb (v =? r)) ;; l <- nth_error nodes v ;; set_at nodes v (node_insert l r)) es nodes.
Definition contraction_new (n : nat) (links : nat -> option (list nat)) (order ranks : list nat) : option (list (list nat)) :=
  nodes <- mapM (fun r => old <- nth_error order r ;; ls <- links old ;;
                          mapM (fun v => nth_error ranks v) (filter (fun v => negb (v =? old)) ls)) (seq 0 n) ;;
  nodes <- foldM undirect_node (seq 0 n) nodes ;;
  Some (map (fun '(r, es) => dedup (isort (filter (fun v => r <? v) es))) (combine (seq 0 n) nodes)).

(** contraction.rs l.142-174 contract, with PartialContractionGraph l.183-219: nodes are removed in ascending order;
    an access to a removed node underflows ([idx - id_offset]). *)
Definition contract_node (nodes : list (list nat)) (r : nat) : option (list (list nat)) :=
  es <- nth_error nodes r ;;
  match es with
  | [] => Some nodes
  | p :: others => _ <- guard (r <? p) ;; l <- nth_error nodes p ;; set_at nodes p (merge_neighbors l others)
  end.
Definition contraction_contract (nodes : list (list nat)) : option (list (list nat)) :=
  foldM contract_node (seq 0 (length nodes)) nodes.

(** contraction.rs l.225-246 decompose, adjancecy_lists_to_first_out_graph *)
Definition contracted_graph (nodes : list (list nat)) : option (fograph unit) :=
  from_adjacency_lists (map (map (fun v => (v, tt))) nodes).

(** mod.rs l.31-41 CCH, without the separator tree (modelled separately). *)
Record cch := mkCch {
  c_fo : list nat; c_head : list nat; c_tail : list nat;
  c_order : list nat; c_ranks : list nat;
  c_fw_orig : list (list nat); c_bw_orig : list (list nat);
  c_elim : list (option nat);
  c_inv : fograph nat }.

(** link_iter of an unweighted graph with edge ids, first_out_graph.rs l.430-446 *)
Definition links_ids (g : fograph unit) (u : nat) : option (list (nat * nat)) :=
  '(a, b) <- range g u ;; h <- slice (head g) a b ;; Some (combine h (seq a (b - a))).

(** mod.rs l.117-122 build_elimination_tree *)
Definition build_elimination_tree (cg : fograph unit) : option (list (option nat)) :=
  mapM (fun u => ls <- link_iter cg u ;; Some (hd_error (map fst ls))) (seq 0 (num_nodes cg)).

(** mod.rs l.86-93: the original arcs from the node of rank [u] to the node of rank [v] (or vice versa) for every
    edge (u, v) of the contracted graph *)
Definition orig_arcs (g : fograph N) (order : list nat) (cg : fograph unit) (fw : bool) : option (list (list nat)) :=
  ls <- mapM (fun u => hs <- link_iter cg u ;;
          mapM (fun v => ou <- nth_error order u ;; ov <- nth_error order v ;;
                         if fw then edge_indices g ou ov else edge_indices g ov ou) (map fst hs)) (seq 0 (num_nodes cg)) ;;
  Some (concat ls).

(** mod.rs l.95-99 *)
Definition fill_tails (cg : fograph unit) : option (list nat) :=
  foldM (fun tail u => '(a, b) <- range cg u ;; foldM (fun t e => set_at t e u) (seq a (b - a)) tail)
    (seq 0 (num_nodes cg)) (repeat 0 (num_arcs cg)).

(** mod.rs l.79-115 new_from *)
Definition cch_new_from (g : fograph N) (order ranks : list nat) (cg : fograph unit) : option cch :=
  et <- build_elimination_tree cg ;;
  fwo <- orig_arcs g order cg true ;;
  bwo <- orig_arcs g order cg false ;;
  tl <- fill_tails cg ;;
  inv <- reversed 0 (num_nodes cg) (num_arcs cg) (links_ids cg) ;;
  Some (mkCch (first_out cg) (head cg) tl order ranks fwo bwo et inv).

(** mod.rs l.25-27 contract *)
Definition cch_contract (g : fograph N) (order ranks : list nat) : option cch :=
  nodes0 <- contraction_new (num_nodes g) (fun u => ls <- link_iter g u ;; Some (map fst ls)) order ranks ;;
  nodes <- contraction_contract nodes0 ;;
  cg <- contracted_graph nodes ;;
  cch_new_from g order ranks cg.

(** mod.rs l.278-290, 139-156 *)
Definition cch_nodes (c : cch) : nat := length (c_fo c) - 1.
Definition cch_arcs (c : cch) : nat := length (c_head c).
Definition cch_range (c : cch) (u : nat) : option (nat * nat) :=
  a <- nth_error (c_fo c) u ;; b <- nth_error (c_fo c) (u + 1) ;; Some (a, b).

(** Unpacking information of an edge: the two edges of a lower triangle. *)
Definition unp := (option nat * option nat)%type.

(** customization.rs l.69-94 prepare_weights, one of the two halves. The parallel iterators work on disjoint
    elements, so their schedule does not matter. *)
Definition prepare_weights (orig : list (list nat)) (metric : fograph N) (ws : list N) : option (list N) :=
  mapM (fun '(w, arcs) => foldM (fun w e => l <- link metric e ;; Some (N.min (snd l) w)) arcs w) (combine ws orig).
(** customization.rs l.96-117 prepare_zero_weights, one half *)
Definition prepare_zero_weights (orig : list (list nat)) (ws : list N) : list N :=
  map (fun '(w, arcs) => match arcs with [] => w | _ :: _ => 0%N end) (combine ws orig).

(** State of the customization: weights, unpacking information, and the two thread local workspaces. *)
Record cst := mkCst { s_up : list N; s_dn : list N; s_upu : list unp; s_dnu : list unp; s_wo : list (N * unp); s_wi : list (N * unp) }.
Definition no_unp : unp := (None, None).

(** customization.rs l.156-164: copy the weights of the upward edges into the workspaces *)
Definition load_edges (l : list (nat * N * N)) (w : list (N * unp) * list (N * unp)) : option (list (N * unp) * list (N * unp)) :=
  foldM (fun w '(x, dw, uw) =>
    wi <- set_at (snd w) x (dw, no_unp) ;; wo <- set_at (fst w) x (uw, no_unp) ;; Some (wo, wi)) l w.

(** customization.rs l.175-209: relax the lower triangles (low node, current node, x); [l] is already reversed *)
Fixpoint relax_low (cur e1 : nat) (fd fu : N) (l : list (nat * N * N * nat)) (wo wi : list (N * unp))
    : option (list (N * unp) * list (N * unp)) :=
  match l with
  | [] => Some (wo, wi)
  | (x, uw, dw, e2) :: l' =>
      if x <=? cur then Some (wo, wi) else
      r <- nth_error wo x ;; t <- cadd uw fd ;;
      wo' <- (if (t <? fst r)%N then set_at wo x (t, (Some e1, Some e2)) else Some wo) ;;
      r2 <- nth_error wi x ;; t2 <- cadd dw fu ;;
      wi' <- (if (t2 <? fst r2)%N then set_at wi x (t2, (Some e2, Some e1)) else Some wi) ;;
      relax_low cur e1 fd fu l' wo' wi'
  end.

(** A task gets the sub-slices [lo..hi) of the weight vectors and the offset [lo]; modelled as the whole vectors with
    an access window: index [e - lo] of the slice is [e] of the vector, and panics unless lo <= e < hi. *)
Definition wslice {A} (lo hi : nat) (l : list A) (a b : nat) : option (list A) :=
  _ <- guard (lo <=? a) ;; _ <- guard (b <=? hi) ;; slice l a b.
Definition wget {A} (lo hi : nat) (l : list A) (e : nat) : option A :=
  _ <- guard (lo <=? e) ;; _ <- guard (e <? hi) ;; nth_error l e.

(** customization.rs l.166-210: one downward edge of the current node *)
Definition relax_edge (c : cch) (lo hi : nat) (up dn : list N) (cur : nat) (w : list (N * unp) * list (N * unp)) (ze : nat * nat)
    : option (list (N * unp) * list (N * unp)) :=
  let '(z, e1) := ze in
  fd <- wget lo hi dn e1 ;; fu <- wget lo hi up e1 ;;
  '(a, b) <- cch_range c z ;;
  h <- slice (c_head c) a b ;; us <- wslice lo hi up a b ;; ds <- wslice lo hi dn a b ;;
  relax_low cur e1 fd fu (rev (combine (combine (combine h us) ds) (seq a (b - a)))) (fst w) (snd w).

(** customization.rs l.212-228: copy the results back *)
Definition store_edge (lo hi : nat) (s : cst) (xe : nat * nat) : option cst :=
  let '(x, e) := xe in
  _ <- guard (lo <=? e) ;; _ <- guard (e <? hi) ;;
  ri <- nth_error (s_wi s) x ;; ro <- nth_error (s_wo s) x ;;
  dn <- set_at (s_dn s) e (fst ri) ;; up <- set_at (s_up s) e (fst ro) ;;
  dnu <- set_at (s_dnu s) e (snd ri) ;; upu <- set_at (s_upu s) e (snd ro) ;;
  Some (mkCst up dn upu dnu (s_wo s) (s_wi s)).

(** customization.rs l.150-229: the body of the loop over the nodes of a task *)
Definition customize_node (c : cch) (lo hi : nat) (s : cst) (cur : nat) : option cst :=
  '(a, b) <- cch_range c cur ;;
  h <- slice (c_head c) a b ;; us <- wslice lo hi (s_up s) a b ;; ds <- wslice lo hi (s_dn s) a b ;;
  '(wo, wi) <- load_edges (combine (combine h ds) us) (s_wo s, s_wi s) ;;
  lows <- link_iter (c_inv c) cur ;;
  '(wo, wi) <- foldM (relax_edge c lo hi (s_up s) (s_dn s) cur) lows (wo, wi) ;;
  foldM (store_edge lo hi) (combine h (seq a (b - a))) (mkCst (s_up s) (s_dn s) (s_upu s) (s_dnu s) wo wi).
(** customization.rs l.137-232: the closure [customize] for the nodes u..u+k-1 *)
Definition customize_nodes (c : cch) (lo hi u k : nat) (s : cst) : option cst := foldM (customize_node c lo hi) (seq u k) s.

(** mod.rs l.436-457 CustomizedBasic; the graphs are built by FirstOutGraph::new (l.466-471) *)
Record customized := mkCust { k_fw : fograph N; k_bw : fograph N; k_upu : list unp; k_dnu : list unp; k_btail : list nat;
  k_elim : list (option nat); k_order : list nat; k_ranks : list nat }.

(** customization.rs l.119-250 customize_basic, run sequentially: one task with all nodes (what
    SeperatorBasedParallelCustomization does with feature cch-disable-par; for the parallel version see CCHPar.v).
    The workspaces are new vectors. *)
Definition customize_basic (c : cch) (up dn : list N) : option cst :=
  let n := cch_nodes c in let m := cch_arcs c in
  customize_nodes c 0 m 0 n
    (mkCst up dn (repeat no_unp m) (repeat no_unp m) (repeat (INF, no_unp) n) (repeat (INF, no_unp) n)).
Definition customized_of (c : cch) (s : cst) : option customized :=
  fw <- fo_new (c_fo c) (c_head c) (s_up s) ;; bw <- fo_new (c_fo c) (c_head c) (s_dn s) ;;
  Some (mkCust fw bw (s_upu s) (s_dnu s) (c_tail c) (c_elim c) (c_order c) (c_ranks c)).

(** customization.rs l.20-35 customize *)
Definition customize (c : cch) (metric : fograph N) : option customized :=
  let m := cch_arcs c in
  up <- prepare_weights (c_fw_orig c) metric (repeat INF m) ;;
  dn <- prepare_weights (c_bw_orig c) metric (repeat INF m) ;;
  s <- customize_basic c up dn ;;
  customized_of c s.
(** customization.rs l.55-67 always_infinity *)
Definition always_infinity (c : cch) : option customized :=
  let m := cch_arcs c in
  s <- customize_basic c (prepare_zero_weights (c_fw_orig c) (repeat INF m)) (prepare_zero_weights (c_bw_orig c) (repeat INF m)) ;;
  customized_of c s.
