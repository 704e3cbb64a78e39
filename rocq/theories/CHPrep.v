(** Model of engine/src/algo/contraction_hierarchy/mod.rs: ContractionGraph, PartialContractionGraph, contract, overlay.
    A PartialContractionGraph (slice of the nodes from [off] on, with id_offset = [off]) is modelled by the list of all nodes
    and [off]; index [v - id_offset] into the slice is index [v] into the list and fails for [v < off]. *)
From Verif Require Import Base IndexHeap TsVec Graph Dijkstra DijServer Bidir.

(** (Link { node, weight }, middle node) *)
Definition carc := (nat * N * nat)%type.
Definition ca_node (a : carc) : nat := fst (fst a).
Definition ca_weight (a : carc) : N := snd (fst a).
(** Node { outgoing, incoming }, l.44-47 *)
Definition cnode := (list carc * list carc)%type.

(** ShortcutResult, l.35-40 *)
Inductive sresult := NewShortcut | ShortenedExisting | ShorterExisting.
Definition sresult_eqb (a b : sresult) : bool :=
  match a, b with NewShortcut, NewShortcut | ShortenedExisting, ShortenedExisting | ShorterExisting, ShorterExisting => true | _, _ => false end.

(** Node::insert_or_decrease, l.58-80 *)
Fixpoint ins_or_dec (ls : list carc) (node : nat) (weight : N) (over : nat) : list carc * sresult :=
  match ls with
  | [] => ([(node, weight, over)], NewShortcut)
  | a :: ls =>
      if node =? ca_node a then
        if (weight <? ca_weight a)%N then ((ca_node a, weight, over) :: ls, ShortenedExisting) else (a :: ls, ShorterExisting)
      else let '(r, x) := ins_or_dec ls node weight over in (a :: r, x)
  end.

(** Iterator::position *)
Fixpoint ca_pos (ls : list carc) (v : nat) : option nat :=
  match ls with
  | [] => None
  | a :: ls => if v =? ca_node a then Some 0 else option_map S (ca_pos ls v)
  end.
(** Vec::swap_remove: the last element takes the place of the removed one *)
Definition swap_remove (ls : list carc) (p : nat) : list carc :=
  match nth_error ls (length ls - 1) with Some x => removelast (upd ls p x) | None => ls end.
(** remove_outgoing, remove_incmoing, l.82-92 *)
Definition ca_remove (ls : list carc) (v : nat) : option (list carc) := p <- ca_pos ls v ;; Some (swap_remove ls p).

(** self.nodes[(v - self.id_offset) as usize] *)
Definition pn_at (nodes : list cnode) (off v : nat) : option cnode := _ <- guard (off <=? v) ;; nth_error nodes v.

(** remove_edges_to_removed, l.245-253; [off] is the id_offset of the subgraph *)
Definition rm_out (off : nat) (nodes : list cnode) (a : carc) : option (list cnode) :=
  '(o, i) <- pn_at nodes off (ca_node a) ;; o' <- ca_remove o (off - 1) ;; set_at nodes (ca_node a) (o', i).
Definition rm_in (off : nat) (nodes : list cnode) (a : carc) : option (list cnode) :=
  '(o, i) <- pn_at nodes off (ca_node a) ;; i' <- ca_remove i (off - 1) ;; set_at nodes (ca_node a) (o, i').
Definition rm_edges (off : nat) (nodes : list cnode) (node : cnode) : option (list cnode) :=
  nodes <- foldM (rm_out off) (snd node) nodes ;; foldM (rm_in off) (fst node) nodes.

(** PartialContractionGraph::insert_or_decrease, l.255-261 *)
Definition pn_insert (off : nat) (nodes : list cnode) (from to : nat) (weight : N) (over : nat) : option (list cnode) :=
  '(o, i) <- pn_at nodes off from ;;
  let '(o', r1) := ins_or_dec o to weight over in
  nodes <- set_at nodes from (o', i) ;;
  '(o, i) <- pn_at nodes off to ;;
  let '(i', r2) := ins_or_dec i from weight over in
  nodes <- set_at nodes to (o, i') ;;
  _ <- guard (sresult_eqb r1 r2) ;;
  Some nodes.

(** ForwardWrapper and BackwardWrapper, l.314-390: nodes and heads are shifted by the offset *)
Definition shifted (off : nat) (ls : list carc) : option (list (nat * N)) :=
  mapM (fun a => _ <- guard (off <=? ca_node a) ;; Some (ca_node a - off, ca_weight a)) ls.
Definition fw_wrap (off : nat) (nodes : list cnode) (u : nat) : option (list (nat * N)) := '(o, _) <- nth_error nodes (off + u) ;; shifted off o.
Definition bw_wrap (off : nat) (nodes : list cnode) (u : nat) : option (list (nat * N)) := '(_, i) <- nth_error nodes (off + u) ;; shifted off i.

(** the recycled search data *)
Definition wdata := (dij unit * dij unit)%type.
(** shortcut_required, l.263-294; the witness search is the bidirectional Dijkstra search of Bidir.v with the zero potential
    and the direction with the smaller key *)
Definition shortcut_required (off : nat) (nodes : list cnode) (from to : nat) (weight : N) (d : wdata) : option (bool * wdata) :=
  if from =? to then Some (false, d) else
  _ <- guard (off <=? from) ;; _ <- guard (off <=? to) ;;
  '(sv, r) <- bd_distance_cap (length nodes) (fw_wrap off nodes) (bw_wrap off nodes) zero_bipot min_key_dir (mkBS (fst d) (snd d) 0 tt) (from - off) (to - off) weight ;;
  Some (match r with Some l => negb (l <? weight)%N | None => true end, (bs_fw sv, bs_bw sv)).

(** body of the two for loops, l.174-185 *)
Definition try_shortcut (off : nat) (a b : carc) (st : list cnode * wdata) : option (list cnode * wdata) :=
  let '(nodes, d) := st in
  w <- cadd (ca_weight a) (ca_weight b) ;;
  '(req, d') <- shortcut_required off nodes (ca_node a) (ca_node b) w d ;;
  if (req : bool) then nodes' <- pn_insert off nodes (ca_node a) (ca_node b) w (off - 1) ;; Some (nodes', d') else Some (nodes, d').
(** remove_lowest, l.231-243, of the node [x] *)
Definition remove_lowest (nodes : list cnode) (x : nat) : option (cnode * list cnode) :=
  node <- nth_error nodes x ;; nodes' <- rm_edges (S x) nodes node ;; Some (node, nodes').
(** one round of the while loop, l.167-189 *)
Definition contract_node (st : list cnode * wdata) (x : nat) : option (list cnode * wdata) :=
  let '(nodes, d) := st in
  '(node, nodes) <- remove_lowest nodes x ;;
  foldM (fun st a => foldM (fun st b => try_shortcut (S x) a b st) (fst node) st) (snd node) (nodes, d).

(** contract_partially, l.153-190: after [count] rounds the loop is left, but only after remove_lowest of the next node *)
Definition contract_partially (nodes : list cnode) (count : nat) : option (list cnode) :=
  let n := length nodes in
  '(nodes, _) <- foldM contract_node (seq 0 (Nat.min count n)) (nodes, (dij_new n tt, dij_new n tt)) ;;
  if count <? n then '(_, nodes) <- remove_lowest nodes count ;; Some nodes else Some nodes.

(** ContractionGraph::new, l.102-145; [links] and [rev] are the link iterators of the graph and of the reversed graph *)
Definition cg_arcs (n : nat) (order ranks : list nat) (links : nat -> option (list (nat * N))) (x : nat) : option (list carc) :=
  u <- nth_error order x ;;
  ls <- links u ;;
  mapM (fun a => r <- nth_error ranks (fst a) ;; Some (r, snd a, n)) (filter (fun a => negb (fst a =? u)) ls).
Definition cg_new (n m : nat) (order ranks : list nat) (links : nat -> option (list (nat * N))) : option (list cnode) :=
  rev <- reversed 0%N n m links ;;
  outs <- mapM (cg_arcs n order ranks links) (seq 0 n) ;;
  ins <- mapM (cg_arcs n order ranks (link_iter rev)) (seq 0 n) ;;
  Some (combine outs ins).

(** ContractionHierarchy, l.17-21 *)
Record chier := mkCHier { chi_fw : fograph N; chi_bw : fograph N; chi_mid : list nat * list nat }.
(** into_first_out_graphs, l.200-218 *)
Definition into_graphs (nodes : list cnode) : option chier :=
  f <- from_adjacency_lists (map (fun nd => map fst (fst nd)) nodes) ;;
  b <- from_adjacency_lists (map (fun nd => map fst (snd nd)) nodes) ;;
  Some (mkCHier f b (map snd (concat (map fst nodes)), map snd (concat (map snd nodes)))).

(** overlay, l.298-303, and contract, l.306-310 *)
Definition ch_overlay (g : fograph N) (order ranks : list nat) (count : nat) : option (fograph N * fograph N) :=
  nodes <- cg_new (num_nodes g) (num_arcs g) order ranks (link_iter g) ;;
  nodes <- contract_partially nodes count ;;
  c <- into_graphs nodes ;; Some (chi_fw c, chi_bw c).
Definition ch_contract (g : fograph N) (order ranks : list nat) : option chier :=
  nodes <- cg_new (num_nodes g) (num_arcs g) order ranks (link_iter g) ;;
  nodes <- contract_partially nodes (length nodes) ;;
  into_graphs nodes.
