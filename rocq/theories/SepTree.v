(** Model of separator decompositions: engine/src/algo/customizable_contraction_hierarchy/separator_decomposition.rs,
    reorder.rs and CCH::fix_order_and_build in mod.rs. Node ids are [nat]. *)
From Verif Require Import Base Graph SpecGraph NodeOrder CCH.

(** separator_decomposition.rs l.6-9 *)
Inductive sepnodes := Consecutive (a b : nat) | Random (l : list nat).
(** l.53-58 iter *)
Definition sn_list (s : sepnodes) : list nat := match s with Consecutive a b => rev (seq a (b - a)) | Random l => l end.
(** l.12-18 *)
Definition sn_new : sepnodes := Consecutive 0 0.
Definition sn_one (x : nat) : sepnodes := Consecutive x (x + 1).
(** l.20-33 push *)
Definition sn_push (s : sepnodes) (x : nat) : sepnodes :=
  match s with
  | Consecutive a b => if (0 <? a) && (x =? a - 1) then Consecutive (a - 1) b else Random (rev (seq a (b - a)) ++ [x])
  | Random l => Random (l ++ [x])
  end.
(** l.42-45 len *)
Definition sn_len (s : sepnodes) : nat := match s with Consecutive a b => b - a | Random l => length l end.
(** l.47-51 highest_ranked_node *)
Definition sn_high (s : sepnodes) : option nat :=
  match s with Consecutive a b => if a <? b then Some (b - 1) else None | Random l => hd_error l end.

(** l.82-87 *)
Inductive septree := Sep (nodes : sepnodes) (children : list septree) (num : nat).
Definition st_nodes (t : septree) : sepnodes := let '(Sep s _ _) := t in s.
Definition st_children (t : septree) : list septree := let '(Sep _ l _) := t in l.
Definition st_num (t : septree) : nat := let '(Sep _ _ k) := t in k.
Definition total (l : list septree) : nat := list_sum (map st_num l).

(** l.120-134: the children of each node of the forest, and its roots. The enum Children (l.173-178) is a list here:
    None, One and Many are lists with no, one and more elements. *)
Definition child_step (s : list (list nat) * list nat) (xp : nat * option nat) : option (list (list nat) * list nat) :=
  match snd xp with
  | Some p => l <- nth_error (fst s) p ;; ch <- set_at (fst s) p (l ++ [fst xp]) ;; Some (ch, snd s)
  | None => Some (fst s, snd s ++ [fst xp])
  end.
Definition child_lists (elim : list (option nat)) : option (list (list nat) * list nat) :=
  foldM child_step (combine (seq 0 (length elim)) elim) (repeat [] (length elim), []).

(** l.146-152: walk down while there is exactly one child *)
Fixpoint chain (fuel : nat) (ch : list (list nat)) (node : nat) (nodes : sepnodes) : option (nat * sepnodes) :=
  match fuel with
  | O => None
  | S f => cs <- nth_error ch node ;; match cs with [x] => chain f ch x (sn_push nodes x) | _ => Some (node, nodes) end
  end.
(** l.145-171 new_subtree, with its debug assertions *)
Fixpoint new_subtree (fuel : nat) (ch : list (list nat)) (root : nat) : option septree :=
  match fuel with
  | O => None
  | S f =>
      '(node, nodes) <- chain fuel ch root (sn_one root) ;;
      cs <- nth_error ch node ;;
      subs <- mapM (fun x => _ <- guard (x <? node) ;; new_subtree f ch x) cs ;;
      let num := sn_len nodes + total subs in
      _ <- guard (0 <? num) ;; _ <- guard (0 <? sn_len nodes) ;;
      Some (Sep nodes subs num)
  end.
(** l.118-143 SeparatorTree::new *)
Definition sep_new (elim : list (option nat)) : option septree :=
  '(ch, roots) <- child_lists elim ;;
  subs <- mapM (new_subtree (S (length elim)) ch) roots ;;
  _ <- guard (total subs =? length elim) ;;
  Some (Sep sn_new subs (total subs)).

(** checked subtraction *)
Definition csub (a b : nat) : option nat := if b <=? a then Some (a - b) else None.
(** l.103: windows(2) *)
Fixpoint sizes_descend (l : list septree) : bool :=
  match l with
  | a :: (b :: _) as l' => (st_num b <=? st_num a) && sizes_descend l'
  | _ => true
  end.
(** l.91-112 validate_for_parallelization; u32 subtraction checked *)
Definition child_range (start : nat) (t : septree) : option nat :=
  h <- sn_high (st_nodes t) ;; s <- csub (h + 1) (st_num t) ;; _ <- guard (start =? s) ;; Some (start + st_num t).
Fixpoint validate (t : septree) : option unit :=
  match t with Sep nodes children num =>
    _ <- guard (match nodes with Consecutive _ _ => true | Random _ => false end) ;;
    h <- match sn_high nodes with Some h => Some h | None => csub num 1 end ;;
    start <- csub (h + 1) num ;;
    _ <- foldM child_range children start ;;
    _ <- guard (sizes_descend children) ;;
    (fix all (l : list septree) : option unit := match l with [] => Some tt | c :: l' => _ <- validate c ;; all l' end) children
  end.

(** reorder.rs l.48-54 reorder_children_by_size. [sort] is sort_unstable_by_key with the key num_nodes. *)
Fixpoint reorder_children (sort : list septree -> list septree) (fuel : nat) (t : septree) : option septree :=
  match fuel with
  | O => None
  | S f => match t with Sep nodes children num => ch <- mapM (reorder_children sort f) (sort children) ;; Some (Sep nodes ch num) end
  end.
(** reorder.rs l.56-61 to_ordering *)
Fixpoint to_ordering (t : septree) : list nat :=
  match t with Sep nodes children _ => sn_list nodes ++ flat_map to_ordering children end.
Fixpoint st_height (t : septree) : nat := match t with Sep _ l _ => S (list_max (map st_height l)) end.
(** reorder.rs l.79-90 reorder_for_seperator_based_customization *)
Definition reorder_for_sep (sort : list septree -> list septree) (debug : bool) (order : list nat) (t : septree) : option norder :=
  t' <- reorder_children sort (S (st_height t)) t ;;
  l <- mapM (fun r => nth_error order r) (to_ordering t') ;;
  from_node_order debug (rev l).
(** reorder.rs l.92-112 reorder_bfs; the queue is a list *)
Fixpoint bfs_nodes (fuel : nat) (q : list septree) (acc : list nat) : option (list nat) :=
  match q with
  | [] => Some acc
  | t :: q' => match fuel with O => None | S f => bfs_nodes f (q' ++ st_children t) (acc ++ sn_list (st_nodes t)) end
  end.
Fixpoint st_count (t : septree) : nat := match t with Sep _ l _ => S (list_sum (map st_count l)) end.
Definition reorder_bfs (debug : bool) (order : list nat) (t : septree) : option norder :=
  l <- bfs_nodes (st_count t) [t] [] ;;
  l <- mapM (fun r => nth_error order r) l ;;
  from_node_order debug (rev l).

(** reorder.rs l.29-46 reorder_tree with separator_decomposition.rs l.61-70 mut_nodes. [rs] is reorder_sep (l.16-27), which
    sorts the nodes of a separator by their distance to one of them; coordinates and f32 arithmetic are not modelled. *)
Fixpoint reorder_tree (rs : list nat -> list nat) (level : nat) (t : septree) : septree :=
  match t with Sep nodes children num => if 2 <? level then t else Sep (Random (rs (sn_list nodes))) (map (reorder_tree rs (S level)) children) num end.
(** reorder.rs l.65-77 reorder *)
Definition reorder_geo (rs : list nat -> list nat) (debug : bool) (order : list nat) (t : septree) : option norder :=
  l <- mapM (fun r => nth_error order r) (to_ordering (reorder_tree rs 0 t)) ;;
  from_node_order debug (rev l).

(** mod.rs l.63-71 fix_order_and_build; contraction.rs l.229-231 elimination_tree *)
Definition fix_order_and_build (sort : list septree -> list septree) (debug : bool) (g : fograph N) (order ranks : list nat) : option cch :=
  nodes0 <- contraction_new (num_nodes g) (fun u => ls <- link_iter g u ;; Some (map fst ls)) order ranks ;;
  nodes <- contraction_contract nodes0 ;;
  t <- sep_new (map (@hd_error nat) nodes) ;;
  o <- reorder_for_sep sort debug order t ;;
  cch_contract g (no_order o) (no_ranks o).
