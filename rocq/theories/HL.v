(** Model of engine/src/algo/hl.rs: HubLabels::{new, compute_labels_from_ch, dist, hub_and_dist, best_hub}.
    Nodes are ranks; the graphs are given by their link iterators. num_labels and the accessors are not modelled. *)
From Verif Require Import Base.

Definition label : Type := list (nat * N).
(** l.3-6 *)
Record hublabels := mkHl { hl_out : list label; hl_in : list label }.

(** l.93-118: two iterators with the best hub so far; additions are checked *)
Fixpoint best_hub_from (a : label) : label -> option (nat * N) -> option (option (nat * N)) :=
  fix go (b : label) (res : option (nat * N)) : option (option (nat * N)) :=
    match a, b with
    | (fh, fd) :: a', (bh, bd) :: b' =>
        if fh <? bh then best_hub_from a' b res
        else if bh <? fh then go b' res
        else
          s <- cadd fd bd ;;
          let res := match res with Some (_, best) => if (s <? best)%N then Some (fh, s) else res | None => Some (fh, s) end in
          best_hub_from a' b' res
    | _, _ => Some res
    end.
Definition best_hub (a b : label) : option (option (nat * N)) := best_hub_from a b None.

(** l.30-34, l.36-40: the labels of the upward neighbours, extended by the arc *)
Definition hl_extend (labels : list label) (node : nat) (cur : label) (lk : nat * N) : option label :=
  _ <- guard (node + 1 <=? fst lk) ;;
  l <- nth_error (skipn (node + 1) labels) (fst lk - node - 1) ;;
  ext <- mapM (fun '(hub, w) => w' <- cadd w (snd lk) ;; Some (hub, w')) l ;;
  Some (cur ++ ext).

(** group_by_mut (l.44): maximal runs of equal hubs *)
Fixpoint hl_groups (l : label) : list label :=
  match l with
  | [] => []
  | x :: l =>
      match hl_groups l with
      | (y :: g) :: gs => if fst x =? fst y then (x :: y :: g) :: gs else [x] :: (y :: g) :: gs
      | gs => [x] :: gs
      end
  end.
(** l.45-48; groups are not empty *)
Definition hl_level (g : label) : label :=
  match map snd g with
  | [] => []
  | w :: ws => map (fun '(hub, _) => (hub, fold_left N.min ws w)) g
  end.
(** Vec::dedup *)
Fixpoint hl_dedup (l : label) : label :=
  match l with
  | [] => []
  | x :: l => match hl_dedup l with y :: r => if ((fst x =? fst y) && (snd x =? snd y)%N)%bool then y :: r else x :: y :: r | [] => [x] end
  end.
(** l.42-51 for one direction; [sort] is sort_unstable *)
Definition hl_norm (sort : label -> label) (l : label) : label := hl_dedup (concat (map hl_level (hl_groups (sort l)))).

(** l.53-65, l.67-79: [best] is the call of best_hub for the hub of a label *)
Fixpoint hl_prune (best : nat -> option (option (nat * N))) (l : label) : option label :=
  match l with
  | [] => Some []
  | (hub, w) :: l =>
      r <- best hub ;;
      rest <- hl_prune best l ;;
      Some (if (match r with Some (via, _) => via =? hub | None => true end) then (hub, w) :: rest else rest)
  end.

(** l.26-80: one node *)
Definition hl_node (sort : label -> label) (up down : nat -> option (list (nat * N))) (h : hublabels) (node : nat) : option hublabels :=
  out <- nth_error (hl_out h) node ;;
  inc <- nth_error (hl_in h) node ;;
  us <- up node ;;
  out <- foldM (hl_extend (hl_out h) node) us (out ++ [(node, 0%N)]) ;;
  ds <- down node ;;
  inc <- foldM (hl_extend (hl_in h) node) ds (inc ++ [(node, 0%N)]) ;;
  let out := hl_norm sort out in
  let inc := hl_norm sort inc in
  outs <- set_at (hl_out h) node out ;;
  ins <- set_at (hl_in h) node inc ;;
  out' <- hl_prune (fun hub => l <- nth_error ins hub ;; best_hub out l) out ;;
  outs <- set_at outs node out' ;;
  inc' <- hl_prune (fun hub => l <- nth_error outs hub ;; best_hub l inc) inc ;;
  ins <- set_at ins node inc' ;;
  Some (mkHl outs ins).

(** l.9-19, l.21-83; [n] is up.num_nodes() *)
Definition hl_new (sort : label -> label) (n : nat) (up down : nat -> option (list (nat * N))) : option hublabels :=
  foldM (hl_node sort up down) (rev (seq 0 n)) (mkHl (repeat [] n) (repeat [] n)).

(** l.89-91 *)
Definition hl_hub (h : hublabels) (from to : nat) : option (option (nat * N)) :=
  a <- nth_error (hl_out h) from ;; b <- nth_error (hl_in h) to ;; best_hub a b.
(** l.85-87 *)
Definition hl_dist (h : hublabels) (from to : nat) : option (option N) :=
  r <- hl_hub h from to ;; Some (option_map snd r).
