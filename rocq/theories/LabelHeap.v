(** Model of engine/src/datastr/heap.rs: Heap, a binary max-heap in data[0..split) followed by the popped elements.
    [le] is the element type's <=. A [Hole] (l.256-333) is kept as (data, elt, pos): data[pos] is stale while the
    hole exists, and dropping the hole writes elt to data[pos]. *)
From Verif Require Import Base SpecLabelHeap.

Record lheap (T : Type) := mkLh { l_data : list T; l_split : nat }.
Arguments mkLh {T}. Arguments l_data {T}. Arguments l_split {T}.

Section Model.
Context {T : Type} (le : T -> T -> bool).

(** l.11-18 new *)
Definition lh_new : lheap T := mkLh [] 0.

(** slice::swap *)
Definition swap (l : list T) (i j : nat) : option (list T) :=
  a <- nth_error l i ;; b <- nth_error l j ;; l1 <- set_at l i b ;; set_at l1 j a.

(** l.59-81 sift_up, the loop. The debug assertions of get and move_to (l.302-326) are guards. *)
Fixpoint sift_up_loop (fuel start : nat) (data : list T) (elt : T) (pos : nat) : option (list T * nat) :=
  match fuel with
  | O => None
  | S fuel =>
      if pos <=? start then Some (data, pos) else
      let parent := (pos - 1) / 2 in
      _ <- guard (negb (parent =? pos)) ;;
      p <- nth_error data parent ;;
      if le elt p then Some (data, pos)
      else data' <- set_at data pos p ;; sift_up_loop fuel start data' elt parent
  end.
Definition sift_up (start pos : nat) (data : list T) : option (list T) :=
  elt <- nth_error data pos ;;
  '(data, pos) <- sift_up_loop (S pos) start data elt pos ;; set_at data pos elt.

(** l.103-106, 168-171: the greater of the two children *)
Definition greater_child (data : list T) (pos child : nat) : option nat :=
  _ <- guard (negb (child =? pos) && negb (child + 1 =? pos)) ;;
  a <- nth_error data child ;; b <- nth_error data (child + 1) ;;
  Some (if le a b then child + 1 else child).

(** l.89-127 sift_down_range, with child = 2 * pos + 1 *)
Fixpoint sift_down_loop (fuel end_ : nat) (data : list T) (elt : T) (pos : nat) : option (list T * nat) :=
  match fuel with
  | O => None
  | S fuel =>
      let child := 2 * pos + 1 in
      if child <=? end_ - 2 then
        c <- greater_child data pos child ;;
        x <- nth_error data c ;;
        if le x elt then Some (data, pos)
        else data' <- set_at data pos x ;; sift_down_loop fuel end_ data' elt c
      else
        _ <- guard (1 <=? end_) ;;
        if child =? end_ - 1 then
          x <- nth_error data child ;;
          if negb (le x elt) then data' <- set_at data pos x ;; Some (data', child) else Some (data, pos)
        else Some (data, pos)
  end.
Definition sift_down (end_ pos : nat) (data : list T) : option (list T) :=
  elt <- nth_error data pos ;;
  '(data, pos) <- sift_down_loop (S end_) end_ data elt pos ;; set_at data pos elt.

(** l.148-185 sift_down_to_bottom: the loop without comparing [elt] *)
Fixpoint to_bottom_loop (fuel end_ : nat) (data : list T) (pos : nat) : option (list T * nat) :=
  match fuel with
  | O => None
  | S fuel =>
      let child := 2 * pos + 1 in
      if child <=? end_ - 2 then
        c <- greater_child data pos child ;;
        x <- nth_error data c ;; data' <- set_at data pos x ;; to_bottom_loop fuel end_ data' c
      else
        _ <- guard (1 <=? end_) ;;
        if child =? end_ - 1 then x <- nth_error data child ;; data' <- set_at data pos x ;; Some (data', child)
        else Some (data, pos)
  end.
Definition sift_down_to_bottom (end_ pos : nat) (data : list T) : option (list T) :=
  elt <- nth_error data pos ;;
  '(data, p) <- to_bottom_loop (S end_) end_ data pos ;;
  data <- set_at data p elt ;;
  sift_up pos p data.

(** l.23-34 pop *)
Definition lh_pop (h : lheap T) : option (lheap T * option T) :=
  match l_split h with
  | 0 => Some (h, None)
  | 1 => x <- nth_error (l_data h) 0 ;; Some (mkLh (l_data h) 0, Some x)
  | S s =>
      d <- swap (l_data h) 0 s ;;
      d <- sift_down_to_bottom s 0 d ;;
      x <- nth_error d s ;; Some (mkLh d s, Some x)
  end.
(** l.36-45 push *)
Definition lh_push (h : lheap T) (x : T) : option (lheap T) :=
  let d := l_data h ++ [x] in
  d <- swap d (l_split h) (length d - 1) ;;
  d <- sift_up 0 (l_split h) d ;; Some (mkLh d (l_split h + 1)).

(** l.222-231 rebuild: sift_down from the last inner node to the root *)
Definition rebuild (split : nat) (data : list T) : option (list T) :=
  foldM (fun d i => sift_down split i d) (rev (seq 0 (split / 2))) data.
(** l.188-220 rebuild_tail *)
Definition rebuild_tail (split start : nat) (data : list T) : option (list T) :=
  if start =? split then Some data else
  _ <- guard (start <=? split) ;;
  let tail := split - start in
  let better := if start <? tail then true
                else if split <=? 2048 then 2 * split <? tail * Nat.log2 start
                else 2 * split <? tail * 11 in
  if better then rebuild split data
  else foldM (fun d i => sift_up 0 i d) (seq start (split - start)) data.

(** l.254-274 retain, with a predicate without side effects. State of the closure: (first_removed, i, removed_from_heap). *)
Definition retain_count (keep : T -> bool) (split : nat) (st : nat * nat * nat) (e : T) : nat * nat * nat :=
  let '(first, i, removed) := st in
  ((if negb (keep e) && (i <? first) then i else first), S i, if negb (keep e) && (i <? split) then S removed else removed).
Definition lh_retain (h : lheap T) (keep : T -> bool) : option (lheap T) :=
  let '(first, _, removed) := fold_left (retain_count keep (l_split h)) (l_data h) (l_split h, 0, 0) in
  let d := filter keep (l_data h) in
  _ <- guard (removed <=? l_split h) ;;
  d <- rebuild_tail (l_split h - removed) first d ;; Some (mkLh d (l_split h - removed)).

(** l.276-291 peek, clear, popped *)
Definition lh_peek (h : lheap T) : option T := if 0 <? l_split h then nth_error (l_data h) 0 else None.
Definition lh_popped (h : lheap T) : option (list T) :=
  if l_split h <=? length (l_data h) then Some (skipn (l_split h) (l_data h)) else None.

Definition lh_step (h : lheap T) (op : lh_op T) : option (lheap T * lh_out T) :=
  match op with
  | LPush x => h <- lh_push h x ;; Some (h, LUnit)
  | LPop => '(h, x) <- lh_pop h ;; Some (h, LElem x)
  | LPeek => Some (h, LElem (lh_peek h))
  | LPopped => l <- lh_popped h ;; Some (h, LList l)
  | LClear => Some (mkLh [] 0, LUnit)
  | LRetain keep => h <- lh_retain h keep ;; Some (h, LUnit)
  end.
(** the answers of a history; [None] = panic *)
Fixpoint lh_run (h : lheap T) (ops : list (lh_op T)) : option (list (lh_out T)) :=
  match ops with
  | [] => Some []
  | op :: ops => '(h, o) <- lh_step h op ;; os <- lh_run h ops ;; Some (o :: os)
  end.
End Model.
