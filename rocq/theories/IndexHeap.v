(** Model of engine/src/datastr/index_heap.rs (IndexdMinHeap).
    INVALID_POSITION (usize::MAX, l.57) is modelled by [None] in the position array.
    Unchecked accesses (l.173-179, 216-236, Hole l.253-310) are modelled as checked ones: [None] = fault. *)
From Verif Require Import Base SpecPQ.

Section IndexHeap.
  Variable T : Type.
  Variable idx : T -> nat.
  Variable ltb : T -> T -> bool.

  (** index_heap.rs l.51-54 *)
  Record heap := mkHeap { positions : list (option nat); data : list T }.

  (** TREE_ARITY l.56 *)
  Definition ARITY := 4.

  (** new, l.63-68 *)
  Definition hnew (max_id : nat) : heap := mkHeap (repeat None max_id) [].
  (** len, l.71-73 *)
  Definition hlen (h : heap) : nat := length (data h).
  (** contains_index, l.81-83 (panics when [id >= max_id]) *)
  Definition hcontains (h : heap) (id : nat) : option bool :=
    p <- nth_error (positions h) id ;; Some (match p with Some _ => true | None => false end).
  (** get, l.85-87 *)
  Definition hget (h : heap) (id : nat) : option (option T) :=
    p <- nth_error (positions h) id ;; Some (match p with Some i => nth_error (data h) i | None => None end).
  (** peek, l.104-106 *)
  Definition hpeek (h : heap) : option T := nth_error (data h) 0.

  (** slice::swap(i,j) *)
  Definition swap_at {A} (l : list A) (i j : nat) : option (list A) :=
    a <- nth_error l i ;; b <- nth_error l j ;; Some (upd (upd l i b) j a).

  (** move_up_in_tree, l.168-183; [fuel] bounds the while loop *)
  Fixpoint move_up (fuel : nat) (P : list (option nat)) (D : list T) (pos : nat) : option heap :=
    match fuel with
    | O => None
    | S fuel =>
      if pos =? 0 then Some (mkHeap P D) else
      let parent := (pos - 1) / ARITY in
      p <- nth_error D parent ;;
      c <- nth_error D pos ;;
      if ltb p c then Some (mkHeap P D) else
      P' <- swap_at P (idx p) (idx c) ;;
      D' <- swap_at D parent pos ;;
      move_up fuel P' D' parent
    end.

  (** [range.min_by_key(|i| data[i])]: index of the first minimal element among [count] indices starting at
      [i]; [best] is the best index so far. Iterator::min_by_key keeps the earlier one on ties. *)
  Fixpoint min_child (D : list T) (i count : nat) (best : option nat) : option (option nat) :=
    match count with
    | O => Some best
    | S count =>
      x <- nth_error D i ;;
      match best with
      | None => min_child D (S i) count (Some i)
      | Some b => y <- nth_error D b ;; min_child D (S i) count (Some (if ltb x y then i else b))
      end
    end.

  (** children_index_range, l.238-242: first child index and number of children *)
  Definition first_child (pos : nat) : nat := ARITY * pos + 1.
  Definition children_end (pos size : nat) : nat := Nat.min (ARITY * pos + ARITY + 1) size.

  (** loop of move_down_in_tree, l.221-234. [elt] is the element held by the Hole, [pos] its position,
      the entry of [D] at [pos] is stale (Hole::move_to l.288-296, Drop l.299-308 fills it). *)
  Fixpoint move_down_loop (fuel : nat) (P : list (option nat)) (D : list T) (elt : T) (pos : nat) : option heap :=
    match fuel with
    | O => None
    | S fuel =>
      mc <- min_child D (first_child pos) (children_end pos (length D) - first_child pos) None ;;
      match mc with
      | Some child =>
          c <- nth_error D child ;;
          if negb (ltb c elt)
          then P' <- set_at P (idx elt) (Some pos) ;; D' <- set_at D pos elt ;; Some (mkHeap P' D')
          else P' <- set_at P (idx c) (Some pos) ;;
               D' <- set_at D pos c ;;
               move_down_loop fuel P' D' elt child
      | None => P' <- set_at P (idx elt) (Some pos) ;; D' <- set_at D pos elt ;; Some (mkHeap P' D')
      end
    end.

  (** move_down_in_tree, l.216-220 *)
  Definition move_down (P : list (option nat)) (D : list T) (pos : nat) : option heap :=
    elt <- nth_error D pos ;; move_down_loop (S (length D)) P D elt pos.

  (** push, l.131-137 *)
  Definition hpush (h : heap) (x : T) : option heap :=
    c <- hcontains h (idx x) ;;
    _ <- guard (negb c) ;;
    let insert_position := hlen h in
    P <- set_at (positions h) (idx x) (Some insert_position) ;;
    move_up (S insert_position) P (data h ++ [x]) insert_position.

  (** push_unless_contained, l.123-127 *)
  Definition hpush_unless (h : heap) (x : T) : option heap :=
    c <- hcontains h (idx x) ;; if negb c then hpush h x else Some h.

  (** decrease_key, l.150-154: no comparison with the stored key *)
  Definition hdecrease (h : heap) (x : T) : option heap :=
    p <- nth_error (positions h) (idx x) ;;
    pos <- p ;;
    D <- set_at (data h) pos x ;;
    move_up (S pos) (positions h) D pos.

  (** increase_key, l.158-162 *)
  Definition hincrease (h : heap) (x : T) : option heap :=
    p <- nth_error (positions h) (idx x) ;;
    pos <- p ;;
    D <- set_at (data h) pos x ;;
    move_down (positions h) D pos.

  (** update_key, l.140-146 *)
  Definition hupdate (h : heap) (x : T) : option heap :=
    p <- nth_error (positions h) (idx x) ;;
    pos <- p ;;
    y <- nth_error (data h) pos ;;
    if ltb x y then hdecrease h x else if ltb y x then hincrease h x else Some h.

  (** pop, l.109-120. The popped last element becomes the root, the old root is returned. *)
  Definition hpop (h : heap) : option (heap * option T) :=
    match data h with
    | [] => Some (h, None)
    | _ :: _ =>
      let D := removelast (data h) in
      item <- nth_error (data h) (hlen h - 1) ;;
      P <- set_at (positions h) (idx item) None ;;
      match D with
      | [] => Some (mkHeap P D, Some item)
      | root :: _ =>
        P1 <- set_at P (idx item) (Some 0) ;;
        P2 <- set_at P1 (idx root) None ;;
        D' <- set_at D 0 item ;;
        h' <- move_down P2 D' 0 ;;
        Some (h', Some root)
      end
    end.

  (** the loop of clear, l.96-98, and of drain, l.164-166 *)
  Fixpoint invalidate (P : list (option nat)) (D : list T) : option (list (option nat)) :=
    match D with
    | [] => Some P
    | x :: D' => P' <- set_at P (idx x) None ;; invalidate P' D'
    end.

  (** clear, l.95-100 *)
  Definition hclear (h : heap) : option heap := P <- invalidate (positions h) (data h) ;; Some (mkHeap P []).
  (** drain, l.164-166 (fully consumed iterator) *)
  Definition hdrain (h : heap) : option (heap * list T) :=
    P <- invalidate (positions h) (data h) ;; Some (mkHeap P [], data h).

  (** One API call. *)
  Definition hstep (h : heap) (op : pq_op T) : option (heap * pq_out T) :=
    match op with
    | Push x => h' <- hpush h x ;; Some (h', OUnit)
    | PushUnlessContained x => h' <- hpush_unless h x ;; Some (h', OUnit)
    | Pop => '(h', o) <- hpop h ;; Some (h', OElem o)
    | Peek => Some (h, OElem (hpeek h))
    | UpdateKey x => h' <- hupdate h x ;; Some (h', OUnit)
    | DecreaseKey x => h' <- hdecrease h x ;; Some (h', OUnit)
    | IncreaseKey x => h' <- hincrease h x ;; Some (h', OUnit)
    | Clear => h' <- hclear h ;; Some (h', OUnit)
    | Drain => '(h', l) <- hdrain h ;; Some (h', OList l)
    | Contains i => b <- hcontains h i ;; Some (h, OBool b)
    | Get i => o <- hget h i ;; Some (h, OElem o)
    | Len => Some (h, ONat (hlen h))
    end.
End IndexHeap.
Arguments mkHeap {T}. Arguments positions {T}. Arguments data {T}. Arguments hnew {T}. Arguments hlen {T}.
Arguments hcontains {T}. Arguments hget {T}. Arguments hpeek {T}.
