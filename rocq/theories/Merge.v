(** Model of engine/src/algo/metric_merging.rs: merge, as a small step machine with every interleaving of the spawned tasks.
    The first component of a queue entry is u64, the second i32 in the code; it counts arcs and is [nat] here. *)
From Verif Require Import Base.

Definition U64MAX : N := 18446744073709551615.

(** l.24 key, edges checked, two groups *)
Definition entry := (N * nat * nat * nat)%type.

(** Ord of the tuples *)
Definition eleb (x y : entry) : bool :=
  let '(k1, c1, i1, j1) := x in let '(k2, c2, i2, j2) := y in
  (k1 <? k2)%N || ((k1 =? k2)%N && ((c1 <? c2) || ((c1 =? c2) && ((i1 <? i2) || ((i1 =? i2) && (j1 <=? j2)))))).

(** BinaryHeap<Reverse<..>> (l.17): peek and pop give the least element. As the order is total the heap is determined by its
    contents, which are kept as a sorted list: push inserts, peek and pop look at the first element. *)
Fixpoint push (x : entry) (q : list entry) : list entry :=
  match q with
  | [] => [x]
  | y :: r => if eleb x y then x :: q else y :: push x r
  end.

(** l.21-27 all pairs of groups, in the order of the loops *)
Definition init_queue (k : nat) : list entry :=
  fold_left (fun q p => push (0%N, 0, fst p, snd p) q)
    (flat_map (fun idx => map (fun o => (idx, o)) (filter (fun o => idx <? o) (seq 0 k))) (seq 0 k)) [].

(** l.18 *)
Definition init_merged (k : nat) : list (list nat) := map (fun idx => [idx]) (seq 0 k).

(** l.46 retain: entries that mention neither group stay *)
Definition retain_others (i j : nat) (q : list entry) : list entry :=
  filter (fun e => let '(_, _, a, b) := e in negb (a =? i) && negb (a =? j) && negb (b =? i) && negb (b =? j)) q.

(** l.48-58 a fresh entry for the joined group and each other group *)
Definition push_joined (i : nat) (merged : list (list nat)) (q : list entry) : list entry :=
  fold_left (fun q o => match nth o merged [] with
    | [] => q
    | _ => if o =? i then q else if i <? o then push (0%N, 0, i, o) q else push (0%N, 0, o, i) q
    end) (seq 0 (length merged)) q.

(** l.39-59 join the groups of the top entry; [q] is the queue after the pop of l.40 *)
Definition join (i j : nat) (q : list entry) (merged : list (list nat)) : option (list entry * list (list nat)) :=
  tmp <- nth_error merged j ;;
  merged1 <- set_at merged j [] ;;
  g <- nth_error merged1 i ;;
  merged2 <- set_at merged1 i (g ++ tmp) ;;
  Some (push_joined i merged2 (retain_others i j q), merged2).

(** l.61-71 take entries off the queue until one has seen all [m] arcs: (min_final_key, to_compute, queue) *)
Fixpoint take_unfinished (m : nat) (q : list entry) : N * list entry * list entry :=
  match q with
  | [] => (U64MAX, [], [])
  | (key, c, i, j) :: r =>
    if m <=? c then (key, [], q)
    else let '(mk, todo, rest) := take_unfinished m r in (mk, (key, c, i, j) :: todo, rest)
  end.

(** where a task is: in the loop (l.83), before fetch_min (l.93), before the push (l.95) *)
Inductive tpc := InLoop | BeforeMin | BeforePush.

(** l.88-89 lowest weight of arc [e] in a group: index panics and unwrap of the minimum of no elements are [None] *)
Definition group_weight (metrics : list (list N)) (g : list nat) (e : nat) : option N :=
  ws <- mapM (fun idx => metric <- nth_error metrics idx ;; nth_error metric e) g ;;
  match ws with [] => None | w :: r => Some (fold_left N.min r w) end.

(** l.90 sum of squared differences, [None] if it does not fit into a u64 *)
Definition add_square (sum w1 w2 : N) : option N :=
  let d := (N.max w1 w2 - N.min w1 w2)%N in
  let s := (sum + d * d)%N in
  if (s <=? U64MAX)%N then Some s else None.

(** l.80-96 one atomic step of a task: new minimum, and either the task after the step or the entry it pushes. The read of
    min_final_key (l.84) is the only access to shared memory in one iteration of the loop. *)
Definition task_step (metrics : list (list N)) (m : nat) (merged : list (list nat)) (mk : N) (t : entry * tpc) : option (N * (entry * tpc + entry)) :=
  let '((sum, c, i, j), pc) := t in
  match pc with
  | InLoop =>
    if c <? m then
      if (mk <? sum)%N then Some (mk, inl ((sum, c, i, j), BeforeMin))
      else
        g1 <- nth_error merged i ;; w1 <- group_weight metrics g1 c ;;
        g2 <- nth_error merged j ;; w2 <- group_weight metrics g2 c ;;
        sum' <- add_square sum w1 w2 ;;
        Some (mk, inl ((sum', S c, i, j), InLoop))
    else Some (mk, inl ((sum, c, i, j), BeforeMin))
  | BeforeMin => if m <=? c then Some (N.min mk sum, inl ((sum, c, i, j), BeforePush)) else Some (mk, inl ((sum, c, i, j), BeforePush))
  | BeforePush => Some (mk, inr (sum, c, i, j))
  end.

(** states of merge: at the head of the while loop (l.29), within rayon::scope (l.76) with the tasks not yet finished,
    returned (l.101-103), or panicked *)
Inductive mstate :=
| Main (q : list entry) (merged : list (list nat)) (remaining : nat)
| Scope (mk : N) (q : list entry) (tasks : list (entry * tpc)) (merged : list (list nat)) (remaining : nat)
| Ret (merged : list (list nat))
| Panic.

(** l.101 *)
Definition drop_empty (merged : list (list nat)) : list (list nat) := filter (fun g => match g with [] => false | _ => true end) merged.

(** l.29-74 one pass of the while loop up to its end or to the start of the scope *)
Definition main_step (m target : nat) (q : list entry) (merged : list (list nat)) (remaining : nat) : mstate :=
  if remaining <=? target then Ret (drop_empty merged)
  else match q with
  | [] => Ret (drop_empty merged)
  | (_, c, i, j) :: r =>
    if m <=? c then
      match join i j r merged with Some (q', merged') => Main q' merged' (remaining - 1) | None => Panic end
    else let '(mk, todo, rest) := take_unfinished m q in Scope mk rest (map (fun e => (e, InLoop)) todo) merged remaining
  end.

(** the steps of merge: tasks of a scope run in any order and interleaving; the scope ends when all have finished *)
Inductive mstep (metrics : list (list N)) (m target : nat) : mstate -> mstate -> Prop :=
| st_main : forall q merged r, mstep metrics m target (Main q merged r) (main_step m target q merged r)
| st_task : forall mk q l1 t l2 merged r mk' t', task_step metrics m merged mk t = Some (mk', inl t') ->
    mstep metrics m target (Scope mk q (l1 ++ t :: l2) merged r) (Scope mk' q (l1 ++ t' :: l2) merged r)
| st_push : forall mk q l1 t l2 merged r mk' e, task_step metrics m merged mk t = Some (mk', inr e) ->
    mstep metrics m target (Scope mk q (l1 ++ t :: l2) merged r) (Scope mk' (push e q) (l1 ++ l2) merged r)
| st_panic : forall mk q l1 t l2 merged r, task_step metrics m merged mk t = None ->
    mstep metrics m target (Scope mk q (l1 ++ t :: l2) merged r) Panic
| st_join : forall mk q merged r, mstep metrics m target (Scope mk q [] merged r) (Main q merged r).

Inductive msteps (metrics : list (list N)) (m target : nat) : mstate -> mstate -> Prop :=
| ms_refl : forall s, msteps metrics m target s s
| ms_step : forall s s' s'', mstep metrics m target s s' -> msteps metrics m target s' s'' -> msteps metrics m target s s''.

(** l.9-28 merge up to the while loop: panics without metrics and if their lengths differ *)
Definition merge_start (metrics : list (list N)) : mstate :=
  match metrics with
  | [] => Panic
  | m0 :: _ => if forallb (fun mt => length mt =? length m0) metrics
    then Main (init_queue (length metrics)) (init_merged (length metrics)) (length metrics) else Panic
  end.
(** [m] of l.12 *)
Definition merge_m (metrics : list (list N)) : nat := length (hd [] metrics).
