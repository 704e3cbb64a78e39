(** Model of the bucket based many to many data structures of engine/src/algo/ch_potentials.rs: BucketCHSelectionData and
    BucketCHSelectionRun (l.610-740), and BucketCHPotential (l.486-599), on a hierarchy given by the link iterators [lf]
    (forward) and [lb] (backward) of its two upward graphs on ranks.
    TimestampedVector is a plain list that reset fills with the default (see TsVec); FastClearBitVec is a list of booleans
    (see C04); num_pot_computations is left out. *)
From Verif Require Import Base SpecPQ SpecCH IndexHeap Graph Dijkstra.

(** NodeIdT in the queue: ordered by node id *)
Definition nid (v : nat) : nat := v.
Notation bqueue := (heap nat).
Definition bq_push : bqueue -> nat -> option bqueue := hpush nat nid Nat.ltb.
Definition bq_push_unless : bqueue -> nat -> option bqueue := hpush_unless nat nid Nat.ltb.
Definition bq_pop : bqueue -> option (bqueue * option nat) := hpop nat nid Nat.ltb.
Definition bq_clear : bqueue -> option bqueue := hclear nat nid.

(** l.610-618 *)
Record bsel := mkBsel { bs_dist : list (list (nat * N)); bs_queue : bqueue; bs_in : list (list (nat * N)); bs_pr : list (list (nat * N));
  bs_td : list N; bs_used : list nat }.
(** l.621-630 *)
Definition bs_new (n : nat) : bsel := mkBsel (repeat [] n) (hnew n) (repeat [] n) (repeat [] n) (repeat INF n) [].

(** l.671-674: one terminal; [s] is the number of the terminal *)
Definition bs_terminal (s : nat * bqueue * list (list (nat * N))) (terminal : nat) : option (nat * bqueue * list (list (nat * N))) :=
  let '(i, q, dist) := s in
  q <- bq_push q terminal ;; d <- nth_error dist terminal ;; dist <- set_at dist terminal (d ++ [(i, 0%N)]) ;; Some (S i, q, dist).
(** l.668-675 initialize *)
Definition bs_init (b : bsel) (terminals : list nat) : option bsel :=
  q <- bq_clear (bs_queue b) ;;
  '(_, q, dist) <- foldM bs_terminal terminals (0, q, repeat [] (length (bs_dist b))) ;;
  Some (mkBsel dist q (bs_in b) (bs_pr b) (bs_td b) (bs_used b)).

(** l.680-683 and l.684-687: the arcs of the settled node are noted at their heads *)
Definition bs_note (node : nat) (s : list (list (nat * N)) * bqueue) (a : nat * N) : option (list (list (nat * N)) * bqueue) :=
  let '(arr, q) := s in
  l <- nth_error arr (fst a) ;; arr <- set_at arr (fst a) (l ++ [(node, snd a)]) ;; q <- bq_push_unless q (fst a) ;; Some (arr, q).
(** l.691-696: one bucket entry of a lower neighbour *)
Definition bs_collect1 (w : N) (s : list N * list nat) (e : nat * N) : option (list N * list nat) :=
  let '(td, used) := s in
  o <- nth_error td (fst e) ;; x <- cadd (snd e) w ;; td <- set_at td (fst e) (N.min o x) ;;
  Some (td, if (o =? INF)%N then used ++ [fst e] else used).
(** l.690-697: one incoming arc *)
Definition bs_collect (dist : list (list (nat * N))) (s : list N * list nat) (a : nat * N) : option (list N * list nat) :=
  l <- nth_error dist (fst a) ;; foldM (bs_collect1 (snd a)) l s.
(** l.701: one entry of Vec::retain *)
Fixpoint bs_retain (td : list N) (w : N) (l : list (nat * N)) : option (list (nat * N)) :=
  match l with
  | [] => Some []
  | e :: l => o <- nth_error td (fst e) ;; x <- cadd o w ;; r <- bs_retain td w l ;; Some (if (snd e <? x)%N then e :: r else r)
  end.
(** l.700-702: one incoming arc of the pruning graph *)
Definition bs_prune (td : list N) (dist : list (list (nat * N))) (a : nat * N) : option (list (list (nat * N))) :=
  l <- nth_error dist (fst a) ;; r <- bs_retain td (snd a) l ;; set_at dist (fst a) r.

(** l.677-719 settle_next_node for [node]. [post] stands for what the caller does with the bucket of the settled node
    ([buckets_mut], l.725-727) before the next node is settled. *)
Definition bs_settle (gr pr : nat -> option (list (nat * N))) (post : list (nat * N) -> list (nat * N)) (b : bsel) (q : bqueue) (node : nat) : option bsel :=
  inc <- nth_error (bs_in b) node ;; own <- nth_error (bs_dist b) node ;;
  '(ins, prs, q) <- (if (negb (length inc =? 0) || negb (length own =? 0))%bool then
     ls <- gr node ;; '(ins, q) <- foldM (bs_note node) ls (bs_in b, q) ;;
     ls <- pr node ;; '(prs, q) <- foldM (bs_note node) ls (bs_pr b, q) ;; Some (ins, prs, q)
   else Some (bs_in b, bs_pr b, q)) ;;
  inc <- nth_error ins node ;; '(td, used) <- foldM (bs_collect (bs_dist b)) inc (bs_td b, bs_used b) ;; ins <- set_at ins node [] ;;
  low <- nth_error prs node ;; prs <- set_at prs node [] ;;
  dist <- (if negb (length used =? 0) then foldM (bs_prune td) low (bs_dist b) else Some (bs_dist b)) ;;
  own <- nth_error dist node ;; new <- mapM (fun i => x <- nth_error td i ;; Some (i, x)) used ;;
  dist <- set_at dist node (post (own ++ new)) ;;
  td <- foldM (fun td i => set_at td i INF) used td ;;
  Some (mkBsel dist q ins prs td []).
(** l.730-740: the iterator, run until the queue is empty *)
Definition bs_step (gr pr : nat -> option (list (nat * N))) (post : list (nat * N) -> list (nat * N)) (b : bsel) : option (bsel + bsel) :=
  '(q, v) <- bq_pop (bs_queue b) ;;
  match v with
  | None => Some (inr (mkBsel (bs_dist b) q (bs_in b) (bs_pr b) (bs_td b) (bs_used b)))
  | Some node => b <- bs_settle gr pr post b q node ;; Some (inl b)
  end.
(** l.653-666 query, followed by all calls of next *)
Definition bs_run (n : nat) (gr pr : nat -> option (list (nat * N))) (post : list (nat * N) -> list (nat * N)) (b : bsel) (terminals : list nat) : option bsel :=
  b <- bs_init b terminals ;; loopN (N.of_nat (n + 1)) (bs_step gr pr post) b.

(** l.486-497 *)
Record bpot := mkBpot { bp_pots : list (option (list N)); bp_final : list bool; bp_clear : list nat; bp_sel : bsel; bp_num : nat }.
(** l.500-513 *)
Definition bp_new (n : nat) : bpot := mkBpot (repeat None n) (repeat false n) [] (bs_new n) 0.

(** l.537-539 *)
Definition bp_enter (row : list N) (e : nat * N) : option (list N) := set_at row (fst e) (snd e).
(** l.559-561 *)
Fixpoint zip_min (row head : list N) (w : N) : option (list N) :=
  match row, head with
  | d :: row, h :: head => x <- cadd h w ;; r <- zip_min row head w ;; Some (N.min d x :: r)
  | row, _ => Some row
  end.
(** l.519-565 compute_dists; the state is (potentials, pot_final, to_clear). [debug]: debug_assert is checked. [fuel] bounds the depth of
    the recursion *)
Fixpoint bp_compute (debug : bool) (lf : nat -> option (list (nat * N))) (dist : list (list (nat * N))) (num : nat) (fuel : nat)
  (node : nat) (s : list (option (list N)) * list bool * list nat) : option (list (option (list N)) * list bool * list nat) :=
  match fuel with
  | O => None
  | S fuel =>
      let '(pots, final, clear) := s in
      f <- nth_error final node ;;
      if (f : bool) then Some s else
      o <- nth_error pots node ;;
      s <- match o with
           | Some _ => Some s
           | None => es <- nth_error dist node ;; row <- foldM bp_enter es (repeat INF num) ;; pots <- set_at pots node (Some row) ;; Some (pots, final, clear ++ [node])
           end ;;
      ls <- lf node ;;
      '(pots, final, clear) <- foldM (fun s a =>
         _ <- guard (negb debug || (node <? fst a)) ;;
         s <- bp_compute debug lf dist num fuel (fst a) s ;;
         let '(pots, final, clear) := s in
         f <- nth_error final node ;; _ <- guard (negb debug || f) ;;
         _ <- guard (node <? fst a) ;;
         h <- nth_error pots (fst a) ;; h <- h ;; r <- nth_error pots node ;; r <- r ;;
         r <- zip_min r h (snd a) ;; pots <- set_at pots node (Some r) ;; Some (pots, final, clear)) ls s ;;
      final <- set_at final node true ;; Some (pots, final, clear)
  end.
(** l.567-581 init *)
Definition bp_init (n : nat) (ranks : list nat) (lf lb : nat -> option (list (nat * N))) (p : bpot) (targets : list nat) : option bpot :=
  pots <- foldM (fun pots node => set_at pots node None) (bp_clear p) (bp_pots p) ;;
  ts <- mapM (fun t => nth_error ranks t) targets ;;
  sel <- bs_run n lb lf (fun l => l) (bp_sel p) ts ;;
  Some (mkBpot pots (repeat false (length (bp_final p))) [] sel (length targets)).
(** l.583-598 potential *)
Definition bp_value (debug : bool) (n : nat) (ranks : list nat) (lf : nat -> option (list (nat * N))) (p : bpot) (node : nat) : option (bpot * list N) :=
  node <- nth_error ranks node ;;
  '(pots, final, clear) <- bp_compute debug lf (bs_dist (bp_sel p)) (bp_num p) (S n) node (bp_pots p, bp_final p, bp_clear p) ;;
  _ <- match nth_error final node with Some f => guard (negb debug || f) | None => None end ;;
  r <- nth_error pots node ;; r <- r ;;
  Some (mkBpot pots final clear (bp_sel p) (bp_num p), r).

(** a history of calls *)
Inductive bp_op := BpInit (targets : list nat) | BpValue (node : nat).
Definition bp_do (debug : bool) (n : nat) (ranks : list nat) (lf lb : nat -> option (list (nat * N))) (p : bpot) (op : bp_op) : option bpot :=
  match op with BpInit ts => bp_init n ranks lf lb p ts | BpValue v => '(p, _) <- bp_value debug n ranks lf p v ;; Some p end.
Definition bp_history (debug : bool) (n : nat) (ranks : list nat) (lf lb : nat -> option (list (nat * N))) (p : bpot) (ops : list bp_op) : option bpot :=
  foldM (bp_do debug n ranks lf lb) ops p.
