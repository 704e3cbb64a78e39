(** Model of CCHPotential in engine/src/algo/ch_potentials.rs (l.104-200).
    The timestamped vectors are plain lists that a reset fills with the default (see TsVec for the vectors themselves);
    the counter num_pot_computations is left out. *)
From Verif Require Import Base Graph Dijkstra CCH CCHQuery.

(** l.104-113; [stack] is empty between calls. The elimination tree and the ranks are those of the CCH. *)
Record cpot := mkPot { p_fw : fograph N; p_bw : fograph N; p_elim : list (option nat); p_ranks : list nat; p_pots : list (option N); p_bd : list N }.

(** l.116-130 new_from_customized, also l.36-38 forward_potential *)
Definition pot_forward (k : customized) : cpot :=
  let n := num_nodes (k_fw k) in mkPot (k_fw k) (k_bw k) (k_elim k) (k_ranks k) (repeat None n) (repeat INF n).
(** l.40-52 backward_potential *)
Definition pot_backward (k : customized) : cpot :=
  let n := num_nodes (k_fw k) in mkPot (k_bw k) (k_fw k) (k_elim k) (k_ranks k) (repeat None n) (repeat INF n).

(** l.147-153: for _ in EliminationTreeWalk { } *)
Definition walk_step (links : idlinks) (elim : list (option nat)) (s : etw) : option (etw + list N) :=
  match w_next s with None => Some (inr (w_dist s)) | Some _ => s' <- etw_next links elim s ;; Some (inl s') end.
(** l.144-155 init_with_cch_rank; stepped_elimination_tree.rs l.36-46 query resets the distances. The parents
    (ForgetParentInfo) are thrown away. *)
Definition pot_init_rank (p : cpot) (target : nat) : option cpot :=
  let n := length (p_bd p) in
  w <- etw_query (p_elim p) (repeat INF n) (repeat (0, 0) n) target ;;
  bd <- loopN (N.of_nat (n + 1)) (walk_step (k_links (p_bw p)) (p_elim p)) w ;;
  Some (mkPot (p_fw p) (p_bw p) (p_elim p) (p_ranks p) (repeat None (length (p_pots p))) bd).

(** l.158-167: collect the ancestors without potential; the top of the stack is the head of the list *)
Definition climb_step (elim : list (option nat)) (pots : list (option N)) (s : list nat * nat) : option (list nat * nat + list nat) :=
  let '(stack, cur) := s in
  v <- nth_error pots cur ;;
  match v with
  | Some _ => Some (inr stack)
  | None => p <- nth_error elim cur ;; match p with Some q => Some (inl (cur :: stack, q)) | None => Some (inr (cur :: stack)) end
  end.
(** l.173: [assume_some] without check, a missing value counts as a failure here *)
Definition pot_min (pots : list (option N)) (dist : N) (a : nat * N) : option N :=
  pv <- nth_error pots (fst a) ;; v <- pv ;; s <- cadd (snd a) v ;; Some (N.min dist s).
(** l.170-176; InRangeOption::some asserts that the value is not the sentinel *)
Definition pot_settle (fw : fograph N) (bd : list N) (pots : list (option N)) (node : nat) : option (list (option N)) :=
  dist <- nth_error bd node ;; ls <- link_iter fw node ;; dist <- foldM (pot_min pots) ls dist ;;
  _ <- guard (negb (dist =? U32MAX)%N) ;; set_at pots node (Some dist).
(** l.157-184 potential_with_cch_rank *)
Definition pot_rank (p : cpot) (node : nat) : option (cpot * option N) :=
  stack <- loopN (N.of_nat (length (p_elim p) + 1)) (climb_step (p_elim p) (p_pots p)) ([], node) ;;
  pots <- foldM (pot_settle (p_fw p) (p_bd p)) stack (p_pots p) ;;
  v <- nth_error pots node ;; dist <- v ;;
  Some (mkPot (p_fw p) (p_bw p) (p_elim p) (p_ranks p) pots (p_bd p), if (dist <? INF)%N then Some dist else None).

(** l.192-199 Potential::init and potential *)
Definition pot_init (p : cpot) (target : nat) : option cpot := r <- nth_error (p_ranks p) target ;; pot_init_rank p r.
Definition pot_value (p : cpot) (node : nat) : option (cpot * option N) := r <- nth_error (p_ranks p) node ;; pot_rank p r.

(** a history of calls on one potential *)
Inductive pot_op := PotInit (target : nat) | PotValue (node : nat).
Definition pot_do (p : cpot) (op : pot_op) : option cpot :=
  match op with PotInit t => pot_init p t | PotValue v => '(p, _) <- pot_value p v ;; Some p end.
Definition pot_history (p : cpot) (ops : list pot_op) : option cpot := foldM pot_do ops p.
