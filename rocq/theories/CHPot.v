(** Model of CHPotential in engine/src/algo/ch_potentials.rs (l.342-417): a potential on any contraction hierarchy, given by the
    link iterators [lf] (forward) and [lb] (backward) of its two upward graphs on ranks.
    TimestampedVector is a plain list that reset fills with the default (see TsVec); num_pot_computations is left out. *)
From Verif Require Import Base SpecCH IndexHeap TsVec Graph Dijkstra DijServer.

(** l.342-350; the stack is empty between calls. The search data is kept in a server without potential, whose one_to_all is the
    loop of l.377-378. *)
Record chpot := mkChPot { cp_pots : list (option N); cp_sv : server unit unit }.
(** l.353-364 *)
Definition cp_new (n : nat) : chpot := mkChPot (repeat None n) (plain_new n).
(** l.372-379 init *)
Definition cp_init (n : nat) (ranks : list nat) (lb : nat -> option (list (nat * N))) (p : chpot) (target : nat) : option chpot :=
  t <- nth_error ranks target ;;
  sv <- sv_one_to_all n lb fst def_lk def_pl zero_init zero_pot (cp_sv p) t ;;
  Some (mkChPot (repeat None (length (cp_pots p))) sv).

(** l.395-402: one arc; the state is (dist, missing, stack) *)
Definition cp_arc (pots : list (option N)) (s : N * bool * list nat) (a : nat * N) : option (N * bool * list nat) :=
  let '(dist, missing, stack) := s in
  pv <- nth_error pots (fst a) ;;
  match pv with
  | Some pot => x <- cadd pot (snd a) ;; Some (N.min dist x, missing, stack)
  | None => Some (dist, true, fst a :: stack)
  end.
(** l.388-408: one pass of the loop; the top of the stack comes first. InRangeOption::some asserts that the value is not u32::MAX *)
Definition cp_step (lf : nat -> option (list (nat * N))) (sv : server unit unit) (s : list nat * list (option N)) : option ((list nat * list (option N)) + list (option N)) :=
  let '(stack, pots) := s in
  match stack with
  | [] => Some (inr pots)
  | node :: rest =>
      v <- nth_error pots node ;;
      match v with
      | Some _ => Some (inl (rest, pots))
      | None =>
          dist <- sv_dist_of sv node ;; ls <- lf node ;;
          '(dist, missing, stack) <- foldM (cp_arc pots) ls (dist, false, stack) ;;
          if (missing : bool) then Some (inl (stack, pots))
          else _ <- guard (negb (dist =? U32MAX)%N) ;; pots <- set_at pots node (Some dist) ;; Some (inl (tl stack, pots))
      end
  end.
(** every node puts its neighbours on the stack at most once *)
Definition cp_fuel (n : nat) (lf : nat -> option (list (nat * N))) : N := N.of_nat (list_sum (map (fun v => S (out_degree lf v)) (seq 0 n)) + 2).
(** l.381-416 potential; l.382-384 is the case of a stack that is popped at once *)
Definition cp_value (n : nat) (ranks : list nat) (lf : nat -> option (list (nat * N))) (p : chpot) (node : nat) : option (chpot * option N) :=
  node <- nth_error ranks node ;;
  pots <- loopN (cp_fuel n lf) (cp_step lf (cp_sv p)) ([node], cp_pots p) ;;
  v <- nth_error pots node ;; dist <- v ;;
  Some (mkChPot pots (cp_sv p), if (dist <? INF)%N then Some dist else None).

(** a history of calls on one potential *)
Inductive cp_op := CpInit (target : nat) | CpValue (node : nat).
Definition cp_do (n : nat) (ranks : list nat) (lf lb : nat -> option (list (nat * N))) (p : chpot) (op : cp_op) : option chpot :=
  match op with CpInit t => cp_init n ranks lb p t | CpValue v => '(p, _) <- cp_value n ranks lf p v ;; Some p end.
Definition cp_history (n : nat) (ranks : list nat) (lf lb : nat -> option (list (nat * N))) (p : chpot) (ops : list cp_op) : option chpot :=
  foldM (cp_do n ranks lf lb) ops p.
