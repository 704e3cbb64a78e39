(** Model of engine/src/datastr/rank_select_map.rs l.303-405: InvertableRankSelectMap. *)
From Verif Require Import Base SpecBits BitVec.

Definition GROUPED_LOCALS : nat := 256.
(** popcount of the lower [k] bits: count_ones of [word as u32 / u16 / u8] *)
Definition popn (k : nat) (w : N) : nat := count (fun j => N.testbit w (N.of_nat j)) k.

(** l.306-309 *)
Record selmap := mkSel { sm_map : rankmap; sm_blocks : list nat }.

(** l.319-322: the while loop for one pair of neighbouring prefix sums; state (blocks, value) *)
Fixpoint fill_groups (fuel : nat) (p0 p1 i : nat) (s : list nat * nat) : option (list nat * nat) :=
  let '(blocks, value) := s in
  if (p0 <=? value) && (value <? p1) then
    match fuel with
    | O => None
    | S fuel => b <- set_at blocks (value / GROUPED_LOCALS) i ;; fill_groups fuel p0 p1 i (b, value + GROUPED_LOCALS)
    end
  else Some s.
(** l.313-327 new *)
Definition sel_new (m : rankmap) : option selmap :=
  let num := 1 + (rm_len m + GROUPED_LOCALS - 1) / GROUPED_LOCALS in
  blocks <- set_at (repeat 0 num) (num - 1) (length (prefix_sum m) - 1) ;;
  '(blocks, _) <- foldM (fun s '(i, (p0, p1)) => fill_groups (p1 - p0) p0 p1 i s)
    (combine (seq 0 (length (prefix_sum m) - 1)) (combine (prefix_sum m) (tl (prefix_sum m)))) (blocks, 0) ;;
  Some (mkSel m blocks).

(** slice::binary_search: any implementation [bs] (see bs_contract); Ok = inl, Err = inr. *)
Definition search := list nat -> nat -> option (nat + nat).

(** l.351-362: the loop over the words of a block *)
Fixpoint block_loop (ws : list N) (rank sum skipped : nat) : option (N * nat * nat) :=
  match ws with
  | [] => None
  | w :: ws => if rank <? sum + popcount w then Some (w, sum, skipped) else block_loop ws rank (sum + popcount w) (skipped + WORD)
  end.
(** l.366-404 int_local_index *)
Fixpoint drop_bits (k : nat) (w : N) : N := match k with O => w | S k => drop_bits k (N.land w (w - 1)) end.
Definition halve (k : nat) (s : N * nat * nat) : option (N * nat * nat) :=
  let '(w, r, shifted) := s in
  _ <- guard (r <? 2 * k) ;;
  let c := popn k w in
  if c <=? r then Some (N.shiftr w (N.of_nat k), r - c, shifted + k) else Some (w, r, shifted).
Definition int_local_index (w : N) (rank : nat) : option nat :=
  _ <- guard (rank <? popcount w) ;;
  s <- halve 32 (w, rank, 0) ;; s <- halve 16 s ;; '(w, r, shifted) <- halve 8 s ;;
  _ <- guard (r <? 8) ;;
  j <- trailing_zeros (drop_bits r w) ;; Some (shifted + j).
(** l.344-364 block_local_index *)
Definition block_local_index (m : rankmap) (block rank : nat) : option nat :=
  ws <- slice (bdata (flags m)) (block * IPP) (Nat.min ((block + 1) * IPP) (length (bdata (flags m)))) ;;
  '(w, sum, skipped) <- block_loop ws rank 0 0 ;;
  j <- int_local_index w (rank - sum) ;; Some (skipped + j).
(** l.330-342 inverse *)
Definition sel_inverse (bs : search) (s : selmap) (value : nat) : option nat :=
  let m := sm_map s in
  _ <- guard (value <? rm_len m) ;;
  let group := value / GROUPED_LOCALS in
  a <- nth_error (sm_blocks s) group ;; b <- nth_error (sm_blocks s) (group + 1) ;;
  l <- slice (prefix_sum m) a (b + 1) ;;
  r <- bs l value ;;
  i <- (match r with inl i => Some i | inr i => _ <- guard (1 <=? i) ;; Some (i - 1) end) ;;
  let block := i + a in
  p <- nth_error (prefix_sum m) block ;;
  _ <- guard (p <=? value) ;;
  j <- block_local_index m block (value - p) ;;
  Some (block * BPP + j).
