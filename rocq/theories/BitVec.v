(** Model of engine/src/datastr/rank_select_map.rs.
    u64 words are [N]; STORAGE_BITS = 64 (l.17). The raw allocation in BitVec::new (l.33-40, alloc_zeroed and
    Vec::from_raw_parts) is modelled as a zeroed vector; its memory safety is not modelled. *)
From Verif Require Import Base SpecBits.

Definition WORD : nat := 64.
(** [1 << (index % 64)] *)
Definition bit_mask (i : nat) : N := N.shiftl 1 (N.of_nat (i mod WORD)).
(** bitwise not on u64 *)
Definition not64 (w : N) : N := N.lxor w (N.ones 64).
(** u64::count_ones *)
Definition popcount (w : N) : nat := count (fun j => N.testbit w (N.of_nat j)) WORD.
Fixpoint popcounts (ws : list N) : nat := match ws with [] => 0 | w :: ws' => popcount w + popcounts ws' end.

(** BitVec, l.23-26 *)
Record bitvec := mkBv { bdata : list N; bsize : nat }.
(** BitVec::new, l.30-43 *)
Definition bv_new (size : nat) : bitvec := mkBv (repeat 0%N ((size + WORD - 1) / WORD)) size.
(** get, l.46-50 *)
Definition bv_get (b : bitvec) (i : nat) : option bool :=
  _ <- guard (i <? bsize b) ;;
  w <- nth_error (bdata b) (i / WORD) ;; Some (negb (N.land w (bit_mask i) =? 0)%N).
(** set, l.53-57 *)
Definition bv_set (b : bitvec) (i : nat) : option bitvec :=
  _ <- guard (i <? bsize b) ;;
  w <- nth_error (bdata b) (i / WORD) ;;
  Some (mkBv (upd (bdata b) (i / WORD) (N.lor w (bit_mask i))) (bsize b)).
(** unset, l.60-64 *)
Definition bv_unset (b : bitvec) (i : nat) : option bitvec :=
  _ <- guard (i <? bsize b) ;;
  w <- nth_error (bdata b) (i / WORD) ;;
  Some (mkBv (upd (bdata b) (i / WORD) (N.land w (not64 (bit_mask i)))) (bsize b)).
(** unset_all_around, l.67-70 *)
Definition bv_unset_around (b : bitvec) (i : nat) : option bitvec :=
  _ <- guard (i <? bsize b) ;;
  d <- set_at (bdata b) (i / WORD) 0%N ;; Some (mkBv d (bsize b)).
(** clear, l.83-87; set_all, l.90-94; count_ones, l.97-99 *)
Definition bv_clear (b : bitvec) : bitvec := mkBv (map (fun _ => 0%N) (bdata b)) (bsize b).
Definition bv_set_all (b : bitvec) : bitvec := mkBv (map (fun _ => not64 0) (bdata b)) (bsize b).
Definition bv_count (b : bitvec) : nat := popcounts (bdata b).

Definition bv_step (b : bitvec) (op : bits_op) : option (bitvec * bits_out) :=
  match op with
  | BSet i => b' <- bv_set b i ;; Some (b', BoUnit)
  | BUnset i => b' <- bv_unset b i ;; Some (b', BoUnit)
  | BUnsetAround i => b' <- bv_unset_around b i ;; Some (b', BoUnit)
  | BSetAll => Some (bv_set_all b, BoUnit)
  | BClear => Some (bv_clear b, BoUnit)
  | BGet i => v <- bv_get b i ;; Some (b, BoBool v)
  | BCount => Some (b, BoNat (bv_count b))
  | BLen => Some (b, BoNat (bsize b))
  end.

(** FastClearBitVec, l.123-126 *)
Record fcbv := mkFc { fdata : list N; to_clear : list nat }.
(** new, l.130-135 *)
Definition fc_new (size : nat) : fcbv := mkFc (repeat 0%N ((size + WORD - 1) / WORD)) [].
(** get, l.138-141: no size check, only the vector bound *)
Definition fc_get (b : fcbv) (i : nat) : option bool :=
  w <- nth_error (fdata b) (i / WORD) ;; Some (negb (N.land w (bit_mask i) =? 0)%N).
(** set, l.144-150 *)
Definition fc_set (b : fcbv) (i : nat) : option fcbv :=
  w <- nth_error (fdata b) (i / WORD) ;;
  Some (mkFc (upd (fdata b) (i / WORD) (N.lor w (bit_mask i)))
             (if (w =? 0)%N then to_clear b ++ [i / WORD] else to_clear b)).
(** clear, l.153-158 *)
Definition fc_clear (b : fcbv) : option fcbv :=
  d <- fold_left (fun acc i => d <- acc ;; set_at d i 0%N) (to_clear b) (Some (fdata b)) ;; Some (mkFc d []).

(** u64::trailing_zeros of a non-zero word *)
Definition trailing_zeros (w : N) : option nat := List.find (fun j => N.testbit w (N.of_nat j)) (seq 0 WORD).

(** SetBitsIter::next iterated until it returns None, l.180-194; [bits]/[idx] are current_bits/current_idx *)
Fixpoint drain_word (fuel : nat) (bits : N) (idx : nat) : option (list nat) :=
  match fuel with
  | O => None
  | S fuel =>
    if (bits =? 0)%N then Some [] else
    j <- trailing_zeros bits ;;
    rest <- drain_word fuel (N.land bits (not64 (N.shiftl 1 (N.of_nat j)))) idx ;;
    Some ((idx * WORD + j) :: rest)
  end.
(** set_bits_iter().collect(), l.160-167. The debug assertion l.189 (word on the list is non zero) is [guard]. *)
Fixpoint fc_iter (d : list N) (l : list nat) : option (list nat) :=
  match l with
  | [] => Some []
  | i :: l' =>
      w <- nth_error d i ;;
      _ <- guard (negb (w =? 0)%N) ;;
      xs <- drain_word 65 w i ;;
      ys <- fc_iter d l' ;; Some (xs ++ ys)
  end.
Definition fc_set_bits (b : fcbv) : option (list nat) := fc_iter (fdata b) (to_clear b).

(** slice [l[a..b]]: panics if [a > b] or [b > len] *)
Definition slice {A} (l : list A) (a b : nat) : option (list A) :=
  _ <- guard ((a <=? b) && (b <=? length l)) ;; Some (firstn (b - a) (skipn a l)).

(** BITS_PER_PREFIX = 512, INTS_PER_PREFIX = 8, l.212-213 *)
Definition BPP : nat := 512.
Definition IPP : nat := 8.

(** RankSelectMap, l.207-210 *)
Record rankmap := mkRm { flags : bitvec; prefix_sum : list nat }.

(** bit_count_entire_range, l.251-257 *)
Definition bit_count_entire_range (b : bitvec) (r : nat) : option nat :=
  ws <- slice (bdata b) (r * IPP) (Nat.min ((r + 1) * IPP) (length (bdata b))) ;; Some (popcounts ws).

(** compile, l.242-249: fills prefix_sum[1..]; [r] is the range index, [previous] the last prefix sum *)
Fixpoint compile (b : bitvec) (r count previous : nat) : option (list nat) :=
  match count with
  | O => Some []
  | S count =>
    c <- bit_count_entire_range b r ;;
    rest <- compile b (S r) count (c + previous) ;;
    Some ((c + previous) :: rest)
  end.

(** RankSelectMap::new, l.217-227 *)
Definition rm_new (b : bitvec) : option rankmap :=
  rest <- compile b 0 ((bsize b + BPP - 1) / BPP) 0 ;; Some (mkRm b (0 :: rest)).

(** len, l.230-235 *)
Definition rm_len (m : rankmap) : nat := last (prefix_sum m) 0.

(** bit_count_partial_range, l.286-293 *)
Definition bit_count_partial_range (b : bitvec) (key : nat) : option nat :=
  let index := key / WORD in
  w <- nth_error (bdata b) index ;;
  ws <- slice (bdata b) ((index / IPP) * IPP) index ;;
  Some (popcounts ws + popcount (w mod (bit_mask key))).

(** at, l.261-264 *)
Definition rm_at (m : rankmap) (key : nat) : option nat :=
  g <- bv_get (flags m) key ;;
  _ <- guard g ;;
  p <- nth_error (prefix_sum m) (key / BPP) ;;
  c <- bit_count_partial_range (flags m) key ;; Some (p + c).

(** at_or_next_lower, l.268-275; usize underflow of [value - 1] is a panic (debug) *)
Definition rm_at_or_next_lower (m : rankmap) (key : nat) : option nat :=
  p <- nth_error (prefix_sum m) (key / BPP) ;;
  c <- bit_count_partial_range (flags m) key ;;
  g <- bv_get (flags m) key ;;
  if g : bool then Some (p + c) else (_ <- guard (0 <? p + c) ;; Some (p + c - 1)).

(** get, l.278-284. Outer option: panic *)
Definition rm_get (m : rankmap) (key : nat) : option (option nat) :=
  if key <? bsize (flags m) then
    g <- bv_get (flags m) key ;;
    if g : bool then
      p <- nth_error (prefix_sum m) (key / BPP) ;;
      c <- bit_count_partial_range (flags m) key ;; Some (Some (p + c))
    else Some None
  else Some None.

(** a history of FastClearBitVec calls *)
Definition fc_run (ops : list fc_op) (b : fcbv) : option fcbv :=
  foldM (fun b op => match op with FSet i => fc_set b i | FClear => fc_clear b end) ops b.
