(** Model of engine/src/datastr/graph/time_dependent/piecewise_linear_function.rs and of what it uses:
    sorted_search_slice_ext.rs, geometry/line.rs, math.rs, wrapping_range.rs.

    A function is the pair of its slices [dts] (departure_time) and [tts] (travel_time).
    [P] is [period()] (mod.rs l.27, 86_400_000), [debug] says whether debug assertions are compiled in.
    [bs] is [slice::binary_search]: [inl i] = Ok(i), [inr i] = Err(i).
    Subtractions on u32 are checked as in debug builds ([None] on underflow). The u64 arithmetic is exact: its
    operands are u32 values, so products and sums stay below 2^64. [get_unchecked] is modelled as checked. *)
From Verif Require Import Base BitVec.

Definition csubN (a b : N) : option N := if (b <=? a)%N then Some (a - b)%N else None.

(** [Iterator::min] / [max] followed by [unwrap] *)
Fixpoint lminN (l : list N) : option N :=
  match l with
  | [] => None
  | x :: l' => match lminN l' with None => Some x | Some m => Some (N.min x m) end
  end.
Fixpoint lmaxN (l : list N) : option N :=
  match l with
  | [] => None
  | x :: l' => match lmaxN l' with None => Some x | Some m => Some (N.max x m) end
  end.

(** sorted_search_slice_ext.rs l.7-10 *)
Inductive location := On (i : nat) | Between (lower upper : nat).

(** [slice::windows(2)] *)
Fixpoint windows2 {A} (l : list A) : list (A * A) :=
  match l with
  | a :: (b :: _) as l' => (a, b) :: windows2 l'
  | _ => []
  end.

(** math.rs l.30-58: [Range::split] *)
Definition rsplit (r : N * N) (at_ : N) : (N * N) * (N * N) :=
  if (at_ <? fst r)%N then ((at_, at_), r)
  else if (snd r <=? at_)%N then (r, (at_, at_))
  else ((fst r, at_), (at_, snd r)).

(** math.rs l.18-23: [Range::intersection] *)
Definition rinter (a b : N * N) : N * N := (N.max (fst a) (fst b), N.min (snd a) (snd b)).

Section PLF.
  Variable bs : list N -> N -> option (nat + nat).
  Variable P : N.
  Variable debug : bool.

  (** [debug_assert!] *)
  Definition dassert (b : bool) : option unit := if debug then guard b else Some tt.

  (** sorted_search_slice_ext.rs l.28-48 (the key function is the identity at all uses here) *)
  Definition locate (l : list N) (t : N) : option location :=
    if (t =? 0)%N then Some (On 0)
    else if (t =? P)%N then (if length l =? 0 then None else Some (On (length l - 1)))
    else
      r <- bs l t ;;
      match r with
      | inl i => Some (On i)
      | inr u =>
          _ <- dassert (0 <? u) ;;
          _ <- dassert (u <? length l) ;;
          if u =? 0 then None else Some (Between (u - 1) u)
      end.

  (** sorted_search_slice_ext.rs l.50-70 *)
  Definition index_range (l : list N) (r : N * N) : option (nat * nat) :=
    if (fst r =? snd r)%N then Some (0, 0)
    else
      a <- locate l (fst r) ;;
      b <- locate l (snd r) ;;
      Some (match a with On i => i | Between lo _ => lo end,
            match b with On i => i + 1 | Between _ up => up + 1 end).

  (** piecewise_linear_function.rs l.13-32, [new]: only debug assertions. The additions in the last assertion are
      part of it and therefore only executed in debug builds. *)
  Definition plf_new (dts tts : list N) : option unit :=
    if debug then
      _ <- guard (length dts =? length tts) ;;
      _ <- guard (negb (length dts =? 0)) ;;
      d0 <- nth_error dts 0 ;;
      _ <- guard (d0 =? 0)%N ;;
      vl <- nth_error tts (length tts - 1) ;;
      v0 <- nth_error tts 0 ;;
      _ <- guard (vl =? v0)%N ;;
      _ <- guard (forallb (fun d => d <? P)%N (firstn (length dts - 1) dts)) ;;
      foldM (fun _ '(d, v) =>
               _ <- guard (fst d <? snd d)%N ;;
               a <- cadd (fst d) (fst v) ;;
               b <- cadd (snd d) (snd v) ;;
               guard (a <=? b)%N)
            (combine (windows2 dts) (windows2 tts)) tt
    else Some tt.

  (** geometry/line.rs l.30-34, 37-42, 44-61: [into_monotone_at_line], [MonotoneLine<ATIpp>::new] and
      [interpolate_tt_in_range] with [interpolate_at_in_range] *)
  Definition interpolate (d0 v0 d1 v1 x : N) : option N :=
    _ <- dassert (d0 <=? d1)%N ;;
    a0 <- cadd d0 v0 ;;
    a1 <- cadd d1 v1 ;;
    _ <- dassert (d0 <? d1)%N ;;
    _ <- dassert (a0 <=? a1)%N ;;
    dx <- csubN d1 d0 ;;
    dy <- csubN a1 a0 ;;
    rx <- csubN x d0 ;;
    _ <- guard (negb (dx =? 0)%N) ;;
    let r := (a0 + rx * dy / dx)%N in
    _ <- dassert (r <? INF)%N ;;
    csubN (r mod U32)%N x.

  (** piecewise_linear_function.rs l.134-155 *)
  Definition evaluate (dts tts : list N) (t : N) : option N :=
    _ <- dassert (t <=? P)%N ;;
    if length dts <=? 2 then nth_error tts 0
    else
      l <- locate dts t ;;
      match l with
      | On i => nth_error tts i
      | Between lo up =>
          d0 <- nth_error dts lo ;;
          v0 <- nth_error tts lo ;;
          d1 <- nth_error dts up ;;
          v1 <- nth_error tts up ;;
          interpolate d0 v0 d1 v1 t
      end.

  (** l.50-53 *)
  Definition plf_eval (dts tts : list N) (t : N) : option N :=
    _ <- guard (negb (P =? 0)%N) ;;
    evaluate dts tts (t mod P)%N.

  (** l.56-58, 130-132 *)
  Definition plf_lower_bound (dts tts : list N) : option N := lminN tts.
  Definition plf_upper_bound (dts tts : list N) : option N := lmaxN tts.

  (** l.72-93 and l.106-127: [lower_bound_in_included] ([pick] = min) and [upper_bound_in_included] (max) *)
  Definition bound_in_included (pick : list N -> option N) (dts tts : list N) (r : N * N) : option N :=
    if (snd r <=? fst r)%N then Some INF
    else
      l1 <- locate dts (fst r) ;;
      '(i, first) <- match l1 with
                     | On i => Some (i, INF)
                     | Between _ up => e <- evaluate dts tts (fst r) ;; Some (up, e)
                     end ;;
      l2 <- locate dts (snd r) ;;
      '(j, last) <- match l2 with
                    | On j => Some (j, INF)
                    | Between lo _ => e <- evaluate dts tts (snd r) ;; Some (lo, e)
                    end ;;
      s <- slice tts i (j + 1) ;;
      pick (s ++ [first; last]).

  (** l.61-70, 95-104 *)
  Definition bound_in_range (pick : list N -> option N) (comb : N -> N -> N) (dts tts : list N) (r : N * N) : option N :=
    match tts with
    | [c] => Some c
    | _ =>
        let '(r1, r2) := rsplit r P in
        _ <- guard (negb (P =? 0)%N) ;;
        x <- bound_in_included pick dts tts r1 ;;
        y <- bound_in_included pick dts tts (fst r2 mod P, snd r2 mod P)%N ;;
        Some (comb x y)
    end.
  Definition lower_bound_in_range := bound_in_range lminN N.min.
  Definition upper_bound_in_range := bound_in_range lmaxN N.max.

  (** l.157-173: [non_wrapping_seg_iter], with the assertion of [MonotoneLine<TTIpp>::new] (line.rs l.25-28).
      A segment is (travel time at its start, travel time at its end, valid range). *)
  Definition seg_iter (dts tts : list N) (r : N * N) : option (list (N * N * (N * N))) :=
    _ <- dassert (1 <? length dts) ;;
    '(a, b) <- index_range dts r ;;
    ds <- slice dts a b ;;
    ts <- slice tts a b ;;
    mapM (fun '((d0, d1), (v0, v1)) =>
            _ <- dassert (d0 <=? d1)%N ;;
            Some (v0, v1, rinter (d0, d1) r))
         (combine (windows2 ds) (windows2 ts)).

  (** wrapping_range.rs l.14-18, 42-47: [WrappingRange::new] and [monotonize] *)
  Definition wr_new (r : N * N) : option (N * N) :=
    _ <- dassert (fst r <? P)%N ;;
    _ <- dassert (snd r <? P)%N ;;
    Some r.
  Definition monotonize (r : N * N) : option (N * N) :=
    if (snd r <=? fst r)%N then (e <- cadd (snd r) P ;; Some (fst r, e)) else Some r.

  (** l.34-47 *)
  Definition average (dts tts : list N) (w : N * N) : option N :=
    m <- monotonize w ;;
    total <- csubN (snd m) (fst m) ;;
    let '(r1, r2) := rsplit m P in
    s1 <- seg_iter dts tts r1 ;;
    s2 <- seg_iter dts tts r2 ;;
    sum <- foldM (fun sum '(v0, v1, valid) =>
                    delta <- csubN (snd valid) (fst valid) ;;
                    Some (sum + v0 * delta + v1 * delta)%N) (s1 ++ s2) 0%N ;;
    _ <- guard (negb (total =? 0)%N) ;;
    Some ((sum / 2 / total) mod U32)%N.
End PLF.
