(** Model of engine/src/datastr/timestamped_vector.rs (TimestampedVector, AtomicDists). *)
From Verif Require Import Base SpecArray.

Section TsVec.
  Variable V : Type.
  Variable default : V.   (** T::DEFAULT; Reset::reset writes it (l.6-11), Vec::clear (l.30-32) likewise *)

  (** l.40-47 *)
  Record tsvec := mkTs { tdata : list V; tcurrent : N; tstamps : list N }.

  (** new, l.51-58 *)
  Definition ts_new (size : nat) : tsvec := mkTs (repeat default size) 0%N (repeat 0%N size).

  (** reset, l.62-72: u32 overflowing_add *)
  Definition ts_reset (t : tsvec) : tsvec :=
    let sum := (tcurrent t + 1)%N in
    let new := (sum mod U32)%N in
    let overflow := (U32 <=? sum)%N in
    mkTs (if overflow then map (fun _ => default) (tdata t) else tdata t) new (tstamps t).

  (** set, l.76-80 *)
  Definition ts_set (t : tsvec) (i : nat) (v : V) : option tsvec :=
    d <- set_at (tdata t) i v ;;
    s <- set_at (tstamps t) i (tcurrent t) ;;
    Some (mkTs d (tcurrent t) s).

  (** Index::index, l.118-126; get_unchecked l.92-101 reads the same way *)
  Definition ts_get (t : tsvec) (i : nat) : option V :=
    s <- nth_error (tstamps t) i ;;
    if (s =? tcurrent t)%N then nth_error (tdata t) i else Some default.

  (** IndexMut::index_mut, l.130-136 (and get_unchecked_mut l.103-112), followed by a write through the
      returned reference *)
  Definition ts_modify (t : tsvec) (i : nat) (f : V -> V) : option tsvec :=
    s <- nth_error (tstamps t) i ;;
    let t1 := if negb (s =? tcurrent t)%N
              then mkTs (upd (tdata t) i default) (tcurrent t) (upd (tstamps t) i (tcurrent t))
              else t in
    v <- nth_error (tdata t1) i ;;
    Some (mkTs (upd (tdata t1) i (f v)) (tcurrent t1) (tstamps t1)).

  Definition ts_step (t : tsvec) (op : arr_op V) : option (tsvec * arr_out V) :=
    match op with
    | AReset => Some (ts_reset t, None)
    | ASet i v => t' <- ts_set t i v ;; Some (t', None)
    | AModify i f => t' <- ts_modify t i f ;; Some (t', None)
    | AGet i => v <- ts_get t i ;; Some (t, Some v)
    end.
End TsVec.
Arguments mkTs {V}. Arguments tdata {V}. Arguments tcurrent {V}. Arguments tstamps {V}.

(** AtomicDists, l.141-197. A cell is the pair (weight, timestamp) packed in one AtomicU64 (from_pair /
    to_pair, l.192-197, are mutually inverse transmutes), so [set] and [get] are single atomic accesses; a
    history of concurrent calls is therefore a sequence of these steps. *)
Record adists := mkAd { acells : list (N * N); acurrent : N }.
(** new, l.147-152 *)
Definition ad_new (size : nat) : adists := mkAd (repeat (INF, 0%N) size) 0%N.
(** reset, l.156-166 *)
Definition ad_reset (t : adists) : adists :=
  let sum := (acurrent t + 1)%N in
  mkAd (if (U32 <=? sum)%N then map (fun _ => (INF, 0%N)) (acells t) else acells t) (sum mod U32)%N.
(** set, l.168-170 *)
Definition ad_set (t : adists) (i : nat) (v : N) : option adists :=
  c <- set_at (acells t) i (v, acurrent t) ;; Some (mkAd c (acurrent t)).
(** get, l.172-179 *)
Definition ad_get (t : adists) (i : nat) : option N :=
  '(w, ts) <- nth_error (acells t) i ;; Some (if (ts =? acurrent t)%N then w else INF).
(** AtomicDists has no index_mut; [AModify] is load-then-store by one thread with no other access between. *)
Definition ad_step (t : adists) (op : arr_op N) : option (adists * arr_out N) :=
  match op with
  | AReset => Some (ad_reset t, None)
  | ASet i v => t' <- ad_set t i v ;; Some (t', None)
  | AModify i f => v <- ad_get t i ;; t' <- ad_set t i (f v) ;; Some (t', None)
  | AGet i => v <- ad_get t i ;; Some (t, Some v)
  end.

(** ClearlistVector, engine/src/datastr/clearlist_vector.rs *)
Section Clearlist.
  Variable V : Type.
  Variable eqb : V -> V -> bool.   (** T: PartialEq *)
  Variable default : V.
  (** l.9-13 *)
  Record clvec := mkCl { cdata : list V; clist : list nat }.
  (** new, l.17-23 *)
  Definition cl_new (size : nat) : clvec := mkCl (repeat default size) [].
  (** reset, l.26-31 *)
  Definition cl_reset (t : clvec) : option clvec :=
    d <- fold_left (fun acc i => d <- acc ;; set_at d i default) (clist t) (Some (cdata t)) ;;
    Some (mkCl d []).
  (** Index, l.37-39 *)
  Definition cl_get (t : clvec) (i : nat) : option V := nth_error (cdata t) i.
  (** IndexMut, l.43-48, followed by a write through the reference *)
  Definition cl_modify (t : clvec) (i : nat) (f : V -> V) : option clvec :=
    v <- nth_error (cdata t) i ;;
    Some (mkCl (upd (cdata t) i (f v)) (if eqb v default then clist t ++ [i] else clist t)).
  (** there is no [set]; assignment [v[i] = x] goes through IndexMut *)
  Definition cl_step (t : clvec) (op : arr_op V) : option (clvec * arr_out V) :=
    match op with
    | AReset => t' <- cl_reset t ;; Some (t', None)
    | ASet i v => t' <- cl_modify t i (fun _ => v) ;; Some (t', None)
    | AModify i f => t' <- cl_modify t i f ;; Some (t', None)
    | AGet i => v <- cl_get t i ;; Some (t, Some v)
    end.
End Clearlist.
Arguments mkCl {V}. Arguments cdata {V}. Arguments clist {V}.
