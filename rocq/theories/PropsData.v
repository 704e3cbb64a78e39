(** Property theorems: data structures (C01 - C07). *)
From Verif Require Import Base SpecPQ IndexHeap IndexHeapProof SpecArray TsVec TsVecProof SpecBits BitVec BitVecProof FastClearProof.

(** Heap elements used in the examples: (key, node), ordered lexicographically like the derived Ord of
    [State] (algo/dijkstra.rs l.23-28). *)
Definition st := (N * nat)%type.
Definition st_ltb (a b : st) : bool := ((fst a <? fst b) || ((fst a =? fst b) && (snd a <? snd b)%nat))%N.

Lemma st_order : order_laws st_ltb.
Proof. constructor; unfold st_ltb; intros; lia. Qed.

(** C01 *)
Theorem C01_index_heap_is_priority_queue :
  forall (T : Type) (idx : T -> nat) (ltb : T -> T -> bool), order_laws ltb ->
  forall (n : nat) (ops : list (pq_op T)),
    conforms T idx ltb (hstep T idx ltb) n (empty T) (hnew n) ops.
Proof. intros T idx ltb OL n ops. exact (heap_conforms T idx ltb OL n ops). Qed.
Print Assumptions C01_index_heap_is_priority_queue.

(** A legal call sequence through every operation, and what the heap answers. *)
Example C01_nonvacuous :
  impl_run (hstep st snd st_ltb) (hnew 4)
    [Push (5%N, 0); Push (3%N, 1); Push (9%N, 2); DecreaseKey (1%N, 2); IncreaseKey (7%N, 1); Get 1; Len; Pop; Peek;
     UpdateKey (2%N, 1); Pop; Contains 0; Drain; Pop]
  = [Some OUnit; Some OUnit; Some OUnit; Some OUnit; Some OUnit; Some (OElem (Some (7%N, 1))); Some (ONat 3);
     Some (OElem (Some (1%N, 2))); Some (OElem (Some (5%N, 0))); Some OUnit; Some (OElem (Some (2%N, 1)));
     Some (OBool true); Some (OList [(5%N, 0)]); Some (OElem None)].
Proof. vm_compute. reflexivity. Qed.

(** C02: the documented "does nothing if the new key is larger" is not what the code does. After two legal
    pushes, decrease_key with a larger key overwrites the stored element and the next pop returns an element
    although a smaller one is in the heap. Same for increase_key with a smaller key. *)
Theorem C02_wrong_direction_key_change_refuted :
  (exists (h h1 h2 : heap st) (x old top other : st),
     (exists o1 o2 h0, hstep st snd st_ltb (hnew 2) (Push (1%N, 0)) = Some (h0, o1) /\
                       hstep st snd st_ltb h0 (Push (2%N, 1)) = Some (h, o2)) /\
     hget h (snd x) = Some (Some old) /\ st_ltb old x = true /\
     hdecrease st snd st_ltb h x = Some h1 /\ hget h1 (snd x) = Some (Some x) /\
     hpop st snd st_ltb h1 = Some (h2, Some top) /\
     hget h1 (snd other) = Some (Some other) /\ st_ltb other top = true) /\
  (exists (h h1 h2 : heap st) (x old top other : st),
     (exists o1 o2 h0, hstep st snd st_ltb (hnew 2) (Push (1%N, 0)) = Some (h0, o1) /\
                       hstep st snd st_ltb h0 (Push (2%N, 1)) = Some (h, o2)) /\
     hget h (snd x) = Some (Some old) /\ st_ltb x old = true /\
     hincrease st snd st_ltb h x = Some h1 /\ hget h1 (snd x) = Some (Some x) /\
     hpop st snd st_ltb h1 = Some (h2, Some top) /\
     hget h1 (snd other) = Some (Some other) /\ st_ltb other top = true).
Proof.
  split.
  - exists (mkHeap [Some 0; Some 1] [(1%N, 0); (2%N, 1)]), (mkHeap [Some 0; Some 1] [(5%N, 0); (2%N, 1)]),
      (mkHeap [None; Some 0] [(2%N, 1)]), (5%N, 0), (1%N, 0), (5%N, 0), (2%N, 1).
    vm_compute. repeat split; eauto.
  - exists (mkHeap [Some 0; Some 1] [(1%N, 0); (2%N, 1)]), (mkHeap [Some 0; Some 1] [(1%N, 0); (0%N, 1)]),
      (mkHeap [None; Some 0] [(0%N, 1)]), (0%N, 1), (2%N, 1), (1%N, 0), (0%N, 1).
    vm_compute. repeat split; eauto.
Qed.
Print Assumptions C02_wrong_direction_key_change_refuted.

(** C03 *)
Theorem C03_timestamped_vector_is_resettable_array :
  forall (V : Type) (default : V) (n : nat) (ops : list (arr_op V)),
    impl_run (ts_step V default) (ts_new V default n) ops = arr_run V default n (fun _ => default) ops.
Proof. exact ts_run. Qed.
Print Assumptions C03_timestamped_vector_is_resettable_array.

Theorem C03_atomic_dists_is_resettable_array :
  forall (n : nat) (ops : list (arr_op N)),
    impl_run ad_step (ad_new n) ops = arr_run N INF n (fun _ => INF) ops.
Proof. exact ad_run. Qed.
Print Assumptions C03_atomic_dists_is_resettable_array.

(** The wrap-around is inside the scope of the theorem: from the state with timestamp 2^32-1 a reset wraps to 0,
    where the value written before the wrap and old timestamps are both invisible. *)
Example C03_wrap :
  let t := mkTs [7%N; 8%N] 4294967295%N [4294967295%N; 1%N] in
  let t1 := ts_reset N INF t in
  tcurrent t1 = 0%N /\ ts_get N INF t1 0 = Some INF /\
  ts_get N INF (ts_reset N INF t1) 1 = Some INF /\ tcurrent (ts_reset N INF t1) = 1%N.
Proof. vm_compute. repeat split. Qed.
Example C03_nonvacuous :
  impl_run (ts_step N INF) (ts_new N INF 3) [ASet 1 5%N; AModify 1 (fun x => (x + 1)%N); AGet 1; AGet 0; AReset; AGet 1; AGet 3]
  = [Some None; Some None; Some (Some 6%N); Some (Some INF); Some None; Some (Some INF); None].
Proof. vm_compute. reflexivity. Qed.

(** C04 *)
Theorem C04_clearlist_vector_is_resettable_array :
  forall (V : Type) (eqb : V -> V -> bool) (default : V), (forall a b, eqb a b = true <-> a = b) ->
  forall (n : nat) (ops : list (arr_op V)),
    impl_run (cl_step V eqb default) (cl_new V default n) ops = arr_run V default n (fun _ => default) ops.
Proof. exact cl_run. Qed.
Print Assumptions C04_clearlist_vector_is_resettable_array.
Example C04_nonvacuous :
  impl_run (cl_step N N.eqb 0%N) (cl_new N 0%N 3) [ASet 1 5%N; ASet 1 0%N; ASet 2 4%N; ASet 1 6%N; AReset; AGet 1; AGet 2]
  = [Some None; Some None; Some None; Some None; Some None; Some (Some 0%N); Some (Some 0%N)].
Proof. vm_compute. reflexivity. Qed.

Theorem C04_fast_clear_bitvec_is_index_set :
  forall (n : nat) (ops : list fc_op), (forall i, In (FSet i) ops -> i < n) ->
  exists b, fc_run ops (fc_new n) = Some b /\
    (forall i, i < n -> fc_get b i = Some (fc_set_after ops i)) /\
    exists l, fc_set_bits b = Some l /\ NoDup l /\ forall i, In i l <-> fc_set_after ops i = true.
Proof. exact fc_history_spec. Qed.
Print Assumptions C04_fast_clear_bitvec_is_index_set.
Example C04_fast_clear_nonvacuous :
  (b <- fc_run [FSet 3; FSet 130; FClear; FSet 64; FSet 65; FSet 64; FSet 2] (fc_new 200) ;; l <- fc_set_bits b ;; Some (l, fc_get b 3, fc_get b 65))
  = Some ([64; 65; 2], Some false, Some true).
Proof. vm_compute. reflexivity. Qed.

(** C05: the full statement (histories with set_all and count_ones on any size) is refuted below; it holds
    for histories without count_ones, and for all histories when set_all is not used or 64 divides the size. *)
Theorem C05_bitvec_is_index_set_without_count :
  forall (n : nat) (ops : list bits_op), ~ In BCount ops ->
    impl_run bv_step (bv_new n) ops = bits_run n (fun _ => false) ops.
Proof. exact bv_run_nocount. Qed.
Print Assumptions C05_bitvec_is_index_set_without_count.

Theorem C05_bitvec_is_index_set :
  forall (n : nat) (ops : list bits_op), (In BSetAll ops -> n mod 64 = 0) ->
    impl_run bv_step (bv_new n) ops = bits_run n (fun _ => false) ops.
Proof. exact bv_run_count. Qed.
Print Assumptions C05_bitvec_is_index_set.

Theorem C05_count_after_set_all_refuted :
  exists (n : nat) (ops : list bits_op), impl_run bv_step (bv_new n) ops <> bits_run n (fun _ => false) ops.
Proof. exists 3, [BSetAll; BCount]. vm_compute. congruence. Qed.
Print Assumptions C05_count_after_set_all_refuted.
Example C05_nonvacuous :
  impl_run bv_step (bv_new 130) [BSet 3; BSet 64; BSet 129; BUnset 3; BCount; BGet 64; BUnsetAround 100; BGet 64; BCount; BSet 130]
  = [Some BoUnit; Some BoUnit; Some BoUnit; Some BoUnit; Some (BoNat 2); Some (BoBool true); Some BoUnit; Some (BoBool false); Some (BoNat 1); None].
Proof. vm_compute. reflexivity. Qed.

(** C06. [count s k] is the number of indices below [k] in the set. The map is built from a bit vector filled
    by any history of set/unset/... calls (count_ones does not change the vector and is left out). *)
Theorem C06_rank_map_numbers_set_bits :
  forall (n : nat) (ops : list bits_op) (s : nat -> bool),
    ~ In BCount ops -> impl_final (bits_step n) (fun _ => false) ops = Some s ->
    exists b m, impl_final bv_step (bv_new n) ops = Some b /\ rm_new b = Some m /\ forall key,
      rm_get m key = Some (if (key <? n) && s key then Some (count s key) else None) /\
      rm_at m key = (if (key <? n) && s key then Some (count s key) else None) /\
      (key < n -> rm_at_or_next_lower m key = if 0 <? count s (S key) then Some (count s (S key) - 1) else None).
Proof. exact rank_map_ok. Qed.
Print Assumptions C06_rank_map_numbers_set_bits.

Theorem C06_rank_map_len :
  forall (n : nat) (ops : list bits_op) (s : nat -> bool),
    (In BSetAll ops -> n mod 64 = 0) -> impl_final (bits_step n) (fun _ => false) ops = Some s ->
    exists b m, impl_final bv_step (bv_new n) ops = Some b /\ rm_new b = Some m /\ rm_len m = count s n.
Proof. exact rank_map_len_ok. Qed.
Print Assumptions C06_rank_map_len.

(** len counts the padding bits of a vector that was filled with set_all *)
Theorem C06_rank_map_len_after_set_all_refuted :
  exists n s b m, impl_final (bits_step n) (fun _ => false) [BSetAll] = Some s /\
    impl_final bv_step (bv_new n) [BSetAll] = Some b /\ rm_new b = Some m /\ rm_len m <> count s n.
Proof.
  exists 3, (fun _ => true), (mkBv [18446744073709551615%N] 3), (mkRm (mkBv [18446744073709551615%N] 3) [0; 64]).
  vm_compute. repeat split; congruence.
Qed.
Print Assumptions C06_rank_map_len_after_set_all_refuted.

Example C06_nonvacuous :
  match impl_final bv_step (bv_new 1100) [BSet 3; BSet 64; BSet 600; BSet 1099] with
  | Some b => match rm_new b with
              | Some m => (rm_at m 1099, rm_get m 600, rm_get m 4, rm_at_or_next_lower m 700, rm_len m)
              | None => (None, None, None, None, 0) end
  | None => (None, None, None, None, 0) end = (Some 3, Some (Some 2), Some None, Some 2, 4).
Proof. vm_compute. reflexivity. Qed.
