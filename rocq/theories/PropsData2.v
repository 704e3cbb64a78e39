(** Property theorems: select, the label heap, stored data, sentinel encoded options (C07, C08, C10, C43). *)
From Verif Require Import Base SpecIO SpecArray SpecBits BitVec BitVecProof FastClearProof Select SelectProof SpecLabelHeap LabelHeap LabelHeapProof
  SpecGraph Graph GraphProof GraphIdProof NodeOrder NodeOrderProof CCH CCHContractProof CCHBuildProof IO IOProof CCHIOProof InRange PropsCCH.
Open Scope nat_scope.
Open Scope list_scope.

(** ** C07: select inverts rank.
    For any history of a bit vector of any size and for every implementation of slice::binary_search, the rank of a
    set bit is mapped back to the bit, unless the bit is the first one of its block of 512 and the block before is
    empty. What is missing for the full property is false, see the next theorem. *)
Theorem C07_select_inverts_rank_partial :
  forall n ops s bs, (In BSetAll ops -> n mod 64 = 0) -> impl_final (bits_step n) (fun _ => false) ops = Some s -> bs_contract bs ->
  exists b m sm, impl_final bv_step (bv_new n) ops = Some b /\ rm_new b = Some m /\ sel_new m = Some sm /\
    forall i, i < n -> s i = true -> exists r, rm_at m i = Some r /\ r = count s i /\
      ((i < 512 \/ exists j, j < i /\ s j = true /\ i / 512 - 1 <= j / 512) -> sel_inverse bs sm r = Some i).
Proof. intros. apply select_ok; auto. Qed.
Print Assumptions C07_select_inverts_rank_partial.

(** Bits 0 and 1536 of 2048: the binary search of the standard library meets the same prefix sum in three blocks,
    picks one without a set bit, and inverse panics on a value that is in range. *)
Theorem C07_select_inverts_rank_refuted :
  exists n ops s b m sm i r, impl_final (bits_step n) (fun _ => false) ops = Some s /\ impl_final bv_step (bv_new n) ops = Some b /\
    rm_new b = Some m /\ sel_new m = Some sm /\ i < n /\ s i = true /\ rm_at m i = Some r /\ bs_contract binary_search /\
    sel_inverse binary_search sm r = None.
Proof.
  exists 2048, [BSet 0; BSet 1536].
  destruct (impl_final (bits_step 2048) (fun _ => false) [BSet 0; BSet 1536]) as [s|] eqn:Es; [|discriminate].
  destruct (impl_final bv_step (bv_new 2048) [BSet 0; BSet 1536]) as [b|] eqn:Eb; [|discriminate Eb].
  assert (Q : (b <- impl_final bv_step (bv_new 2048) [BSet 0; BSet 1536] ;; m <- rm_new b ;; sm <- sel_new m ;; r <- rm_at m 1536 ;;
     match sel_inverse binary_search sm r with None => Some tt | Some _ => None end) = Some tt) by (vm_compute; reflexivity).
  rewrite Eb in Q. cbn [bind] in Q. exists s, b.
  destruct (rm_new b) as [m|]; [|discriminate Q]. cbn [bind] in Q. destruct (sel_new m) as [sm|] eqn:Esm; [|discriminate Q]. cbn [bind] in Q.
  destruct (rm_at m 1536) as [r|] eqn:Er; [|discriminate Q]. cbn [bind] in Q. exists m, sm, 1536, r.
  split; auto. split; auto. split; auto. split; auto. split; [apply Nat.ltb_lt; vm_compute; reflexivity|].
  split. { cbn [impl_final bits_step] in Es. change (0 <? 2048) with true in Es. change (1536 <? 2048) with true in Es. cbv iota in Es.
    injection Es as <-. vm_compute. reflexivity. }
  split; auto. split; [exact binary_search_contract|]. destruct (sel_inverse _ _ _); [discriminate Q|auto].
Qed.
Print Assumptions C07_select_inverts_rank_refuted.

(** 700 set bits: more than one group of 256, bits in two blocks, all answers back *)
Example C07_nonvacuous :
  (b <- impl_final bv_step (bv_new 1000) (map BSet (seq 100 700)) ;; m <- rm_new b ;; s <- sel_new m ;;
   mapM (fun i => r <- rm_at m i ;; i' <- sel_inverse binary_search s r ;; Some (r, i')) [100; 355; 356; 511; 512; 799]) =
  Some [(0, 100); (255, 355); (256, 356); (411, 511); (412, 512); (699, 799)].
Proof. vm_compute. reflexivity. Qed.

(** ** C08: the label heap *)
Theorem C08_label_heap :
  forall (T : Type) (le : T -> T -> bool), total_preorder le -> forall ops : list (lh_op T),
  exists os, lh_run le lh_new ops = Some os /\ length os = length ops /\ lh_trace le ([], []) (combine ops os).
Proof. intros T le TP ops. destruct (run_ok le TP ops lh_new (new_ok le)) as (os & E & L & Tr). exists os. split; auto. Qed.
Print Assumptions C08_label_heap.

Example C08_nonvacuous :
  total_preorder Nat.leb /\
  lh_run Nat.leb lh_new [LPush 3; LPush 7; LPush 5; LPop; LPush 4; LPopped; LPop; LPeek; LPush 9; LPush 1; LRetain (fun x => negb (x =? 4)); LPopped; LPop; LPop; LPop; LPop; LPopped] =
  Some [LUnit; LUnit; LUnit; LElem (Some 7); LUnit; LList [7]; LElem (Some 5); LElem (Some 4); LUnit; LUnit; LUnit; LList [5; 7];
        LElem (Some 9); LElem (Some 3); LElem (Some 1); LElem None; LList [1; 3; 9; 5; 7]].
Proof.
  split. { constructor; intros; rewrite ?Nat.leb_le in *; lia. }
  vm_compute. reflexivity.
Qed.

(** ** C10: stored data *)

(** Element types: unsigned and signed integers of any positive number of bytes, pairs of such types, ids. *)
Theorem C10_element_types :
  (forall k, 0 < k -> repr_ok (uint_repr k)) /\ (forall k, 0 < k -> repr_ok (int_repr k)) /\ repr_ok id_repr /\
  (forall A B (a : repr A) (b : repr B), repr_ok a -> repr_ok b -> repr_ok (pair_repr a b)).
Proof. repeat split; try apply uint_ok; try apply int_ok; try apply id_ok; try apply pair_ok; auto. Qed.
Print Assumptions C10_element_types.

(** Written vectors load back; all other files keep their contents. *)
Theorem C10_vector_round_trip :
  forall T (r : repr T), repr_ok r -> forall f p (l : list T), Forall (r_valid r) l ->
  load_vec r (write_to f p (data_bytes r l)) p = Some (Some l) /\ (forall q, q <> p -> write_to f p (data_bytes r l) q = f q).
Proof. intros T r R f p l V. split; [|intros; apply write_other; auto]. apply load_data; auto. apply write_read. Qed.
Print Assumptions C10_vector_round_trip.

(** A file with any other contents: a size that is no multiple of the element size is rejected, a missing file is
    reported as error, a file that was cut off after [k] bytes is rejected or yields the elements before the cut. *)
Theorem C10_bad_files :
  forall T (r : repr T), repr_ok r -> forall f p,
  (f p = None -> load_vec r f p = Some None) /\
  (forall bytes, f p = Some bytes -> List.length bytes mod r_size r <> 0 -> load_vec r f p = None) /\
  (forall l k, Forall (r_valid r) l -> f p = Some (firstn k (data_bytes r l)) -> k <= List.length l * r_size r ->
     load_vec r f p = if k mod r_size r =? 0 then Some (Some (firstn (k / r_size r) l)) else None).
Proof.
  intros T r R f p. split; [unfold load_vec; intros ->; auto|]. split; [intros; eapply load_bad; eauto|]. intros; apply load_prefix; auto.
Qed.
Print Assumptions C10_bad_files.

Example C10_vectors_nonvacuous :
  data_bytes (pair_repr (uint_repr 4) (int_repr 2)) [(258%N, (-2)%Z); (7%N, 5%Z)] = [2; 1; 0; 0; 254; 255; 7; 0; 0; 0; 5; 0]%N /\
  load_vec (pair_repr (uint_repr 4) (int_repr 2)) (write_to (fun _ => None) "a"%string [2; 1; 0; 0; 254; 255; 7; 0; 0; 0; 5; 0]%N) "a"%string =
    Some (Some [(258%N, (-2)%Z); (7%N, 5%Z)]) /\
  load_vec (uint_repr 4) (write_to (fun _ => None) "a"%string [2; 1; 0; 0; 254; 255]%N) "a"%string = None.
Proof. vm_compute. auto. Qed.

(** Bit vectors: every bit loads back; the size comes back rounded up to a multiple of 64. *)
Lemma small_word w : word_ok w -> (w < 2 ^ 64)%N.
Proof.
  intros H. destruct (N.lt_ge_cases w (2 ^ 64)) as [|G]; auto. exfalso.
  assert (Hz : w <> 0%N) by (intros ->; apply G; reflexivity).
  pose proof (N.bit_log2 w Hz) as B. pose proof (N.log2_le_pow2 w 64 ltac:(destruct w; [contradiction|reflexivity])) as [L _]. specialize (L G).
  rewrite <- (N2Nat.id (N.log2 w)) in B. rewrite H in B by lia. discriminate.
Qed.
Lemma not64_ok w : word_ok w -> word_ok (not64 w).
Proof. intros H j Hj. unfold not64. rewrite N.lxor_spec, H by auto. rewrite N.ones_spec_high by lia. auto. Qed.
Lemma mask_ok i : word_ok (bit_mask i).
Proof.
  intros j Hj. unfold bit_mask. change WORD with 64. pose proof (Nat.mod_upper_bound i 64 ltac:(discriminate)).
  rewrite N.shiftl_spec_high' by lia. apply (N.bits_above_log2 1). apply N.lt_le_trans with 1%N; [reflexivity|lia].
Qed.
Lemma zero_ok : word_ok 0.
Proof. intros j _. apply N.bits_0. Qed.
Lemma step_words b op b' o : bv_step b op = Some (b', o) -> Forall word_ok (bdata b) -> Forall word_ok (bdata b').
Proof.
  assert (U : forall l i w, Forall word_ok l -> word_ok w -> Forall word_ok (upd l i w)).
  { induction l as [|a l IH]; intros [|i] w Hl Hw; cbn; auto; inversion Hl; subst; constructor; auto. }
  assert (MP : forall w l, word_ok w -> Forall word_ok (map (fun _ : N => w) l)).
  { intros w l Hw. apply Forall_map. apply Forall_forall. intros; auto. }
  assert (NE : forall l i w, nth_error l i = Some w -> Forall word_ok l -> word_ok w).
  { intros l i w E F. rewrite Forall_forall in F. apply F. eapply nth_error_In; eauto. }
  destruct op; cbn [bv_step]; unfold bv_set, bv_unset, bv_unset_around, bv_get, bv_set_all, bv_clear; intros E F.
  - destruct (i <? bsize b); cbn in E; [|discriminate]. destruct (nth_error _ _) as [w|] eqn:N; cbn in E; [|discriminate]. injection E as <- <-. cbn [bdata].
    apply U; auto. intros j Hj. rewrite N.lor_spec, (NE _ _ _ N F), (mask_ok i) by auto. auto.
  - destruct (i <? bsize b); cbn in E; [|discriminate]. destruct (nth_error _ _) as [w|] eqn:N; cbn in E; [|discriminate]. injection E as <- <-. cbn [bdata].
    apply U; auto. intros j Hj. rewrite N.land_spec, (NE _ _ _ N F) by auto. auto.
  - destruct (i <? bsize b); cbn in E; [|discriminate]. unfold set_at in E. destruct (_ <? _); cbn in E; [|discriminate]. injection E as <- <-. cbn [bdata].
    apply U; auto. apply zero_ok.
  - injection E as <- <-. cbn [bdata]. apply MP. exact (not64_ok 0 zero_ok).
  - injection E as <- <-. cbn [bdata]. apply MP. apply zero_ok.
  - destruct (i <? bsize b); cbn in E; [|discriminate]. destruct (nth_error _ _) as [w|] eqn:N; cbn in E; [|discriminate]. injection E as <- <-. auto.
  - injection E as <- <-. auto.
  - injection E as <- <-. auto.
Qed.
Lemma final_words ops : forall b b', impl_final bv_step b ops = Some b' -> Forall word_ok (bdata b) -> Forall word_ok (bdata b').
Proof.
  induction ops as [|op ops IH]; intros b b' E F; cbn in E; [injection E as <-; auto|].
  destruct (bv_step b op) as [[b1 o]|] eqn:S; [|discriminate]. eapply IH; eauto. eapply step_words; eauto.
Qed.

Theorem C10_bit_vector_round_trip :
  forall n ops b f p, impl_final bv_step (bv_new n) ops = Some b ->
  exists b', load_bv (write_to f p (bv_bytes b)) p = Some (Some b') /\
    bsize b' = 64 * ((n + 63) / 64) /\ (forall i, i < n -> bv_get b' i = bv_get b i).
Proof.
  intros n ops b f p E.
  assert (W : Forall word_ok (bdata b)). { apply (final_words _ _ _ E). cbn. apply Forall_forall. intros w Hw. apply repeat_spec in Hw. subst w. apply zero_ok. }
  assert (SZ : forall ops b b', impl_final bv_step b ops = Some b' -> bsize b' = bsize b /\ List.length (bdata b') = List.length (bdata b)).
  { clear. induction ops as [|op ops IH]; intros b b' E; cbn in E; [injection E as <-; auto|].
    destruct (bv_step b op) as [[b1 o]|] eqn:S; [|discriminate]. apply IH in E. destruct E as [E1 E2]. rewrite E1, E2. clear - S.
    destruct op; cbn [bv_step] in S; unfold bv_set, bv_unset, bv_unset_around, bv_get, bv_set_all, bv_clear, set_at in S.
    - destruct (i <? bsize b); cbn in S; [|discriminate]. destruct (nth_error _ _); cbn in S; [|discriminate]. injection S as <- <-; cbn [bsize bdata]. rewrite upd_length; auto.
    - destruct (i <? bsize b); cbn in S; [|discriminate]. destruct (nth_error _ _); cbn in S; [|discriminate]. injection S as <- <-; cbn [bsize bdata]. rewrite upd_length; auto.
    - destruct (i <? bsize b); cbn [guard bind] in S; [|discriminate]. destruct (_ <? _); cbn in S; [|discriminate]. injection S as <- <-; cbn [bsize bdata]. rewrite upd_length; auto.
    - injection S as <- <-; cbn [bsize bdata]. rewrite map_length; auto.
    - injection S as <- <-; cbn [bsize bdata]. rewrite map_length; auto.
    - destruct (i <? bsize b); cbn in S; [|discriminate]. destruct (nth_error _ _); cbn in S; [|discriminate]. injection S as <- <-; auto.
    - injection S as <- <-; auto.
    - injection S as <- <-; auto. }
  destruct (SZ _ _ _ E) as [S L]. cbn [bv_new bsize bdata] in S, L. rewrite repeat_length in L. change WORD with 64 in L.
  exists (mkBv (bdata b) (64 * List.length (bdata b))). split.
  { apply load_bv_ok; [apply write_read|]. eapply Forall_impl; [|exact W]. intros w Hw. apply small_word; auto. }
  cbn [bsize bdata]. split. { rewrite L. replace (n + 64 - 1) with (n + 63) by lia. auto. }
  intros i Hi. unfold bv_get. cbn [bsize bdata]. rewrite (proj2 (Nat.ltb_lt i (bsize b))) by lia.
  rewrite (proj2 (Nat.ltb_lt i _)); auto. rewrite L. pose proof (Nat.div_mod (n + 64 - 1) 64 ltac:(discriminate)). pose proof (Nat.mod_upper_bound (n + 64 - 1) 64 ltac:(discriminate)). lia.
Qed.
Print Assumptions C10_bit_vector_round_trip.

(** The size of a bit vector is not stored: 70 bits come back as 128. *)
Theorem C10_bit_vector_size_refuted :
  exists n b b' f p, b = bv_new n /\ load_bv (write_to f p (bv_bytes b)) p = Some (Some b') /\ bsize b' <> bsize b.
Proof. exists 70, (bv_new 70), (bv_new 128), (fun _ => None), "x"%string. split; auto. split; [vm_compute; reflexivity|]. vm_compute. discriminate. Qed.
Print Assumptions C10_bit_vector_size_refuted.

(** Graphs: whatever the constructor accepts, with any weights. *)
Theorem C10_graph_round_trip :
  forall W (r : repr W), repr_ok r -> forall f dir fo hd wt g, fo_new fo hd wt = Some g ->
  (forall x, In x fo \/ In x hd -> (N.of_nat x < 2 ^ 32)%N) -> Forall (r_valid r) wt ->
  load_graph r (save_graph r f dir g) dir = Some (Some g).
Proof.
  intros W r R f dir fo hd wt g E V V'.
  assert (G : g = mkFo fo hd wt).
  { revert E. unfold fo_new. do 2 (destruct (_ <? _)%N; cbn [guard bind]; [|discriminate]).
    destruct (nth_error fo 0); cbn [bind]; [|discriminate]. destruct (_ =? 0); cbn [guard bind]; [|discriminate].
    destruct (nth_error fo _); cbn [bind]; [|discriminate]. do 2 (destruct (_ =? _); cbn [guard bind]; [|discriminate]). intros [= <-]. auto. }
  subst g. apply load_graph_ok; auto; cbn [first_out head weight]; auto; apply Forall_forall; intros x Hx; apply V; auto.
Qed.
Print Assumptions C10_graph_round_trip.

Theorem C10_node_order_round_trip :
  forall debug n order ranks f dir, node_order n order ranks -> (N.of_nat n < U32MAX)%N ->
  load_order debug (save_order f dir (mkOrder order ranks)) dir = Some (Some (mkOrder order ranks)).
Proof. intros. eapply order_roundtrip; eauto. unfold save_order. cbn [no_ranks]. apply write_read. Qed.
Print Assumptions C10_node_order_round_trip.

(** A CCH, if its order has been stored in the same directory. *)
Theorem C10_cch_round_trip :
  forall debug adj g order ranks c f dir, valid_adj adj -> fits_u32 adj -> from_adjacency_lists adj = Some g -> node_order (List.length adj) order ranks ->
  cch_contract g order ranks = Some c ->
  load_cch debug g (save_cch (save_order f dir (mkOrder order ranks)) dir c) dir = Some (Some c).
Proof. intros. eapply cch_roundtrip; eauto. unfold save_order. cbn [no_ranks]. apply write_read. Qed.
Print Assumptions C10_cch_round_trip.

(** A CCH stored alone cannot be loaded: its own store writes no order, the loader wants one. *)
Theorem C10_cch_alone_refuted :
  exists adj g order ranks c dir, valid_adj adj /\ fits_u32 adj /\ from_adjacency_lists adj = Some g /\ node_order (List.length adj) order ranks /\
  cch_contract g order ranks = Some c /\ forall debug, load_cch debug g (save_cch (fun _ => None) dir c) dir = Some None.
Proof.
  exists cx_adj. destruct (from_adjacency_lists cx_adj) as [g|] eqn:Eg; [|discriminate]. exists g, cx_order, cx_ranks.
  destruct (cch_contract g cx_order cx_ranks) as [c|] eqn:Ec.
  2: { assert (Q : (g <- from_adjacency_lists cx_adj ;; cch_contract g cx_order cx_ranks) <> None) by (vm_compute; discriminate). rewrite Eg in Q. cbn [bind] in Q. contradiction. }
  exists c, "dir"%string. split; [apply valid_check; vm_compute; reflexivity|]. split; [split; vm_compute; reflexivity|]. split; auto.
  split; [apply order_check; vm_compute; reflexivity|]. split; [reflexivity|]. intros debug. apply cch_alone.
Qed.
Print Assumptions C10_cch_alone_refuted.

Example C10_nonvacuous :
  (g <- from_adjacency_lists cx_adj ;; c <- cch_contract g cx_order cx_ranks ;;
   r <- load_cch true g (save_cch (save_order (fun _ => None) "d"%string (mkOrder cx_order cx_ranks)) "d"%string c) "d"%string ;;
   r' <- load_graph (uint_repr 4) (save_graph (uint_repr 4) (fun _ => None) "d"%string g) "d"%string ;;
   match r, r' with Some c', Some g' => Some (c_head c', weight g') | _, _ => None end) =
  (g <- from_adjacency_lists cx_adj ;; Some ([1; 2; 4; 2; 3; 4; 3; 4; 4], weight g)) /\
  (b <- impl_final bv_step (bv_new 100) [BSet 3; BSet 64; BSet 99] ;; r <- load_bv (write_to (fun _ => None) "b"%string (bv_bytes b)) "b"%string ;;
   match r with Some b' => Some (bsize b', bv_get b' 99, bv_get b' 98) | None => None end) = Some (128, Some true, Some false).
Proof. vm_compute. auto. Qed.

(** ** C43: options in sentinel encoding, for any payload type [T] with its equality and reserved value [s] *)
Theorem C43_sentinel_options :
  forall (T : Type) (eqb : T -> T -> bool) (s : T), (forall x y, eqb x y = true <-> x = y) ->
  (* none and every value but the reserved one come back *)
  iro_value eqb s (iro_none s) = None /\
  (forall o, o <> Some s -> exists x, iro_new eqb s o = Some x /\ iro_value eqb s x = o) /\
  (forall v, v <> s -> exists x, iro_some eqb s v = Some x /\ iro_value eqb s x = Some v /\ iro_assume eqb s x = Some v /\ x <> iro_none s) /\
  (* the reserved value is rejected, as is assuming a value where there is none *)
  iro_some eqb s s = None /\ iro_new eqb s (Some s) = None /\ iro_assume eqb s (iro_none s) = None.
Proof.
  intros T eqb s EQ. assert (R : eqb s s = true) by (apply EQ; auto).
  assert (NE : forall v, v <> s -> eqb v s = false). { intros v Hv. destruct (eqb v s) eqn:E; auto. apply EQ in E. contradiction. }
  unfold iro_assume, iro_value, iro_new, iro_some, iro_none. rewrite R. cbn [negb guard bind]. repeat split; auto.
  - intros [v|] Ho; [|exists s; rewrite R; auto]. exists v. rewrite NE by congruence. cbn. auto.
  - intros v Hv. exists v. rewrite NE by auto. cbn. auto.
Qed.
Print Assumptions C43_sentinel_options.

(** the payload types of the code base *)
Theorem C43_payload_types :
  (forall x y, N.eqb x y = true <-> x = y) /\ (forall x y, Z.eqb x y = true <-> x = y) /\
  (forall x y, pair_eqb x y = true <-> x = y) /\ (forall x y, triple_eqb x y = true <-> x = y).
Proof.
  assert (P : forall x y, pair_eqb x y = true <-> x = y).
  { intros [a b] [c d]. unfold pair_eqb. cbn. rewrite andb_true_iff, !N.eqb_eq. intuition congruence. }
  repeat split; try apply N.eqb_eq; try apply Z.eqb_eq; try apply P.
  - destruct x as [x z], y as [y w]. unfold triple_eqb. cbn [fst snd]. rewrite andb_true_iff, P, N.eqb_eq. intuition congruence.
  - intros ->. destruct y as [y w]. unfold triple_eqb. cbn [fst snd]. rewrite andb_true_iff, P, N.eqb_eq. auto.
Qed.
Print Assumptions C43_payload_types.

Example C43_nonvacuous :
  iro_new N.eqb sent_u32 (Some 7%N) = Some 7%N /\ iro_new N.eqb sent_u32 (Some 4294967295%N) = None /\
  iro_value pair_eqb sent_pair (sent_u32, 3%N) = Some (sent_u32, 3%N) /\ iro_value pair_eqb sent_pair sent_pair = None /\
  iro_value Z.eqb sent_i32 (-2147483648)%Z = None.
Proof. vm_compute. auto. Qed.
