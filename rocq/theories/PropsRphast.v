(** Statements about RPHAST (one to many queries in contraction hierarchies). *)
From Verif Require Import Base SpecGraph SpecCCH SpecCH BitVec Graph ExTab CCH CCHContractProof CCHBuildProof CCHMetricProof
  Dijkstra DijkstraRef CCHQuery CCHQueryProof CCHViewProof CHViewProof CCHPerfect PropsCCH PropsPerfect Rphast RphastProof.

(** Sanity of the specification: the customized graphs of a CCH, basic or perfect, are a hierarchy for the metric. *)
Theorem C32_customized_cch_is_a_hierarchy :
  forall adj g order ranks c madj k, valid_adj adj -> fits_u32 adj -> from_adjacency_lists adj = Some g -> node_order (length adj) order ranks ->
  cch_contract g order ranks = Some c -> any_metric_for adj c madj k ->
  hierarchy (length adj) (adj_arc madj) order ranks (link_iter (k_fw k)) (link_iter (k_bw k)).
Proof.
  intros. destruct (any_served adj g order ranks c madj k) as (A & un & hop & HW); auto. eapply view_hierarchy; eauto.
Qed.
Print Assumptions C32_customized_cch_is_a_hierarchy.

(** A hierarchy with its two graphs swapped is one for the reversed graph. *)
Theorem C32_swapped_hierarchy :
  forall n arc order ranks lf lb, hierarchy n arc order ranks lf lb -> hierarchy n (flip_arc arc) order ranks lb lf.
Proof.
  intros n arc order ranks lf lb [H1 H2 H3 H4 H5]. constructor; auto.
  - intros x y u v l Ex Ey (m & a & b & Wa & Wb & ->) Hl. apply walk_flip. apply (H4 y x); auto. exists m, b, a. split; auto. split; auto. lia.
  - intros x y u v l Ex Ey W Hl. apply walk_flip_iff in W. destruct (H5 y x v u l Ey Ex W Hl) as (l' & (m & a & b & Wa & Wb & ->) & L).
    exists (b + a)%N. split; [|lia]. exists m, b, a. auto.
Qed.
Print Assumptions C32_swapped_hierarchy.

(** the targets of the latest selection *)
Fixpoint last_selection (ops : list rp_op) (sel : list nat) : list nat :=
  match ops with [] => sel | RpSelect nodes :: ops => last_selection ops nodes | RpQuery _ :: ops => last_selection ops sel end.
Definition rp_op_ok (n : nat) (op : rp_op) : Prop :=
  match op with RpSelect nodes => forall t, In t nodes -> t < n | RpQuery node => node < n end.
(** a distance as reported: INFINITY if there is no path *)
Definition reported (x : N) : option N := if (x <? INF)%N then Some x else None.

Lemma rp_hist n ranks lf lb : upward n lf -> upward n lb -> few_arcs n lb -> (forall u, u < n -> exists x, nth_error ranks u = Some x /\ x < n) ->
  forall ops, Forall (rp_op_ok n) ops -> forall r q rows sel, SelOK n lb r rows -> Ready n (rq_dij q) -> length (rq_dist q) = n ->
  (forall t v, In t sel -> nth_error ranks t = Some v -> In v (rp_nodes r)) ->
  exists r' q' rows', foldM (rp_do n ranks lf lb) ops (r, q) = Some (r', q') /\ SelOK n lb r' rows' /\ Ready n (rq_dij q') /\ length (rq_dist q') = n /\
    forall t v, In t (last_selection ops sel) -> nth_error ranks t = Some v -> In v (rp_nodes r').
Proof.
  intros UF UB FEW RK ops Hops. induction Hops as [|op ops Hop Hops IH]; intros r q rows sel HS HR HL HI.
  - exists r, q, rows. cbn. auto 6.
  - cbn [foldM]. destruct op as [nodes|node]; cbn [rp_do last_selection fst snd].
    + destruct (rp_select_ok n lb UB FEW ranks r rows nodes HS) as (r1 & E1 & (rows1 & S1) & I1).
      { apply Forall_forall. intros t Ht. apply RK. apply Hop. exact Ht. }
      rewrite E1. cbn [bind]. apply (IH r1 q rows1 nodes); auto.
    + destruct (RK node Hop) as (s & Es & Hs). destruct (rp_query_ok n lf lb UF UB ranks r rows q node s HS HR HL Es Hs) as (q1 & E1 & R1 & L1 & _).
      rewrite E1. cbn [bind]. apply (IH r q1 rows sel); auto.
Qed.

Lemma order_rank n order ranks u : node_order n order ranks -> u < n -> exists x, nth_error ranks u = Some x /\ x < n /\ nth_error order x = Some u.
Proof.
  intros (L1 & L2 & O1 & O2) Hu. destruct (nth_error_lt ranks u) as (x & E). { lia. }
  exists x. split; auto. apply O2 in E. split; auto. apply nth_error_Some_lt in E. lia.
Qed.

(** Any history of selections and queries succeeds. After it a query succeeds for every source, and reports for every node of
    the latest selection exactly the distance from the source. *)
Theorem C32_rphast_distances_are_exact :
  forall n arc order ranks lf lb, hierarchy n arc order ranks lf lb -> few_arcs n lb ->
  forall ops, Forall (rp_op_ok n) ops ->
  exists r q, rp_history n ranks lf lb ops = Some (r, q) /\
  forall s, s < n -> exists q', rp_query n ranks lf r q s = Some q' /\
  forall t, In t (last_selection ops []) -> exists x, rp_distance ranks r q' t = Some x /\ (x <= INF)%N /\ exact_answer arc s t (reported x).
Proof.
  intros n arc order ranks lf lb H FEW ops Hops. pose proof (hi_order _ _ _ _ _ _ H) as HO.
  assert (RK : forall u, u < n -> exists x, nth_error ranks u = Some x /\ x < n). { intros u Hu. destruct (order_rank _ _ _ _ HO Hu) as (x & E & L & _). eauto. }
  pose proof (hi_fw _ _ _ _ _ _ H) as UF. pose proof (hi_bw _ _ _ _ _ _ H) as UB.
  destruct (rp_hist n ranks lf lb UF UB FEW RK ops Hops (rp_new n) (rq_new n) [] []) as (r & q & rows & E & HS & HR & HL & HI).
  { apply sel_new. } { apply new_Ready. } { apply repeat_length. } { intros t v []. }
  exists r, q. split; [exact E|]. intros s Hs. destruct (order_rank _ _ _ _ HO Hs) as (x & Ex & Hx & Ox).
  destruct (rp_query_ok n lf lb UF UB ranks r rows q s x HS HR HL Ex Hx) as (q' & E' & _ & _ & D). exists q'. split; auto.
  intros t Ht.
  assert (Hn : t < n).
  { assert (G : forall ops sel, Forall (rp_op_ok n) ops -> (forall t, In t sel -> t < n) -> forall t, In t (last_selection ops sel) -> t < n).
    { clear. intros ops sel Ho. revert sel. induction Ho as [|[nodes|node] ops Hop Ho IH]; intros sel Hsel t; cbn; eauto. }
    apply (G ops []); auto. intros ? []. }
  destruct (order_rank _ _ _ _ HO Hn) as (y & Ey & Hy & Oy). pose proof (HI t y Ht Ey) as Hin. apply In_nth_error in Hin as (i & Ei).
  destruct (D i y Ei) as (d & Ed & (B1 & B2 & B3)). exists d. split.
  { unfold rp_distance. rewrite Ey. cbn [bind]. rewrite (proj2 (so_ids _ _ _ _ HS y i Hy) Ei). cbn [bind]. exact Ed. }
  split; auto. unfold reported. destruct (N.ltb_spec d INF) as [Ld|Ld].
  - cbn. split; auto. split. { eapply (hi_sound _ _ _ _ _ _ H); eauto. }
    intros l W. destruct (N.lt_ge_cases l d) as [Ll|]; auto. destruct (hi_complete _ _ _ _ _ _ H x y s t l Ox Oy W) as (l' & M & L); [lia|]. apply B3 in M. lia.
  - cbn. intros l W. destruct (N.lt_ge_cases l INF) as [Ll|]; auto. destruct (hi_complete _ _ _ _ _ _ H x y s t l Ox Oy W) as (l' & M & L); [lia|]. apply B3 in M. lia.
Qed.
Print Assumptions C32_rphast_distances_are_exact.

(** The same with the two graphs swapped: distances from every selected node to one node. *)
Theorem C32_rphast_distances_to_one_node :
  forall n arc order ranks lf lb, hierarchy n arc order ranks lf lb -> few_arcs n lf ->
  forall ops, Forall (rp_op_ok n) ops ->
  exists r q, rp_history n ranks lb lf ops = Some (r, q) /\
  forall t, t < n -> exists q', rp_query n ranks lb r q t = Some q' /\
  forall s, In s (last_selection ops []) -> exists x, rp_distance ranks r q' s = Some x /\ (x <= INF)%N /\ exact_answer arc s t (reported x).
Proof.
  intros n arc order ranks lf lb H FEW ops Hops.
  destruct (C32_rphast_distances_are_exact n (flip_arc arc) order ranks lb lf (C32_swapped_hierarchy _ _ _ _ _ _ H) FEW ops Hops) as (r & q & E & K).
  exists r, q. split; auto. intros t Ht. destruct (K t Ht) as (q' & E' & K'). exists q'. split; auto. intros s Hs. destruct (K' s Hs) as (x & E1 & E2 & X). exists x. split; auto. split; auto.
  destruct (reported x) as [d|]; cbn in X |- *.
  - destruct X as (X1 & X2 & X3). split; auto. split. { apply walk_flip_iff; auto. } intros l W. apply X3. apply walk_flip; auto.
  - intros l W. apply X. apply walk_flip; auto.
Qed.
Print Assumptions C32_rphast_distances_to_one_node.

(** RPHAST on customized contraction hierarchies *)
Theorem C32_rphast_on_cch_is_exact :
  forall adj g order ranks c madj k, valid_adj adj -> fits_u32 adj -> from_adjacency_lists adj = Some g -> node_order (length adj) order ranks ->
  cch_contract g order ranks = Some c -> any_metric_for adj c madj k -> few_arcs (length adj) (link_iter (k_bw k)) ->
  forall ops, Forall (rp_op_ok (length adj)) ops ->
  exists r q, rp_history (length adj) ranks (link_iter (k_fw k)) (link_iter (k_bw k)) ops = Some (r, q) /\
  forall s, s < length adj -> exists q', rp_query (length adj) ranks (link_iter (k_fw k)) r q s = Some q' /\
  forall t, In t (last_selection ops []) -> exists x, rp_distance ranks r q' t = Some x /\ (x <= INF)%N /\ exact_answer (adj_arc madj) s t (reported x).
Proof.
  intros adj g order ranks c madj k HV HF Hg HO E Hm FEW. eapply C32_rphast_distances_are_exact; eauto.
  eapply C32_customized_cch_is_a_hierarchy; eauto.
Qed.
Print Assumptions C32_rphast_on_cch_is_exact.

(** selections that overlap, repeat nodes, and are replaced; unreachable targets *)
Definition rp_lf (u : nat) : option (list (nat * N)) := nth_error [[(2, 1%N)]; [(2, 4%N)]; []] u.
Definition rp_lb (u : nat) : option (list (nat * N)) := nth_error [[]; [(2, 7%N)]; []] u.
Example C32_nonvacuous :
  few_arcs 3 rp_lb /\
  ('(r, q) <- rp_history 3 [0; 1; 2] rp_lf rp_lb [RpSelect [2; 1; 0]] ;; q' <- rp_query 3 [0; 1; 2] rp_lf r q 1 ;; d <- mapM (rp_distance [0; 1; 2] r q') [0; 1; 2] ;; Some d) = Some [INF; 0; 4]%N /\
  (g <- from_adjacency_lists cx_adj ;; c <- cch_contract g cx_order cx_ranks ;; mg <- from_adjacency_lists cx_madj ;; k <- customize c mg ;;
   '(r, q) <- rp_history 5 cx_ranks (link_iter (k_fw k)) (link_iter (k_bw k)) [RpQuery 3; RpSelect [0; 4; 0]; RpQuery 1; RpQuery 2; RpSelect [4; 2; 1; 4]; RpQuery 0] ;;
   q' <- rp_query 5 cx_ranks (link_iter (k_fw k)) r q 2 ;;
   d <- mapM (rp_distance cx_ranks r q') [4; 2; 1] ;;
   '(_, a) <- cs_distance (cs_new k) 2 4 ;; '(_, b) <- cs_distance (cs_new k) 2 1 ;;
   Some (list_sum (map (out_degree (link_iter (k_bw k))) (seq 0 5)), length (rp_nodes r), d, a, b)) = Some (9, 3, [1; 0; 5]%N, Some 1%N, Some 5%N).
Proof. split; [split; reflexivity|split; vm_compute; reflexivity]. Qed.
