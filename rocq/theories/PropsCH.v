(** Statements about contraction hierarchies and their queries. *)
From Verif Require Import Base SpecGraph SpecCCH SpecCH Graph ExTab IndexHeap TsVec Dijkstra DijkstraRef DijServer DijServerProof CCH CCHContractProof CCHBuildProof CCHMetricProof
  PropsCCH PropsPerfect RphastProof PropsRphast PropsHL CH CHProof.

(** every query of the list is a pair of nodes of the graph *)
Definition ch_queries (n : nat) (qs : list (nat * nat)) : Prop := Forall (fun q => fst q < n /\ snd q < n) qs.

Theorem C31_ch_distances_are_exact :
  forall n arc order ranks lf lb, hierarchy n arc order ranks lf lb ->
  forall qs, ch_queries n qs -> exists sv, ch_history n ranks lf lb (hs_new n) qs = Some sv /\
  forall s t, s < n -> t < n -> exists sv' r, ch_distance n ranks lf lb sv s t = Some (sv', r) /\ exact_answer arc s t r.
Proof.
  intros n arc order ranks lf lb H qs Hqs. pose proof (hi_order _ _ _ _ _ _ H) as HO.
  pose proof (up_wf n lf (hi_fw _ _ _ _ _ _ H)) as WF. pose proof (up_wf n lb (hi_bw _ _ _ _ _ _ H)) as WB.
  destruct (ch_history_ok n lf lb WF WB ranks qs (hs_new n)) as (sv & E & R1 & R2). { apply new_Ready. } { apply new_Ready. }
  { intros s t Hin. unfold ch_queries in Hqs. rewrite Forall_forall in Hqs. destruct (Hqs (s, t) Hin) as [Hs Ht]. cbn in Hs, Ht.
    destruct (order_rank _ _ _ _ HO Hs) as (x & Ex & Hx & _), (order_rank _ _ _ _ HO Ht) as (y & Ey & Hy & _). split; eauto. }
  exists sv. split; auto. intros s t Hs Ht. destruct (order_rank _ _ _ _ HO Hs) as (x & Ex & Hx & Ox), (order_rank _ _ _ _ HO Ht) as (y & Ey & Hy & Oy).
  destruct (ch_distance_ok n lf lb WF WB ranks sv s t x y R1 R2 Ex Ey Hx Hy) as (sv' & d & E' & (B1 & B2 & B3) & _). exists sv'. eexists. split; [exact E'|].
  destruct (N.eqb_spec d INF) as [Ed|Ne]; cbn; [rewrite Ed in *|].
  - intros l W. destruct (N.lt_ge_cases l INF) as [Ll|]; auto. destruct (hi_complete _ _ _ _ _ _ H x y s t l Ox Oy W Ll) as (l' & M & L). apply B3 in M. lia.
  - assert (Ld : (d < INF)%N) by lia. split; auto. split. { eapply (hi_sound _ _ _ _ _ _ H); eauto. }
    intros l W. destruct (N.lt_ge_cases l d) as [Ll|]; auto. destruct (hi_complete _ _ _ _ _ _ H x y s t l Ox Oy W) as (l' & M & L); [lia|]. apply B3 in M. lia.
Qed.
Print Assumptions C31_ch_distances_are_exact.

(** The meeting node left behind by a query lies on a shortest path. *)
Theorem C31_meeting_node_lies_on_a_shortest_path :
  forall n arc order ranks lf lb, hierarchy n arc order ranks lf lb ->
  forall qs sv, ch_queries n qs -> ch_history n ranks lf lb (hs_new n) qs = Some sv ->
  forall s t sv' d, s < n -> t < n -> ch_distance n ranks lf lb sv s t = Some (sv', Some d) ->
  exists m a b, nth_error order (hs_meet sv') = Some m /\ walk arc s m a /\ walk arc m t b /\ d = (a + b)%N.
Proof.
  intros n arc order ranks lf lb H qs sv Hqs E s t sv' d Hs Ht Ed. pose proof (hi_order _ _ _ _ _ _ H) as HO.
  pose proof (up_wf n lf (hi_fw _ _ _ _ _ _ H)) as WF. pose proof (up_wf n lb (hi_bw _ _ _ _ _ _ H)) as WB.
  destruct (ch_history_ok n lf lb WF WB ranks qs (hs_new n)) as (sv1 & E1 & R1 & R2). { apply new_Ready. } { apply new_Ready. }
  { intros s1 t1 Hin. unfold ch_queries in Hqs. rewrite Forall_forall in Hqs. destruct (Hqs (s1, t1) Hin) as [Hs1 Ht1]. cbn in Hs1, Ht1.
    destruct (order_rank _ _ _ _ HO Hs1) as (x & Ex & Hx & _), (order_rank _ _ _ _ HO Ht1) as (y & Ey & Hy & _). split; eauto. }
  rewrite E in E1. injection E1 as <-. destruct (order_rank _ _ _ _ HO Hs) as (x & Ex & Hx & Ox), (order_rank _ _ _ _ HO Ht) as (y & Ey & Hy & Oy).
  destruct (ch_distance_ok n lf lb WF WB ranks sv s t x y R1 R2 Ex Ey Hx Hy) as (sv2 & d' & E' & (B1 & _) & B2 & _). rewrite Ed in E'. injection E' as <- Ed'.
  destruct (N.eqb_spec d' INF) as [Ed2|Ne]; [discriminate|]. injection Ed' as Ed2. rewrite Ed2 in *. destruct (B2 ltac:(lia)) as (a & b & Wa & Wb & Eab). set (m := hs_meet sv') in *.
  assert (Hm : m < n) by exact (walk_lt n lf WF x m a Hx Wa). destruct HO as (O1 & _). destruct (nth_error_lt order m) as (t' & Et); [lia|]. exists t', a, b. split; auto.
  split. { apply (hi_sound _ _ _ _ _ _ H x m); auto; [|lia]. exists m, a, 0%N. split; auto. split; [constructor|lia]. }
  split; auto. apply (hi_sound _ _ _ _ _ _ H m y); auto; [|lia]. exists m, 0%N, b. split; [constructor|auto].
Qed.
Print Assumptions C31_meeting_node_lies_on_a_shortest_path.

(** The server on the graphs of a customized CCH (ContractionHierarchy::from_contracted_graph) *)
Theorem C31_ch_on_cch_is_exact :
  forall adj g order ranks c madj k, valid_adj adj -> fits_u32 adj -> from_adjacency_lists adj = Some g -> node_order (length adj) order ranks ->
  cch_contract g order ranks = Some c -> any_metric_for adj c madj k ->
  forall qs, ch_queries (length adj) qs -> exists sv, ch_history (length adj) ranks (link_iter (k_fw k)) (link_iter (k_bw k)) (hs_new (length adj)) qs = Some sv /\
  forall s t, s < length adj -> t < length adj -> exists sv' r, ch_distance (length adj) ranks (link_iter (k_fw k)) (link_iter (k_bw k)) sv s t = Some (sv', r) /\ exact_answer (adj_arc madj) s t r.
Proof. intros adj g order ranks c madj k HV HF Hg HO E Hm. eapply C31_ch_distances_are_exact. eapply C32_customized_cch_is_a_hierarchy; eauto. Qed.
Print Assumptions C31_ch_on_cch_is_exact.

(** The path half of the claim is false: path() panics for every query between two different nodes, whatever the hierarchy,
    its middle nodes and the state of the server. The arc it looks up leads from a node to itself. *)
Theorem C31_path_between_different_nodes_panics :
  forall fuel n order ff fb lf lb mids sv s t, (forall u ls w, lf u = Some ls -> ~ In (u, w) ls) -> (forall u ls w, lb u = Some ls -> ~ In (u, w) ls) ->
  s <> t -> ch_path fuel n order ff fb lf lb mids sv s t = None.
Proof.
  intros fuel n order ff fb lf lb mids sv s t HF HB Ne. unfold ch_path. destruct mids as [[fm bm]|]; auto. cbn [bind].
  destruct (ch_walk_back fuel n ff lf fm (d_pred (hs_fw sv)) (hs_meet sv) s) as [fp|] eqn:E1; auto. cbn [bind].
  destruct (ch_walk_back fuel n fb lb bm (d_pred (hs_bw sv)) (hs_meet sv) t) as [bp|] eqn:E2; auto.
  apply walk_back_ok in E1; auto. apply walk_back_ok in E2; auto. destruct E1, E2. congruence.
Qed.
Print Assumptions C31_path_between_different_nodes_panics.

(** A hierarchy for the graph 0 -1-> 2, 1 -4-> 2, 2 -7-> 1: the distance from 0 to 1 is right, the path is not available.
    With an order in which rank and id of node 0 differ not even the path from 0 to 0 is, since ids are compared with ranks. *)
Theorem C31_paths_refuted :
  exists n arc order ranks lf lb, hierarchy n arc order ranks lf lb /\
  exists s t sv d, s <> t /\ ch_distance n ranks lf lb (hs_new n) s t = Some (sv, Some d) /\ is_dist arc s t d /\
  (forall fuel ff fb mids, ch_path fuel n order ff fb lf lb mids sv s t = None) /\
  exists order2 ranks2 sv2, node_order n order2 ranks2 /\ ch_distance n ranks2 lf lb (hs_new n) s s = Some (sv2, Some 0%N) /\
    forall fuel ff fb mids, ch_path fuel n order2 ff fb lf lb mids sv2 s s = None.
Proof.
  exists 3, (adj_arc hl_adj), [0; 1; 2], [0; 1; 2], rp_lf, rp_lb. split; [apply hl_ex|].
  assert (LF : forall u ls w, rp_lf u = Some ls -> ~ In (u, w) ls). { intros u ls w E Hin. unfold rp_lf in E. destruct u as [|[|[|u]]]; cbn in E; try (injection E as <-; destruct Hin as [[=]|[]]); try (injection E as <-; destruct Hin). destruct u; discriminate. }
  assert (LB : forall u ls w, rp_lb u = Some ls -> ~ In (u, w) ls). { intros u ls w E Hin. unfold rp_lb in E. destruct u as [|[|[|u]]]; cbn in E; try (injection E as <-; destruct Hin as [[=]|[]]); try (injection E as <-; destruct Hin). destruct u; discriminate. }
  destruct (ch_distance 3 [0; 1; 2] rp_lf rp_lb (hs_new 3) 0 1) as [[sv r]|] eqn:E; [|vm_compute in E; discriminate].
  destruct (ch_distance 3 [1; 2; 0] rp_lf rp_lb (hs_new 3) 0 0) as [[sv2 r2]|] eqn:E2; [|vm_compute in E2; discriminate].
  assert (r = Some 8%N) by (vm_compute in E; injection E; auto). assert (r2 = Some 0%N) by (vm_compute in E2; injection E2; auto). subst r r2.
  exists 0, 1, sv, 8%N. split; auto. split; auto. split.
  { destruct (C31_ch_distances_are_exact 3 _ _ _ _ _ hl_ex []) as (sv1 & E1 & X); [constructor|]. cbn in E1. injection E1 as <-. destruct (X 0 1) as (sv' & r & E3 & Y); [lia..|]. rewrite E in E3. injection E3 as <- <-. apply Y. }
  split. { intros. apply C31_path_between_different_nodes_panics; auto. }
  exists [2; 0; 1], [1; 2; 0], sv2. split.
  { split; auto. split; auto. split; intros a b H; (do 3 (destruct a as [|a]; [cbn in H; injection H as <-; reflexivity|])); destruct a; discriminate. }
  split; auto. intros fuel ff fb mids. unfold ch_path. destruct mids as [[fm bm]|]; auto. cbn [bind].
  destruct (ch_walk_back fuel 3 ff rp_lf fm (d_pred (hs_fw sv2)) (hs_meet sv2) 0) as [fp|] eqn:E1; auto. exfalso. apply walk_back_ok in E1 as [E1 _]; auto. vm_compute in E2. injection E2 as <-. discriminate.
Qed.
Print Assumptions C31_paths_refuted.

(** non-vacuity: queries on the hierarchy of [hl_ex] and on a customized CCH *)
Example C31_nonvacuous :
  hierarchy 3 (adj_arc hl_adj) [0; 1; 2] [0; 1; 2] rp_lf rp_lb /\
  (sv <- ch_history 3 [0; 1; 2] rp_lf rp_lb (hs_new 3) [(1, 0); (2, 2)] ;; mapM (fun q => '(sv', r) <- ch_distance 3 [0; 1; 2] rp_lf rp_lb sv (fst q) (snd q) ;; Some (r, hs_meet sv')) [(0, 1); (0, 2); (2, 1); (1, 0)])
  = Some [(Some 8%N, 2); (Some 1%N, 2); (Some 7%N, 2); (None, 2)] /\
  (g <- from_adjacency_lists cx_adj ;; c <- cch_contract g cx_order cx_ranks ;; mg <- from_adjacency_lists cx_madj ;; k <- customize c mg ;;
   sv <- ch_history 5 cx_ranks (link_iter (k_fw k)) (link_iter (k_bw k)) (hs_new 5) [(0, 4)] ;;
   mapM (fun q => '(_, r) <- ch_distance 5 cx_ranks (link_iter (k_fw k)) (link_iter (k_bw k)) sv (fst q) (snd q) ;; Some r) [(2, 4); (2, 1); (0, 0)]) = Some [Some 1; Some 5; Some 0]%N.
Proof. split; [apply hl_ex|]. split; vm_compute; reflexivity. Qed.
