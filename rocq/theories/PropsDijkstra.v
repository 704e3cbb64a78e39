(** Properties C16 - C20, C22, C46 - C48: Dijkstra and A* searches.
    A graph is given by its link iterator [links] over nodes 0..n-1. [plain_hist .. ops = Some sv]: [sv] is a server
    after any sequence [ops] of earlier queries (point-to-point, one-to-all, ranks), started from a fresh one. *)
From Verif Require Import Base SpecGraph SpecBits BitVec Graph GraphSpecProof TsVec Dijkstra DijServer DijServerProof DijHistProof PropsGraph.

(** C16 *)
Theorem C16_dijkstra_returns_exact_distance :
  forall n links ops sv s t, wf_links n links -> Forall (op_ok n any_target) ops -> plain_hist n links (plain_new n) ops = Some sv -> s < n ->
  exists sv' r, plain_dist n links sv s t 0 = Some (sv', r) /\ exact_answer (garc links) s t r.
Proof. intros n links ops sv s t WF Ho E Hs. destruct (plain_query n links WF ops sv s t Ho E Hs) as (sv' & r & E1 & X & _). eauto. Qed.
Print Assumptions C16_dijkstra_returns_exact_distance.
(** no earlier query fails either *)
Theorem C16_histories_never_fail :
  forall n links ops, wf_links n links -> Forall (op_ok n any_target) ops -> exists sv, plain_hist n links (plain_new n) ops = Some sv.
Proof. intros n links ops WF. apply plain_history. auto. Qed.
Print Assumptions C16_histories_never_fail.
(** the same on an adjacency array built from adjacency lists *)
Theorem C16_dijkstra_on_adjacency_array :
  forall adj g s t, valid_adj adj -> fits_u32 adj -> (forall l v w, In l adj -> In (v, w) l -> (w <= INF)%N) -> from_adjacency_lists adj = Some g -> s < length adj ->
  exists sv' r, plain_dist (num_nodes g) (link_iter g) (plain_new (num_nodes g)) s t 0 = Some (sv', r) /\ exact_answer (adj_arc adj) s t r.
Proof.
  intros adj g s t HV HF HW Eg Hs. destruct (adj_wf_links adj g HV HF HW Eg) as [WF HA].
  assert (Hn : num_nodes g = length adj). { destruct (adj_graph adj HV HF) as (h & E & _ & Nn & _). rewrite Eg in E. injection E as <-. auto. } rewrite Hn.
  destruct (C16_dijkstra_returns_exact_distance (length adj) (link_iter g) [] (plain_new (length adj)) s t WF (Forall_nil _) eq_refl Hs) as (sv' & r & E & X).
  exists sv', r. split; auto.
  assert (W : forall a b l, walk (garc (link_iter g)) a b l <-> walk (adj_arc adj) a b l) by (intros; split; apply walk_mono; intros; apply HA; auto).
  destruct r as [x|]; cbn in *.
  - destruct X as (X1 & X2 & X3). split; auto. split. { apply W; auto. } intros l Hl. apply X3, W; auto.
  - intros l Hl. apply X, W; auto.
Qed.
Print Assumptions C16_dijkstra_on_adjacency_array.
(** 0 -> 1 -> 2 with a zero weight, a cheaper detour, parallel arcs, a loop, an INFINITY arc and an unreachable node *)
Definition ex_links (u : nat) : option (list (nat * N)) :=
  nth_error [[(1, 7%N); (2, 1%N); (1, 6%N); (0, 0%N)]; [(3, 2%N); (5, INF)]; [(1, 3%N); (4, 0%N)]; []; [(2, 0%N); (3, 9%N)]; []] u.
Example C16_nonvacuous : wf_links 6 ex_links /\
  (sv <- plain_hist 6 ex_links (plain_new 6) [SvQuery 1 3; SvAll 0; SvRanks 2] ;;
   '(sv1, a) <- plain_dist 6 ex_links sv 0 3 0 ;; '(sv2, b) <- plain_dist 6 ex_links sv1 1 5 0 ;; '(_, c) <- plain_dist 6 ex_links sv2 3 0 0 ;; Some (a, b, c))
  = Some (Some 6%N, None, None).
Proof.
  split.
  - intros u Hu. do 6 (destruct u as [|u]; [eexists; split; [reflexivity|]; intros v w H; cbn in H; repeat (destruct H as [H|H]; [injection H as <- <-; unfold INF; lia|]); destruct H|]). lia.
  - vm_compute. reflexivity.
Qed.

(** C17 *)
Theorem C17_node_path_is_a_shortest_path :
  forall n links ops sv s t sv' x, wf_links n links -> Forall (op_ok n any_target) ops -> plain_hist n links (plain_new n) ops = Some sv -> s < n ->
  plain_dist n links sv s t 0 = Some (sv', Some x) ->
  exists p, sv_node_path sv' s t = Some p /\ npath (garc links) s p t x /\ NoDup p.
Proof.
  intros n links ops sv s t sv' x WF Ho E Hs Ed. destruct (plain_query n links WF ops sv s t Ho E Hs) as (sv1 & r & E1 & _ & X).
  rewrite Ed in E1. injection E1 as <- <-. auto.
Qed.
Print Assumptions C17_node_path_is_a_shortest_path.
(** with DefaultOpsWithLinkPath: node and edge path *)
Theorem C17_edge_path_is_a_shortest_path :
  forall n links ops sv s t, wf_links_ids n links -> Forall (op_ok n any_target) ops ->
  sv_history n links lp_hd lp_lk lp_pl zero_init zero_pot (sv_new n n tt) ops = Some sv -> s < n ->
  exists sv' r, sv_distance n links lp_hd lp_lk lp_pl zero_init zero_pot sv s t 0 = Some (sv', r) /\
    exact_answer (fun u v w => exists e, garc_ids links u e v w) s t r /\
    forall x, r = Some x -> exists p q, sv_node_path sv' s t = Some p /\ sv_edge_path sv' s t = Some q /\ epath (garc_ids links) s p q t x /\ NoDup p.
Proof. exact ids_query. Qed.
Print Assumptions C17_edge_path_is_a_shortest_path.
(** ... whose ids are those of the adjacency array *)
Theorem C17_link_iter_reports_edge_ids :
  forall adj g, valid_adj adj -> fits_u32 adj -> (forall l v w, In l adj -> In (v, w) l -> (w <= INF)%N) -> from_adjacency_lists adj = Some g ->
  wf_links_ids (length adj) (link_iter_ids g) /\ forall u e v w, garc_ids (link_iter_ids g) u e v w <-> adj_edge adj u e v w.
Proof. exact adj_ids. Qed.
Print Assumptions C17_link_iter_reports_edge_ids.
Example C17_nonvacuous :
  (sv <- plain_hist 6 ex_links (plain_new 6) [SvQuery 1 3; SvAll 0] ;; '(sv1, a) <- plain_dist 6 ex_links sv 0 3 0 ;; p <- sv_node_path sv1 0 3 ;; Some (a, p))
    = Some (Some 6%N, [0; 2; 1; 3]) /\
  (g <- from_adjacency_lists ex_adj ;;
   '(sv, a) <- sv_distance 4 (link_iter_ids g) lp_hd lp_lk lp_pl zero_init zero_pot (sv_new 4 4 tt) 3 1 0 ;;
   p <- sv_node_path sv 3 1 ;; q <- sv_edge_path sv 3 1 ;; Some (a, p, q)) = Some (Some 4%N, [3; 2; 1], [5; 3]).
Proof. split; vm_compute; reflexivity. Qed.

(** C18: two servers on the same graph with arbitrary different pasts *)
Theorem C18_answers_do_not_depend_on_earlier_queries :
  forall n links ops1 ops2 sv1 sv2 s t, wf_links n links -> Forall (op_ok n any_target) ops1 -> Forall (op_ok n any_target) ops2 ->
  plain_hist n links (plain_new n) ops1 = Some sv1 -> plain_hist n links (plain_new n) ops2 = Some sv2 -> s < n ->
  exists sv1' sv2' r, plain_dist n links sv1 s t 0 = Some (sv1', r) /\ plain_dist n links sv2 s t 0 = Some (sv2', r) /\
    (r <> None -> sv_node_path sv1' s t = sv_node_path sv2' s t).
Proof. intros n links ops1 ops2 sv1 sv2 s t WF. apply plain_det. auto. Qed.
Print Assumptions C18_answers_do_not_depend_on_earlier_queries.
Example C18_nonvacuous :
  (sv1 <- plain_hist 6 ex_links (plain_new 6) [SvQuery 0 3; SvAll 2; SvRanks 0; SvQuery 0 5] ;; '(sv1, a) <- plain_dist 6 ex_links sv1 0 1 0 ;; p <- sv_node_path sv1 0 1 ;;
   '(sv2, b) <- plain_dist 6 ex_links (plain_new 6) 0 1 0 ;; q <- sv_node_path sv2 0 1 ;; Some (a, p, b, q))
  = Some (Some 4%N, [0; 2; 1], Some 4%N, [0; 2; 1]).
Proof. vm_compute. reflexivity. Qed.

(** C20. [h t v]: value reported for [v] after init([t]). *)
Theorem C20_astar_with_lower_bounds_is_exact :
  forall (E : Type) n links (pinit : E -> nat -> option E) pget T EI ET h e ops sv s t,
  wf_links n links -> pot_contract n T pinit pget EI ET h -> (forall t, T t -> small_pot (h t) /\ admissible_pot (garc links) t (h t)) ->
  EI e -> Forall (op_ok n T) ops -> sv_history n links fst def_lk def_pl pinit pget (sv_new n tt e) ops = Some sv -> s < n -> T t ->
  exists sv' r, sv_distance n links fst def_lk def_pl pinit pget sv s t 0 = Some (sv', r) /\ exact_answer (garc links) s t r /\
    forall x, r = Some x -> exists p, sv_node_path sv' s t = Some p /\ npath (garc links) s p t x /\ NoDup p.
Proof.
  intros E n links pinit pget T EI ET h e ops sv s t WF HP HT He Ho Eh Hs Ht.
  apply (pot_query n links pinit pget T EI ET h WF HP) with (e := e) (ops := ops); auto.
  - intros t' v p Ht'. apply (HT t' Ht').
  - intros t' Ht'. apply (HT t' Ht').
Qed.
Print Assumptions C20_astar_with_lower_bounds_is_exact.
Theorem C20_astar_with_feasible_potential_is_exact :
  forall (E : Type) n links (pinit : E -> nat -> option E) pget T EI ET h e ops sv s t,
  wf_links n links -> pot_contract n T pinit pget EI ET h -> (forall t, T t -> small_pot (h t) /\ feasible_pot (garc links) t (h t)) ->
  EI e -> Forall (op_ok n T) ops -> sv_history n links fst def_lk def_pl pinit pget (sv_new n tt e) ops = Some sv -> s < n -> T t ->
  exists sv' r, sv_distance n links fst def_lk def_pl pinit pget sv s t 0 = Some (sv', r) /\ exact_answer (garc links) s t r /\
    forall x, r = Some x -> exists p, sv_node_path sv' s t = Some p /\ npath (garc links) s p t x /\ NoDup p.
Proof.
  intros E n links pinit pget T EI ET h e ops sv s t WF HP HT. apply C20_astar_with_lower_bounds_is_exact with (ET := ET) (h := h) (T := T); auto.
  intros t' Ht'. destruct (HT t' Ht'). split; auto. apply feasible_admissible; auto.
Qed.
Print Assumptions C20_astar_with_feasible_potential_is_exact.
(** A* with the potential computed by a full backward search, recycled between queries to the same target *)
Theorem C20_astar_with_recycled_baseline_potential_is_exact :
  forall n links rlinks ops sv s t, wf_links n links -> wf_links n rlinks -> (forall u v w, garc rlinks v u w <-> garc links u v w) ->
  (forall u, n <= u -> links u = None) ->
  Forall (op_ok n (fun t => t < n)) ops ->
  sv_history n links fst def_lk def_pl (rec_init (base_init n rlinks)) (rec_get base_get) (sv_new n tt (rec_new (dij_new n tt))) ops = Some sv -> s < n -> t < n ->
  exists sv' r, sv_distance n links fst def_lk def_pl (rec_init (base_init n rlinks)) (rec_get base_get) sv s t 0 = Some (sv', r) /\ exact_answer (garc links) s t r.
Proof.
  intros n links rlinks ops sv s t WF WR HR HO Ho Eh Hs Ht.
  edestruct (C20_astar_with_lower_bounds_is_exact _ n links _ _ _ _ _ _ (rec_new (dij_new n tt)) ops sv s t WF (rec_contract _ _ _ _ _ _ _ (base_contract n rlinks WR))) as (sv' & r & E1 & X & _); eauto.
  - intros t' Ht'. split. { intros v p. apply base_bound. } apply base_feasible; auto. intros u v w (l & El & Hl).
    assert (Hu : u < n). { destruct (Nat.lt_ge_cases u n) as [|C]; auto. rewrite HO in El; [discriminate|auto]. } split; auto.
    destruct (WF u Hu) as (l' & El' & X). assert (l = l') by congruence. subst. apply (X v w Hl).
  - cbn. apply DijkstraRef.new_Ready.
Qed.
Print Assumptions C20_astar_with_recycled_baseline_potential_is_exact.
(** A* on the turn expanded graph with a potential of the original graph *)
Theorem C20_astar_with_turn_expanded_potential_is_exact :
  forall (E : Type) n arc (tail : list nat) llinks (pinit : E -> nat -> option E) pget T EI ET h e ops sv s t,
  wf_links (length tail) llinks -> (forall e u, nth_error tail e = Some u -> u < n) ->
  (forall e e' c, garc llinks e e' c -> exists w, arc (nth e tail 0) (nth e' tail 0) w /\ (w <= c)%N) ->
  pot_contract n T pinit pget EI ET h -> (forall t, T t -> small_pot (h t) /\ admissible_pot arc t (h t)) ->
  EI e -> Forall (op_ok (length tail) (fun t => exists u, nth_error tail t = Some u /\ T u)) ops ->
  sv_history (length tail) llinks fst def_lk def_pl (te_init pinit tail) (te_get pget tail) (sv_new (length tail) tt e) ops = Some sv ->
  s < length tail -> (exists u, nth_error tail t = Some u /\ T u) ->
  exists sv' r, sv_distance (length tail) llinks fst def_lk def_pl (te_init pinit tail) (te_get pget tail) sv s t 0 = Some (sv', r) /\ exact_answer (garc llinks) s t r.
Proof.
  intros E n arc tail llinks pinit pget T EI ET h e ops sv s t WF HT HL HP HA He Ho Eh Hs Ht.
  edestruct (C20_astar_with_lower_bounds_is_exact E (length tail) llinks (te_init pinit tail) (te_get pget tail) _ _ _ _ e ops sv s t WF (te_contract n T pinit pget EI ET h tail HP HT)) as (sv' & r & E1 & X & _); eauto.
  intros t' (u & Hu & Tu). cbn beta. rewrite (nth_error_nth _ _ 0 Hu). destruct (HA u Tu) as [A1 A2]. split.
  - intros v p. apply A1.
  - apply (te_admissible arc (garc llinks) (h u) tail t'); auto. rewrite (nth_error_nth _ _ 0 Hu). auto.
Qed.
Print Assumptions C20_astar_with_turn_expanded_potential_is_exact.
Definition ex_rlinks (u : nat) : option (list (nat * N)) :=
  nth_error [[(0, 0%N)]; [(0, 7%N); (0, 6%N); (2, 3%N)]; [(0, 1%N); (4, 0%N)]; [(1, 2%N); (4, 9%N)]; [(2, 0%N)]; [(1, INF)]] u.
Example C20_nonvacuous :
  (forall u v w, garc ex_rlinks v u w <-> garc ex_links u v w) /\
  (sv <- sv_history 6 ex_links fst def_lk def_pl (rec_init (base_init 6 ex_rlinks)) (rec_get base_get) (sv_new 6 tt (rec_new (dij_new 6 tt))) [SvQuery 1 3; SvRanks 0] ;;
   '(sv1, a) <- sv_distance 6 ex_links fst def_lk def_pl (rec_init (base_init 6 ex_rlinks)) (rec_get base_get) sv 0 3 0 ;;
   '(_, b) <- sv_distance 6 ex_links fst def_lk def_pl (rec_init (base_init 6 ex_rlinks)) (rec_get base_get) sv1 0 5 0 ;; Some (a, b)) = Some (Some 6%N, None).
Proof.
  split; [|vm_compute; reflexivity].
  intros u v w. unfold garc, ex_links, ex_rlinks. split.
  - intros (l & E & H). do 6 (destruct v as [|v]; [injection E as <-; cbn in H; repeat (destruct H as [H|H]; [injection H as <- <-; eexists; split; [reflexivity|cbn; tauto]|]); destruct H|]). destruct v; discriminate.
  - intros (l & E & H). do 6 (destruct u as [|u]; [injection E as <-; cbn in H; repeat (destruct H as [H|H]; [injection H as <- <-; eexists; split; [reflexivity|cbn; tauto]|]); destruct H|]). destruct u; discriminate.
Qed.

(** C22. [nn_selected ops] = targets of the last select_targets *)
Theorem C22_nearest_neighbours_for_positive_k_partial :
  forall n links ops, wf_links n links -> Forall (nn_op_ok n) ops ->
  exists x, nn_history n links ops = Some x /\ forall s k, s < n -> 1 <= k ->
    exists x' res, nn_query n links x s k = Some (x', res) /\ nearest_answer (garc links) s (nn_selected ops) k res.
Proof. exact nn_ok. Qed.
Print Assumptions C22_nearest_neighbours_for_positive_k_partial.
(** for k = 0 the claim is false of the code: a target source is reported although nothing was asked for *)
Theorem C22_nearest_neighbours_k_zero_refuted :
  exists n links ts s x x' res, wf_links n links /\ nn_select (nn_new n) ts = Some x /\ nn_query n links x s 0 = Some (x', res) /\ ~ nearest_answer (garc links) s ts 0 res.
Proof.
  exists 1, (fun _ => Some []), [0], 0. eexists. eexists. eexists. split.
  { intros u Hu. exists []. split; auto. intros v w []. }
  split. { reflexivity. } split. { reflexivity. } intros (_ & _ & _ & H & _). cbn in H. lia.
Qed.
Print Assumptions C22_nearest_neighbours_k_zero_refuted.
Example C22_nonvacuous :
  (x <- nn_history 6 ex_links [NnSelect [1; 2]; NnQuery 0 1; NnSelect [3; 5; 4; 1]] ;; '(x1, a) <- nn_query 6 ex_links x 0 2 ;; '(_, b) <- nn_query 6 ex_links x1 0 7 ;; Some (a, b))
  = Some ([(1%N, 4); (4%N, 1)], [(1%N, 4); (4%N, 1); (6%N, 3)]).
Proof. vm_compute. reflexivity. Qed.

(** C46: one_to_all *)
Theorem C46_one_to_all_labels_every_node_exactly :
  forall n links ops sv s, wf_links n links -> Forall (op_ok n any_target) ops -> plain_hist n links (plain_new n) ops = Some sv -> s < n ->
  exists sv', sv_one_to_all n links fst def_lk def_pl zero_init zero_pot sv s = Some sv' /\
    forall v, v < n -> exists x, sv_dist_of sv' v = Some x /\ exact_answer (garc links) s v (if (x <? INF)%N then Some x else None) /\
      ((x < INF)%N -> exists p, sv_node_path sv' s v = Some p /\ npath (garc links) s p v x /\ NoDup p).
Proof. intros n links ops sv s WF. apply plain_all. auto. Qed.
Print Assumptions C46_one_to_all_labels_every_node_exactly.
Example C46_nonvacuous :
  (sv <- sv_one_to_all 6 ex_links fst def_lk def_pl zero_init zero_pot (plain_new 6) 0 ;; mapM (sv_dist_of sv) [0; 1; 2; 3; 4; 5]) = Some [0; 4; 1; 6; 1; INF]%N.
Proof. vm_compute. reflexivity. Qed.

(** C47: ranks reports, for every power of two 2^r, the 2^r-th closest node with its distance and r *)
Theorem C47_ranks_reports_every_power_of_two_position :
  forall n links ops sv s, wf_links n links -> Forall (op_ok n any_target) ops -> plain_hist n links (plain_new n) ops = Some sv -> s < n ->
  exists sv' cbs ord, sv_ranks n links fst def_lk def_pl sv s = Some (sv', cbs) /\ distance_order (garc links) s ord /\
    forall v x r, In (v, x, r) cbs <-> nth_error ord (N.to_nat (2 ^ r) - 1) = Some (v, x).
Proof. intros n links ops sv s WF. apply plain_ranks. auto. Qed.
Print Assumptions C47_ranks_reports_every_power_of_two_position.
Example C47_nonvacuous :
  ('(_, cbs) <- sv_ranks 6 ex_links fst def_lk def_pl (plain_new 6) 0 ;; Some cbs) = Some [(0, 0%N, 0%N); (2, 1%N, 1%N); (1, 4%N, 2%N)].
Proof. vm_compute. reflexivity. Qed.
