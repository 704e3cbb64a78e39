(** Property C19: no u32 addition of the searches overflows while all weights are at most INFINITY.
    In the models every addition of weights, labels and tentative distances is the checked addition [cadd] of Base.v, for which overflow means
    [None], and a [None] anywhere makes the whole run [None]. So a run that returns [Some ..] performed no addition beyond u32::MAX,
    and a run in which some addition exceeds u32::MAX returns [None]. *)
From Verif Require Import Base SpecGraph SpecBits BitVec Graph GraphSpecProof TsVec Dijkstra DijServer DijServerProof DijHistProof PropsGraph PropsDijkstra
  ExTab Bidir BidirServerProof PropsBidir SpecCCH CCH CCHQuery PropsCCH CCHPerfect CCHRebuild PropsPerfect.

(** what the checked addition does *)
Theorem C19_checked_addition : forall a b, (cadd a b = None <-> (2 ^ 32 - 1 < a + b)%N) /\ forall c, cadd a b = Some c <-> (a + b <= 2 ^ 32 - 1)%N /\ c = (a + b)%N.
Proof.
  intros a b. assert (EU : U32 = (2 ^ 32)%N) by reflexivity. assert (P : (2 ^ 32 = 4294967296)%N) by reflexivity.
  unfold cadd. rewrite EU, P in *. destruct (N.ltb_spec (a + b) 4294967296) as [L|L].
  - split; [split; [discriminate|lia]|]. intros c. split. { intros [= <-]. lia. } intros [_ ->]. auto.
  - split; [split; auto; lia|]. intros c. split; [discriminate|lia].
Qed.
Print Assumptions C19_checked_addition.

(** Dijkstra: any sequence of point-to-point, one-to-all and rank queries on one server *)
Theorem C19_dijkstra_never_overflows :
  forall n links ops, wf_links n links -> Forall (op_ok n any_target) ops -> plain_hist n links (plain_new n) ops <> None.
Proof. intros n links ops WF Ho. destruct (C16_histories_never_fail n links ops WF Ho) as (sv & E). congruence. Qed.
Print Assumptions C19_dijkstra_never_overflows.

(** bidirectional Dijkstra: any sequence of queries with any caps, both ways to choose the next direction *)
Theorem C19_bidirectional_never_overflows :
  forall n fwl bwl qs, wf_links n fwl -> wf_links n bwl -> reverse_links fwl bwl -> Forall (q_in n) qs ->
  bd_history n fwl bwl zero_bipot min_key_dir (bs_new n tt) qs <> None /\ bd_history n fwl bwl zero_bipot alternating_dirs (bs_new n tt) qs <> None.
Proof. intros n fwl bwl qs W1 W2 R Hq. destruct (C21_histories_never_fail n fwl bwl qs W1 W2 R Hq) as [(a & A) (b & B)]. split; congruence. Qed.
Print Assumptions C19_bidirectional_never_overflows.

(** CCH: customization and perfect customization for any metric, and any sequence of metric updates, queries and path extractions *)
Theorem C19_cch_never_overflows :
  forall adj g order ranks c, valid_adj adj -> fits_u32 adj -> from_adjacency_lists adj = Some g -> node_order (length adj) order ranks -> cch_contract g order ranks = Some c ->
  (forall madj metric, same_topology adj madj -> weights_ok madj -> from_adjacency_lists madj = Some metric ->
     exists k, customize c metric = Some k /\ customize_perfect c k <> None) /\
  (forall k0 ops, (exists madj, any_metric_for adj c madj k0) -> any_ops_ok adj c ops -> cs_history (cs_new k0) ops <> None).
Proof.
  intros adj g order ranks c HV HF Hg HO E. split.
  - intros madj metric HT HW Hm. destruct (C24_customized_weights adj g order ranks c madj metric HV HF Hg HO E HT HW Hm) as (k & Ek & _).
    exists k. split; [exact Ek|]. assert (M : metric_for adj c madj k) by (split; eauto).
    destruct (C28_perfect_customization_keeps_exactly_the_shortest_edges adj g order ranks c HV HF Hg HO E madj k M) as (kp & Ep & _). congruence.
  - intros k0 ops Hk Ho. destruct (C28_queries_on_perfect_customizations_exact adj g order ranks c HV HF Hg HO E k0 ops Hk Ho) as (sv & Es & _). congruence.
Qed.
Print Assumptions C19_cch_never_overflows.

(** The bound on the weights matters: with a weight of u32::MAX a search does overflow. *)
Definition ov_links (w : N) (u : nat) : option (list (nat * N)) := nth_error [[(1, 1%N)]; [(2, w)]; []] u.
Theorem C19_larger_weights_overflow : exists n links ops, Forall (op_ok n any_target) ops /\ plain_hist n links (plain_new n) ops = None /\
  forall u v w, garc links u v w -> (w <= 2 ^ 32 - 1)%N.
Proof.
  exists 3, (ov_links 4294967295), [SvQuery 0 2]. split. { constructor; [split; [lia|exact I]|constructor]. } split. { vm_compute. reflexivity. }
  intros u v w (l & El & Hl). unfold ov_links in El. destruct u as [|[|[|u]]]; cbn in El; try (injection El as <-; cbn in Hl; repeat (destruct Hl as [Hl|Hl]; [injection Hl as <- <-; vm_compute; discriminate|]); destruct Hl).
  destruct u; discriminate.
Qed.
Print Assumptions C19_larger_weights_overflow.

(** Extreme weights: INFINITY and INFINITY - 1 everywhere. *)
Definition ov_adj : list (list (nat * N)) := [[(1, (INF - 1)%N); (2, INF)]; [(2, (INF - 1)%N); (0, INF); (1, INF)]; [(3, 0%N); (0, (INF - 1)%N)]; [(1, (INF - 1)%N)]].
Example C19_nonvacuous :
  wf_links 4 (tab ov_adj) /\ wf_links 4 (tab (rev_tab ov_adj)) /\ reverse_links (tab ov_adj) (tab (rev_tab ov_adj)) /\
  valid_adj ov_adj /\ fits_u32 ov_adj /\ weights_ok ov_adj /\ node_order (length ov_adj) [3; 0; 2; 1] [1; 3; 2; 0] /\
  (sv <- plain_hist 4 (tab ov_adj) (plain_new 4) [SvQuery 0 3; SvAll 2; SvRanks 1] ;; '(_, a) <- plain_dist 4 (tab ov_adj) sv 0 2 0 ;;
   b <- bd_history 4 (tab ov_adj) (tab (rev_tab ov_adj)) zero_bipot min_key_dir (bs_new 4 tt) [(0, 3, INF); (3, 2, U32MAX)] ;;
   g <- from_adjacency_lists ov_adj ;; c <- cch_contract g [3; 0; 2; 1] [1; 3; 2; 0] ;; k <- customize c g ;; kp <- customize_perfect c k ;;
   s <- cs_history (cs_new k) [OpQuery 0 3 1; OpUpdate kp; OpQuery 3 2 0] ;; '(_, d) <- cs_distance s 2 0 ;; Some (a, d, weight (k_fw k)))
  = Some (None, Some (INF - 1)%N, [INF; (INF - 1); INF; (INF - 1); (INF - 1)]%N).
Proof.
  split; [apply wf_check_ok; vm_compute; reflexivity|]. split; [apply wf_check_ok; vm_compute; reflexivity|].
  split; [unfold reverse_links; apply rev_check_ok; vm_compute; reflexivity|].
  split; [apply valid_check; vm_compute; reflexivity|]. split; [split; vm_compute; reflexivity|]. split; [apply weights_check; vm_compute; reflexivity|].
  split; [apply order_check; vm_compute; reflexivity|]. vm_compute. reflexivity.
Qed.
