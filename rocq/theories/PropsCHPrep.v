(** Statements about contraction with witness search (contraction_hierarchy::contract and overlay). *)
From Verif Require Import Base SpecGraph SpecCCH SpecCH Graph ExTab IndexHeap TsVec Dijkstra DijkstraRef DijServer DijServerProof Bidir CHPrep CHPrepProof CHContrProof CHInitProof CHTotalProof CH CHProof PropsCH.

(** no arc of the two graphs is heavier than INFINITY *)
Definition light (c : chier) : Prop := Forall (fun w => (w <= INF)%N) (weight (chi_fw c) ++ weight (chi_bw c)).

(** Whenever contract returns, for any graph (parallel arcs and loops included) and any order, the two graphs lead upward and
    the best up-down path between each two nodes has exactly the distance in the input graph. Missing for the full claim:
    that contract returns; it does not always, see [C44_contract_returns_a_hierarchy] and the refutation below. *)
Theorem C44_contraction_preserves_distances_partial :
  forall adj g order ranks c, valid_adj adj -> from_adjacency_lists adj = Some g -> node_order (length adj) order ranks ->
  ch_contract g order ranks = Some c -> light c ->
  hierarchy (length adj) (adj_arc adj) order ranks (link_iter (chi_fw c)) (link_iter (chi_bw c)).
Proof. intros adj g order ranks c HV Hg HO E HL. eapply contract_hier; eauto. Qed.
Print Assumptions C44_contraction_preserves_distances_partial.

(** Contract and query: the CH server answers every query with the distance in the input graph. *)
Theorem C44_contract_and_query_is_exact_partial :
  forall adj g order ranks c, valid_adj adj -> from_adjacency_lists adj = Some g -> node_order (length adj) order ranks ->
  ch_contract g order ranks = Some c -> light c ->
  forall qs, ch_queries (length adj) qs -> exists sv, ch_history (length adj) ranks (link_iter (chi_fw c)) (link_iter (chi_bw c)) (hs_new (length adj)) qs = Some sv /\
  forall s t, s < length adj -> t < length adj -> exists sv' r, ch_distance (length adj) ranks (link_iter (chi_fw c)) (link_iter (chi_bw c)) sv s t = Some (sv', r) /\ exact_answer (adj_arc adj) s t r.
Proof. intros adj g order ranks c HV Hg HO E HL. eapply C31_ch_distances_are_exact. eapply C44_contraction_preserves_distances_partial; eauto. Qed.
Print Assumptions C44_contract_and_query_is_exact_partial.

(** Graphs without parallel arcs (loops allowed) whose arcs are at most [K] times longer than necessary, [K] times the largest
    distance being below INFINITY: contraction never panics, and contract returns a hierarchy unless the number of arcs of one
    of the two graphs does not fit into 32 bits. For at most 65535 nodes it always fits. *)
Theorem C44_contract_returns_a_hierarchy :
  forall adj g order ranks K D, valid_adj adj -> from_adjacency_lists adj = Some g -> node_order (length adj) order ranks ->
  no_parallel adj -> stretch adj K -> diameter adj D -> (1 <= K)%N -> (K * D < INF)%N -> (N.of_nat (length adj) <= 65535)%N ->
  exists c, ch_contract g order ranks = Some c /\ light c /\
    hierarchy (length adj) (adj_arc adj) order ranks (link_iter (chi_fw c)) (link_iter (chi_bw c)).
Proof.
  intros adj g order ranks K D HV Hg HO HP HS HD HK HKD HN. destruct (contract_total adj g order ranks K D HV Hg HO HP HS HD HK HKD) as (nodes & _ & _ & F & G).
  destruct F as (c & E & HL); [apply G; pose proof (N.mul_le_mono _ _ _ _ HN HN) as X; lia|]. exists c. split; auto. split; auto. eapply contract_hier; eauto.
Qed.
Print Assumptions C44_contract_returns_a_hierarchy.
Theorem C44_contraction_never_panics :
  forall adj g order ranks K D, valid_adj adj -> from_adjacency_lists adj = Some g -> node_order (length adj) order ranks ->
  no_parallel adj -> stretch adj K -> diameter adj D -> (1 <= K)%N -> (K * D < INF)%N ->
  exists start nodes, cg_new (num_nodes g) (num_arcs g) order ranks (link_iter g) = Some start /\ contract_partially start (length start) = Some nodes /\
    length nodes = length adj /\
    ((N.of_nat (length (concat (map fst nodes))) < 4294967295)%N -> (N.of_nat (length (concat (map snd nodes))) < 4294967295)%N ->
     exists c, ch_contract g order ranks = Some c /\ light c /\
       hierarchy (length adj) (adj_arc adj) order ranks (link_iter (chi_fw c)) (link_iter (chi_bw c))).
Proof.
  intros adj g order ranks K D HV Hg HO HP HS HD HK HKD. destruct (contract_total adj g order ranks K D HV Hg HO HP HS HD HK HKD) as (nodes & E & HL & F & _).
  exists (start adj order ranks), nodes. split; [apply cg_new_ok; auto|]. split; auto. split; auto. intros F1 F2. destruct (F (conj F1 F2)) as (c & E1 & HL1). exists c. split; auto. split; auto. eapply contract_hier; eauto.
Qed.
Print Assumptions C44_contraction_never_panics.
Theorem C44_contract_then_query_is_exact :
  forall adj g order ranks K D, valid_adj adj -> from_adjacency_lists adj = Some g -> node_order (length adj) order ranks ->
  no_parallel adj -> stretch adj K -> diameter adj D -> (1 <= K)%N -> (K * D < INF)%N -> (N.of_nat (length adj) <= 65535)%N ->
  exists c, ch_contract g order ranks = Some c /\
  forall qs, ch_queries (length adj) qs -> exists sv, ch_history (length adj) ranks (link_iter (chi_fw c)) (link_iter (chi_bw c)) (hs_new (length adj)) qs = Some sv /\
  forall s t, s < length adj -> t < length adj -> exists sv' r, ch_distance (length adj) ranks (link_iter (chi_fw c)) (link_iter (chi_bw c)) sv s t = Some (sv', r) /\ exact_answer (adj_arc adj) s t r.
Proof.
  intros adj g order ranks K D HV Hg HO HP HS HD HK HKD HN. destruct (C44_contract_returns_a_hierarchy adj g order ranks K D) as (c & E & _ & H); auto. exists c. split; auto. eapply C31_ch_distances_are_exact; eauto.
Qed.
Print Assumptions C44_contract_then_query_is_exact.

(** Contract does not return for every graph: with two arcs of weight 8 and 6 from 1 to 2 the shortcut of weight 6 over node 0
    is compared with different ones of the two in the outgoing list of 1 and in the incoming list of 2, and the assertion that
    both comparisons agree fails. The input is a valid graph, so all arcs have heads in range and all distances are small. *)
Definition par_adj : list (list (nat * N)) := [[(2, 1%N)]; [(0, 5%N); (2, 8%N); (2, 6%N)]; []; [(2, 1%N)]].
Theorem C44_parallel_arcs_panic_refuted :
  exists adj g order ranks, valid_adj adj /\ from_adjacency_lists adj = Some g /\ node_order (length adj) order ranks /\ ch_contract g order ranks = None.
Proof.
  exists par_adj. eexists. exists [0; 1; 2; 3], [0; 1; 2; 3]. split.
  { intros l v w Hl Hv. cbn in Hl. repeat destruct Hl as [<-|Hl]; cbn in Hv; try (repeat destruct Hv as [[= <- <-]|Hv]; cbn; try lia; destruct Hv); destruct Hl. }
  split. { vm_compute. reflexivity. }
  split. { split; auto. split; auto. split; intros a b H; (do 4 (destruct a as [|a]; [cbn in H; injection H as <-; reflexivity|])); destruct a; discriminate. }
  vm_compute. reflexivity.
Qed.
Print Assumptions C44_parallel_arcs_panic_refuted.

(** Overlay graphs: overlay(graph, order, count) removes the arcs at the first node that is not contracted without inserting
    shortcuts, so that a path through this node is lost. Here nothing is to be contracted, but the path 1 -> 0 -> 2 is gone:
    no walk from 1 in the first graph and from 2 in the second one meet. *)
Definition ov_adj : list (list (nat * N)) := [[(2, 1%N)]; [(0, 1%N)]; []].
Theorem C44_overlay_loses_paths_refuted :
  exists adj g order ranks count f b, valid_adj adj /\ from_adjacency_lists adj = Some g /\ node_order (length adj) order ranks /\
    ch_overlay g order ranks count = Some (f, b) /\
    exists x y u v l, nth_error order x = Some u /\ nth_error order y = Some v /\ walk (adj_arc adj) u v l /\ (l < INF)%N /\
      forall l', ~ meets (garc (link_iter f)) (garc (link_iter b)) x y l'.
Proof.
  exists ov_adj. eexists. exists [0; 1; 2], [0; 1; 2], 0. eexists. eexists. split.
  { intros l v w Hl Hv. cbn in Hl. repeat destruct Hl as [<-|Hl]; cbn in Hv; try (repeat destruct Hv as [[= <- <-]|Hv]; cbn; try lia; destruct Hv); destruct Hl. }
  split. { vm_compute. reflexivity. }
  split. { split; auto. split; auto. split; intros a b H; (do 3 (destruct a as [|a]; [cbn in H; injection H as <-; reflexivity|])); destruct a; discriminate. }
  split. { vm_compute. reflexivity. }
  exists 1, 2, 1, 2, (1 + (1 + 0))%N. split; auto. split; auto. split.
  { apply walk_cons with 0; [left; auto|]. apply walk_cons with 2; [left; auto|]. constructor. }
  split; [unfold INF; lia|]. intros l' (m & a & b & W1 & W2 & _).
  inversion W1 as [|? z ? ? ? (ls & E & Hin)]; subst; [|vm_compute in E; injection E as <-; destruct Hin].
  inversion W2 as [|? z ? ? ? (ls & E & Hin)]; subst. vm_compute in E. injection E as <-. destruct Hin.
Qed.
Print Assumptions C44_overlay_loses_paths_refuted.

(** non-vacuity: a graph with a loop, parallel arcs, unnecessary arcs and an order that is not the identity *)
Definition chp_adj : list (list (nat * N)) := [[(0, 3%N); (2, 1%N); (3, 5%N)]; [(0, 6%N); (2, 8%N); (2, 9%N)]; [(4, 2%N); (3, 2%N)]; [(1, 1%N)]; [(2, 1%N); (0, 4%N)]].
Example C44_nonvacuous :
  (g <- from_adjacency_lists chp_adj ;; c <- ch_contract g [2; 0; 4; 1; 3] [1; 3; 0; 4; 2] ;;
   sv <- ch_history 5 [1; 3; 0; 4; 2] (link_iter (chi_fw c)) (link_iter (chi_bw c)) (hs_new 5) [(0, 4)] ;;
   rs <- mapM (fun q => '(_, r) <- ch_distance 5 [1; 3; 0; 4; 2] (link_iter (chi_fw c)) (link_iter (chi_bw c)) sv (fst q) (snd q) ;; Some r) [(0, 1); (1, 4); (4, 3); (3, 0)] ;;
   Some (rs, forallb (fun w => (w <=? INF)%N) (weight (chi_fw c) ++ weight (chi_bw c)), head (chi_fw c), chi_mid c)) =
  Some ([Some 4; Some 9; Some 3; Some 7]%N, true, [2; 4; 4; 2; 4; 4], ([5; 5; 0; 0; 0; 1], [5; 5; 5; 5; 5; 5; 1; 5])).
Proof. vm_compute; reflexivity. Qed.

(** and a graph to which [C44_contract_returns_a_hierarchy] applies with K = 2 and D = 5: the arc 0 -> 2 of length 7 is longer
    than the path 0 -> 1 -> 2 of length 5 *)
Definition chr_adj : list (list (nat * N)) := [[(1, 2%N); (2, 7%N); (0, 1%N); (0, 1%N)]; [(2, 3%N)]; [(0, 1%N)]].
Definition chr_dist (u t : nat) : N := nth t (nth u [[0; 2; 5]; [4; 0; 3]; [1; 3; 0]]%N []) 0%N.
Lemma chr_arc u v w : adj_arc chr_adj u v w -> In (u, v, w) [(0, 1, 2%N); (0, 2, 7%N); (0, 0, 1%N); (1, 2, 3%N); (2, 0, 1%N)].
Proof. unfold adj_arc. intros H. destruct u as [|[|[|u]]]; cbn in H; try (destruct u; destruct H); repeat destruct H as [[= <- <-]|H]; try destruct H; cbn; tauto. Qed.
Lemma chr_walk u v l : walk (adj_arc chr_adj) u v l -> u < 3 -> v < 3 /\ (chr_dist u v <= l)%N.
Proof.
  induction 1 as [u|u v t w l Ha W IH]; intros Hu. { split; auto. destruct u as [|[|[|u]]]; cbn; lia. }
  apply chr_arc in Ha. cbn in Ha. repeat destruct Ha as [Ha|Ha]; try injection Ha as <- <- <-; try destruct Ha; (destruct IH as [Ht L]; [lia|]; split; auto; destruct t as [|[|[|t]]]; cbn in *; lia).
Qed.
Lemma chr_dist_walk u v : u < 3 -> v < 3 -> walk (adj_arc chr_adj) u v (chr_dist u v).
Proof.
  assert (A1 : adj_arc chr_adj 0 1 2) by (left; auto). assert (A2 : adj_arc chr_adj 1 2 3) by (left; auto). assert (A3 : adj_arc chr_adj 2 0 1) by (left; auto).
  intros Hu Hv. destruct u as [|[|[|u]]], v as [|[|[|v]]]; try lia; try apply walk_nil.
  - apply (walk_cons _ 0 1 1 2 0); auto. apply walk_nil.
  - apply (walk_cons _ 0 1 2 2 3); auto. apply (walk_cons _ 1 2 2 3 0); auto. apply walk_nil.
  - apply (walk_cons _ 1 2 0 3 1); auto. apply (walk_cons _ 2 0 0 1 0); auto. apply walk_nil.
  - apply (walk_cons _ 1 2 2 3 0); auto. apply walk_nil.
  - apply (walk_cons _ 2 0 0 1 0); auto. apply walk_nil.
  - apply (walk_cons _ 2 0 1 1 2); auto. apply (walk_cons _ 0 1 1 2 0); auto. apply walk_nil.
Qed.
Example C44_returns_nonvacuous :
  valid_adj chr_adj /\ node_order 3 [1; 0; 2] [1; 0; 2] /\ no_parallel chr_adj /\ stretch chr_adj 2 /\ diameter chr_adj 5 /\ (2 * 5 < INF)%N /\
  (g <- from_adjacency_lists chr_adj ;; c <- ch_contract g [1; 0; 2] [1; 0; 2] ;; Some (head (chi_fw c), weight (chi_fw c), weight (chi_bw c), chi_mid c)) =
  Some ([2; 2], [3; 5]%N, [2; 1]%N, ([3; 0], [3; 3])).
Proof.
  split. { intros l v w Hl Hv. cbn in Hl. repeat destruct Hl as [<-|Hl]; cbn in Hv; try (repeat destruct Hv as [[= <- <-]|Hv]; cbn; try lia; destruct Hv); destruct Hl. }
  split. { split; auto. split; auto. split; intros a b H; (do 3 (destruct a as [|a]; [cbn in H; injection H as <-; reflexivity|])); destruct a; discriminate. }
  split. { intros u v Ne. destruct u as [|[|[|u]]]; cbn; try (destruct u; cbn; lia); destruct v as [|[|[|v]]]; cbn; lia. }
  split. { intros u v w l Ne Ha W. apply chr_arc in Ha. cbn in Ha. repeat destruct Ha as [Ha|Ha]; try injection Ha as <- <- <-; try destruct Ha; try congruence; (apply chr_walk in W as [_ L]; [cbn in L; lia|lia]). }
  split. { intros u v l W. destruct (Nat.lt_ge_cases u 3) as [Hu|Hu].
    - pose proof (chr_walk _ _ _ W Hu) as [Hv L]. exists (chr_dist u v). split; [apply chr_dist_walk; auto|]. split; auto. destruct u as [|[|[|u]]], v as [|[|[|v]]]; cbn; lia.
    - inversion W as [|a b c w l' Ha]; subst; [exists 0%N; split; [constructor|lia]|]. apply chr_arc in Ha. cbn in Ha. repeat destruct Ha as [Ha|Ha]; try injection Ha as <- <- <-; try destruct Ha; lia. }
  split; [unfold INF; lia|]. vm_compute. reflexivity.
Qed.
