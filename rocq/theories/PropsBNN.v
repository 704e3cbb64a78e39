(** Statements about BCCHNearestNeighbor, nearest neighbour queries with buckets. *)
From Verif Require Import PropsTTF Base SpecGraph SpecPQ SpecCCH SpecCH SpecNN SpecBNN IndexHeap IndexHeapProof Graph ExTab CCH CCHQuery CCHPerfect CCHRebuild Dijkstra LoopProof
  CCHViewProof CCHBuildProof CCHContractProof CCHPotProof PropsCCH PropsPerfect PropsRphast Bucket BucketProof BPotProof BCCHNN BCCHNNProof.
From Coq Require Import Permutation Sorting.Sorted.

(** the targets selected last in a history of calls *)
Definition selected (ops : list bn_op) (ts : list nat) : list nat := fold_left (fun o op => match op with BnSelect ts => ts | BnQuery _ _ => o end) ops ts.
(** different targets are selected *)
Definition bn_op_ok (n : nat) (op : bn_op) : Prop := match op with BnSelect ts => NoDup ts /\ forall t, In t ts -> t < n | BnQuery source _ => source < n end.

Lemma bn_calls n arc kc order ranks sort : hierarchy n arc order ranks (link_iter (k_fw kc)) (link_iter (k_bw kc)) -> k_ranks kc = ranks -> length (k_elim kc) = n ->
  (forall x p, nth_error (k_elim kc) x = Some (Some p) -> x < p < n) -> CCHQueryProof.up_graph n (k_elim kc) (k_links (k_fw kc)) -> bucket_sort sort -> light_arcs n (link_iter (k_bw kc)) ->
  forall ops, Forall (bn_op_ok n) ops -> forall b targets ts, NoDup targets -> (forall t, In t targets -> t < n) -> mapM (fun t => nth_error ranks t) targets = Some ts -> BnOK n (link_iter (k_fw kc)) (link_iter (k_bw kc)) b (Some ts) ->
  exists b' ts', bnn_history n kc sort (b, targets) ops = Some (b', selected ops targets) /\ NoDup (selected ops targets) /\ (forall t, In t (selected ops targets) -> t < n) /\
    mapM (fun t => nth_error ranks t) (selected ops targets) = Some ts' /\ BnOK n (link_iter (k_fw kc)) (link_iter (k_bw kc)) b' (Some ts').
Proof.
  intros HH HR EL EP HG HS HL ops HO. induction HO as [|op ops Hop HO IH]; intros b targets ts ND HT Ets HP; unfold bnn_history; cbn [foldM].
  - exists b, ts. auto.
  - destruct op as [tg|v k]; cbn [bn_do bn_op_ok fst snd] in *; rewrite HR.
    + destruct Hop as [ND' HT']. destruct (bnn_select_ok n arc order ranks _ _ HH (k_elim kc) EL EP (k_links (k_fw kc)) HG sort HS HL b _ tg HP ND' HT') as (b1 & ts1 & E1 & Et1 & H1). rewrite E1. cbn [bind]. specialize (IH b1 tg ts1 ND' HT' Et1 H1). unfold bnn_history in IH. rewrite HR in IH. exact IH.
    + destruct (bnn_query_ok n arc order ranks _ _ HH (k_elim kc) EL EP (k_links (k_fw kc)) HG (fun x ls E => link_iter_of_ids (k_fw kc) x ls E) HL b targets ts v k HP ND HT Ets Hop) as (b1 & res & E1 & H1 & _). rewrite E1. cbn [bind]. specialize (IH b1 targets ts ND HT Ets H1). unfold bnn_history in IH. rewrite HR in IH. exact IH.
Qed.

(** On every customization (basic or perfect) of a CCH whose backward graph has no over-long arcs, and after any history of
    selections and queries: a query returns (no panic, no endless loop) at most k targets. Those with a distance below INFINITY are
    k nearest targets (all that can be reached if they are fewer) with their exact distances. Missing: targets that cannot be reached
    may fill up the answer, and networks with one way streets are excluded (both are refuted below). *)
Theorem C53_bucket_nearest_neighbours_partial :
  forall adj g order ranks c madj kc, valid_adj adj -> fits_u32 adj -> from_adjacency_lists adj = Some g -> node_order (length adj) order ranks ->
  cch_contract g order ranks = Some c -> any_metric_for adj c madj kc -> light_arcs (length adj) (link_iter (k_bw kc)) ->
  forall sort, bucket_sort sort ->
  forall targets ops, bn_op_ok (length adj) (BnSelect targets) -> Forall (bn_op_ok (length adj)) ops ->
  exists s, bnn_history (length adj) kc sort (bnn_new (length adj), []) (BnSelect targets :: ops) = Some s /\
  forall source k, source < length adj -> exists res, bnn_answer (length adj) kc s source k = Some res /\ length res <= k /\
    nearest (adj_arc madj) source (selected ops targets) k (filter (fun x => fst x <? INF)%N res).
Proof.
  intros adj g order ranks c madj kc HV HF Hg HO E Hm HL sort HS targets ops [ND HT] HOP.
  pose proof (C32_customized_cch_is_a_hierarchy adj g order ranks c madj kc HV HF Hg HO E Hm) as HH.
  destruct (any_served adj g order ranks c madj kc HV HF Hg HO E Hm) as (A & un & hop & HW).
  pose proof (v_rks _ _ _ _ _ _ _ _ HW) as HR. pose proof (v_eliml _ _ _ _ _ _ _ _ HW) as EL. pose proof (v_elim _ _ _ _ _ _ _ _ HW) as EP. pose proof (v_fw _ _ _ _ _ _ _ _ HW) as HG.
  unfold bnn_history. cbn [foldM bn_do fst snd]. rewrite HR.
  destruct (bnn_select_ok _ _ order ranks _ _ HH (k_elim kc) EL EP (k_links (k_fw kc)) HG sort HS HL _ None targets (bnn_new_ok _ _ _) ND HT) as (b & ts & Eb & Ets & HP). rewrite Eb. cbn [bind].
  destruct (bn_calls _ _ kc order ranks sort HH HR EL EP HG HS HL ops HOP b targets ts ND HT Ets HP) as (b' & ts' & E' & ND' & HT' & Ets' & HP'). unfold bnn_history in E'. rewrite HR in E'. rewrite E'.
  eexists. split; [reflexivity|]. intros source k Hs. unfold bnn_answer. cbn [fst snd]. rewrite HR.
  destruct (bnn_query_ok _ _ order ranks _ _ HH (k_elim kc) EL EP (k_links (k_fw kc)) HG (fun x ls E => link_iter_of_ids (k_fw kc) x ls E) HL b' _ ts' source k HP' ND' HT' Ets' Hs) as (b1 & res & E1 & _ & L & NN).
  rewrite E1. cbn [bind]. eauto.
Qed.
Print Assumptions C53_bucket_nearest_neighbours_partial.

(** If at least k of the selected targets can be reached, the answer itself consists of k nearest targets. *)
Theorem C53_enough_reachable_targets_partial :
  forall adj g order ranks c madj kc, valid_adj adj -> fits_u32 adj -> from_adjacency_lists adj = Some g -> node_order (length adj) order ranks ->
  cch_contract g order ranks = Some c -> any_metric_for adj c madj kc -> light_arcs (length adj) (link_iter (k_bw kc)) ->
  forall sort, bucket_sort sort ->
  forall targets ops, bn_op_ok (length adj) (BnSelect targets) -> Forall (bn_op_ok (length adj)) ops ->
  exists s, bnn_history (length adj) kc sort (bnn_new (length adj), []) (BnSelect targets :: ops) = Some s /\
  forall source k, source < length adj ->
    (forall ans, Forall2 (fun t r => exact_answer (adj_arc madj) source t r) (selected ops targets) ans -> k <= length (reached (selected ops targets) ans)) ->
    exists res, bnn_answer (length adj) kc s source k = Some res /\ nearest (adj_arc madj) source (selected ops targets) k res.
Proof.
  intros adj g order ranks c madj kc HV HF Hg HO E Hm HL sort HS targets ops HT HOP.
  destruct (C53_bucket_nearest_neighbours_partial adj g order ranks c madj kc HV HF Hg HO E Hm HL sort HS targets ops HT HOP) as (s & Es & H).
  exists s. split; auto. intros source k Hs HK. destruct (H source k Hs) as (res & Er & Lr & NN). exists res. split; auto.
  destruct NN as (ans & rest & FA & P & L & O). specialize (HK ans FA). rewrite Nat.min_l in L by auto.
  assert (EF : filter (fun x : N * nat => fst x <? INF)%N res = res).
  { assert (LL : length (filter (fun x : N * nat => fst x <? INF)%N res) = length res) by (pose proof (filter_length_le (fun x : N * nat => fst x <? INF)%N res); lia). clear -LL.
    induction res as [|x res IH]; cbn in *; auto. pose proof (filter_length_le (fun x : N * nat => fst x <? INF)%N res). destruct (fst x <? INF)%N; cbn in LL; [|lia]. f_equal. apply IH. lia. }
  rewrite EF in *. exists ans, rest. split; auto. split; auto. split; auto. rewrite Nat.min_l by auto. auto.
Qed.
Print Assumptions C53_enough_reachable_targets_partial.

(** a sorting function *)
Fixpoint bins (x : nat * N) (l : list (nat * N)) : list (nat * N) := match l with [] => [x] | y :: r => if (snd x <=? snd y)%N then x :: l else y :: bins x r end.
Fixpoint bsort (l : list (nat * N)) : list (nat * N) := match l with [] => [] | x :: r => bins x (bsort r) end.
Lemma bins_perm x l : Permutation (x :: l) (bins x l).
Proof. induction l as [|y l IH]; cbn; auto. destruct (snd x <=? snd y)%N; auto. eapply perm_trans; [apply perm_swap|]. constructor. auto. Qed.
Lemma bsort_ok : bucket_sort bsort.
Proof.
  intros l. induction l as [|x l [IH1 IH2]]; cbn. { split; constructor. } split. { eapply perm_trans; [|apply bins_perm]. constructor; auto. }
  clear IH1. induction IH2 as [|y r H IH FA]; cbn. { repeat constructor. } destruct (N.leb_spec (snd x) (snd y)) as [L|L].
  - constructor; [constructor; auto|]. constructor; auto. revert FA. apply Forall_impl. unfold le_snd. intros z. lia.
  - constructor; auto. apply Forall_forall. intros z Hz. apply (Permutation_in z (Permutation_sym (bins_perm x r))) in Hz. destruct Hz as [<-|Hz]; [unfold le_snd; lia|]. rewrite Forall_forall in FA. auto.
Qed.

(** a network with one way streets: targets 0 and 3 can be reached from node 4 with distances 2 and 10 *)
Definition bn_adj : list (list (nat * N)) := [[]; [(0, 1%N); (4, 1%N)]; [(0, 1%N)]; []; [(2, 1%N); (3, 10%N)]].
Definition bn_order : list nat := [0; 1; 2; 3; 4].
Lemma bn_walk2 adj u m v w1 w2 : adj_arc adj u m w1 -> adj_arc adj m v w2 -> walk (adj_arc adj) u v (w1 + w2)%N.
Proof. intros H1 H2. replace (w1 + w2)%N with (w1 + (w2 + 0))%N by lia. econstructor; eauto. econstructor; eauto. constructor. Qed.

(** On a perfect customization of a network with one way streets, a target can be entered twice into a bucket; a query for the two
    nearest targets then finds only one of the two that can be reached. *)
Theorem C53_one_way_streets_lose_a_neighbour_refuted :
  exists adj g order c kc targets source s, valid_adj adj /\ fits_u32 adj /\ from_adjacency_lists adj = Some g /\ node_order (length adj) order order /\
  cch_contract g order order = Some c /\ any_metric_for adj c adj kc /\ bucket_sort bsort /\ bn_op_ok (length adj) (BnSelect targets) /\ source < length adj /\
  bnn_history (length adj) kc bsort (bnn_new (length adj), []) [BnSelect targets] = Some s /\
  (forall t, In t targets -> exists l, (l < INF)%N /\ walk (adj_arc adj) source t l) /\ length targets = 2 /\
  exists x, bnn_answer (length adj) kc s source 2 = Some [x].
Proof.
  destruct (from_adjacency_lists bn_adj) as [g|] eqn:Eg; [|vm_compute in Eg; discriminate].
  destruct (cch_contract g bn_order bn_order) as [c|] eqn:Ec; [|vm_compute in Eg; injection Eg as <-; vm_compute in Ec; discriminate].
  destruct (customize c g) as [cu|] eqn:Eu; [|vm_compute in Eg; injection Eg as <-; vm_compute in Ec; injection Ec as <-; vm_compute in Eu; discriminate].
  destruct (customize_perfect c cu) as [kp|] eqn:Ep; [|vm_compute in Eg; injection Eg as <-; vm_compute in Ec; injection Ec as <-; vm_compute in Eu; injection Eu as <-; vm_compute in Ep; discriminate].
  destruct (bnn_history (length bn_adj) kp bsort (bnn_new (length bn_adj), []) [BnSelect [0; 3]]) as [s|] eqn:Es;
    [|vm_compute in Eg; injection Eg as <-; vm_compute in Ec; injection Ec as <-; vm_compute in Eu; injection Eu as <-; vm_compute in Ep; injection Ep as <-; vm_compute in Es; discriminate].
  exists bn_adj, g, bn_order, c, kp, [0; 3], 4, s.
  split; [apply valid_check; vm_compute; reflexivity|]. split; [split; vm_compute; reflexivity|]. split; [exact Eg|]. split; [apply order_check; vm_compute; reflexivity|]. split; [exact Ec|].
  split. { right. exists cu. split; [split; [reflexivity|exists g; auto]|exact Ep]. } split; [apply bsort_ok|].
  split. { split; [repeat constructor; cbn; intuition discriminate|]. intros t [<-|[<-|[]]]; vm_compute; lia. } split; [vm_compute; lia|]. split; [exact Es|].
  split. { intros t [<-|[<-|[]]].
    - exists 2%N. split; [reflexivity|]. apply (bn_walk2 bn_adj 4 2 0 1%N 1%N); vm_compute; auto.
    - exists 10%N. split; [reflexivity|]. apply walk_arc. vm_compute. auto. }
  split; [reflexivity|]. eexists.
  vm_compute in Eg. injection Eg as <-. vm_compute in Ec. injection Ec as <-. vm_compute in Eu. injection Eu as <-. vm_compute in Ep. injection Ep as <-. vm_compute in Es. injection Es as <-. vm_compute. reflexivity.
Qed.
Print Assumptions C53_one_way_streets_lose_a_neighbour_refuted.

(** Even without over-long backward arcs, a target that cannot be reached can be returned. *)
Definition bu_adj : list (list (nat * N)) := [[]; [(0, 1%N)]].
Definition bu_order : list nat := [0; 1].
Fixpoint light_check (n : nat) (lb : nat -> option (list (nat * N))) (m : nat) : bool :=
  match m with 0 => true | S m' => match lb m' with Some ls => forallb (fun x => N.of_nat n * snd x <? INF)%N ls | None => true end && light_check n lb m' end.
Lemma light_checked n lb m : light_check n lb m = true -> (forall u, m <= u -> lb u = None) -> light_arcs n lb.
Proof.
  intros H H0 u v w (ls & E & I). destruct (Nat.lt_ge_cases u m) as [L|L]; [|rewrite H0 in E by auto; discriminate]. clear H0. revert H L. induction m as [|m IH]; cbn; intros H L; [lia|].
  apply andb_true_iff in H. destruct H as [H1 H2]. destruct (Nat.eq_dec u m) as [->|N]; [|apply IH; auto; lia]. rewrite E in H1. rewrite forallb_forall in H1. specialize (H1 _ I). apply N.ltb_lt in H1. exact H1.
Qed.
Theorem C53_unreachable_target_returned_refuted :
  exists adj g order c kc targets source s t x, valid_adj adj /\ fits_u32 adj /\ from_adjacency_lists adj = Some g /\ node_order (length adj) order order /\
  cch_contract g order order = Some c /\ any_metric_for adj c adj kc /\ light_arcs (length adj) (link_iter (k_bw kc)) /\ bucket_sort bsort /\ bn_op_ok (length adj) (BnSelect targets) /\ source < length adj /\
  bnn_history (length adj) kc bsort (bnn_new (length adj), []) [BnSelect targets] = Some s /\
  bnn_answer (length adj) kc s source 1 = Some [(x, t)] /\ In t targets /\ forall l, ~ walk (adj_arc adj) source t l.
Proof.
  destruct (from_adjacency_lists bu_adj) as [g|] eqn:Eg; [|vm_compute in Eg; discriminate].
  destruct (cch_contract g bu_order bu_order) as [c|] eqn:Ec; [|vm_compute in Eg; injection Eg as <-; vm_compute in Ec; discriminate].
  destruct (customize c g) as [kc|] eqn:Eu; [|vm_compute in Eg; injection Eg as <-; vm_compute in Ec; injection Ec as <-; vm_compute in Eu; discriminate].
  destruct (bnn_history (length bu_adj) kc bsort (bnn_new (length bu_adj), []) [BnSelect [1]]) as [s|] eqn:Es;
    [|vm_compute in Eg; injection Eg as <-; vm_compute in Ec; injection Ec as <-; vm_compute in Eu; injection Eu as <-; vm_compute in Es; discriminate].
  exists bu_adj, g, bu_order, c, kc, [1], 0, s, 1, INF.
  split; [apply valid_check; vm_compute; reflexivity|]. split; [split; vm_compute; reflexivity|]. split; [exact Eg|]. split; [apply order_check; vm_compute; reflexivity|]. split; [exact Ec|].
  split. { left. split; [reflexivity|exists g; auto]. }
  vm_compute in Eg. injection Eg as <-. vm_compute in Ec. injection Ec as <-. vm_compute in Eu. injection Eu as <-.
  split. { apply (light_checked _ _ 2); [vm_compute; reflexivity|]. intros u L. do 2 (destruct u as [|u]; [lia|]). unfold link_iter, range; cbn -[nth_error]. destruct u as [|u]; [reflexivity|]. cbn. destruct u; reflexivity. }
  split; [apply bsort_ok|]. split. { split; [repeat constructor; cbn; intuition discriminate|]. intros t [<-|[]]; vm_compute; lia. } split; [vm_compute; lia|]. split; [exact Es|].
  split; [|split; [cbn; auto|]].
  - vm_compute in Es. injection Es as <-. vm_compute. reflexivity.
  - intros l H. inversion H as [|? ? ? ? ? I ?]; subst. vm_compute in I. tauto.
Qed.
Print Assumptions C53_unreachable_target_returned_refuted.

(** Two way streets: the hypotheses hold, and three of four targets are asked for. *)
Definition bt_adj : list (list (nat * N)) := [[(3, 4%N); (4, 1%N)]; [(2, 2%N); (3, 7%N)]; [(1, 2%N); (4, 5%N)]; [(0, 4%N); (1, 7%N)]; [(0, 1%N); (2, 5%N)]].
Example C53_nonvacuous :
  valid_adj bt_adj /\ fits_u32 bt_adj /\ node_order (length bt_adj) bn_order bn_order /\ bucket_sort bsort /\
  (g <- from_adjacency_lists bt_adj ;; c <- cch_contract g bn_order bn_order ;; k <- customize c g ;;
   s <- bnn_history 5 k bsort (bnn_new 5, []) [BnSelect [1; 2]; BnQuery 3 1; BnSelect [3; 0; 1; 2]; BnQuery 2 2] ;;
   r <- bnn_answer 5 k s 4 3 ;; Some (light_check 5 (link_iter (k_bw k)) 5, r)) = Some (true, [(5%N, 2); (1%N, 0); (5%N, 3)]).
Proof.
  split; [apply valid_check; vm_compute; reflexivity|]. split; [split; vm_compute; reflexivity|]. split; [apply order_check; vm_compute; reflexivity|]. split; [apply bsort_ok|]. vm_compute. reflexivity.
Qed.
