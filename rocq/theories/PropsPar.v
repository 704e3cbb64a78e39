(** Statements about node orders, separator trees and parallel customization. *)
From Coq Require Import Sorting.Sorted.
From Verif Require Import Base SpecGraph SpecCCH BitVec Graph ExTab CCH CCHTheory CCHContractProof CCHBuildProof CCHCustProof CCHMetricProof
  NodeOrder NodeOrderProof SepTree SepTreeProof CCHPar CCHParProof CCHParTreeProof ReorderProof PropsCCH.

(** ** C09: node orders *)

(** [perm_vec v]: the vector lists each of 0..n-1 exactly once. *)
Theorem C09_node_order_is_a_bijection :
  forall debug v, Permutation v (seq 0 (length v)) -> (N.of_nat (length v) < U32MAX)%N ->
  exists o p, from_node_order debug v = Some o /\ from_ranks debug v = Some p /\
  no_order o = v /\ no_ranks p = v /\
  (* rank and node are mutually inverse, and defined for all nodes *)
  (forall x r, no_rank o x = Some r <-> no_node o r = Some x) /\ (forall x r, no_rank p x = Some r <-> no_node p r = Some x) /\
  (forall x, x < length v -> exists r, no_rank o x = Some r /\ r < length v) /\ (forall x, x < length v -> exists r, no_rank p x = Some r /\ r < length v) /\
  (* the round trips through ranks (what is saved) and order *)
  from_ranks debug (no_ranks o) = Some o /\ from_node_order debug (no_order p) = Some p /\
  (* reordering a vector and back *)
  (forall A (l : list A) l', length l = length v -> mapM (fun x => nth_error l x) (no_order o) = Some l' -> mapM (fun r => nth_error l' r) (no_ranks o) = Some l).
Proof.
  intros debug v HP HN. destruct (invert_ok debug v HP HN) as (r & E & L & K).
  assert (HPr : perm_vec r).
  { apply NoDup_bound_perm.
    - apply NoDup_nth_error. intros i j Hi He. destruct (nth_error r i) as [a|] eqn:Ei; [|apply nth_error_None in Ei; lia].
      symmetry in He. apply K in Ei. apply K in He. congruence.
    - intros a Ha. apply In_nth_error in Ha as (x & Hx). apply K in Hx. apply nth_error_Some_lt in Hx. lia. }
  destruct (invert_ok debug r HPr) as (v' & E' & L' & K'); [rewrite L; auto|].
  assert (v' = v). { apply list_ext. intros i. destruct (nth_error v i) as [x|] eqn:Ex.
    - apply K' . apply K. auto.
    - apply nth_error_None. apply nth_error_None in Ex. lia. } subst v'.
  exists (mkOrder v r), (mkOrder r v). unfold from_node_order, from_ranks. rewrite E. cbn [bind]. split; auto. split; auto. split; auto. split; auto.
  unfold no_rank, no_node. cbn [no_order no_ranks]. split. { intros x i. symmetry. apply K. } split. { intros x i. apply K. }
  assert (T1 : forall x, x < length v -> exists i, nth_error r x = Some i /\ i < length v).
  { intros x Hx. destruct (nth_error r x) as [i|] eqn:Ei. 2: { apply nth_error_None in Ei. lia. } exists i. split; auto. apply K, nth_error_Some_lt in Ei. auto. }
  assert (T2 : forall x, x < length v -> exists i, nth_error v x = Some i /\ i < length v).
  { intros x Hx. destruct (nth_error v x) as [i|] eqn:Ei. 2: { apply nth_error_None in Ei. lia. } exists i. split; auto. apply K, nth_error_Some_lt in Ei. lia. }
  split; auto. split; auto. rewrite E', ?E. cbn [bind]. split; auto. split; auto.
  intros A l l' Hl M. assert (Ll : length l' = length v). { apply mapM_inv in M. apply Forall2_len in M. auto. }
  apply mapM_inv in M. destruct (mapM_ok (fun i => nth_error l' i) r) as (l2 & E2 & F2).
  { intros i Hi. apply In_nth_error in Hi as (x & Hx). apply K, nth_error_Some_lt in Hx. destruct (nth_error l' i) eqn:Ei; eauto. apply nth_error_None in Ei. lia. }
  rewrite E2. f_equal. apply list_ext. intros x. pose proof (Forall2_len _ _ _ F2) as Lr.
  destruct (Nat.lt_ge_cases x (length v)) as [Hx|Hx].
  - destruct (T1 x Hx) as (i & Ei & Hi). destruct (Forall2_nth _ _ _ _ _ F2 Ei) as (b & Eb & G2). pose proof (proj2 (K i x) Ei) as Ev.
    destruct (Forall2_nth _ _ _ _ _ M Ev) as (b' & Eb' & G1). congruence.
  - rewrite (proj2 (nth_error_None l2 x)), (proj2 (nth_error_None l x)) by lia. auto.
Qed.
Print Assumptions C09_node_order_is_a_bijection.

(** In a debug build nothing else is accepted. *)
Theorem C09_only_permutations :
  forall v o, from_node_order true v = Some o \/ from_ranks true v = Some o -> Permutation v (seq 0 (length v)).
Proof.
  intros v o [H|H]; unfold from_node_order, from_ranks in H; (destruct (invert_vec true v) as [r|] eqn:E; [|discriminate]); eapply invert_perm; eauto.
Qed.
Print Assumptions C09_only_permutations.
Theorem C09_identity : forall n x, x < n -> no_rank (no_identity n) x = Some x /\ no_node (no_identity n) x = Some x.
Proof. intros n x Hx. unfold no_rank, no_node, no_identity. cbn. rewrite (nth_error_nth' _ 0), seq_nth by (rewrite ?seq_length; auto). auto. Qed.
Print Assumptions C09_identity.
(** not an involution, so order and ranks differ *)
Example C09_nonvacuous : Permutation [2; 0; 3; 1] (seq 0 4) /\ from_node_order true [2; 0; 3; 1] = Some (mkOrder [2; 0; 3; 1] [1; 3; 0; 2]) /\ from_node_order true [1; 1] = None.
Proof. split; [|vm_compute; auto]. apply NoDup_Permutation; [repeat constructor; cbn; lia|apply seq_NoDup|]. intros x. rewrite in_seq. cbn. lia. Qed.

(** ** C41: separator trees *)

(** The elimination tree of any CCH is a forest with parents above their children. *)
Inductive subtree : septree -> septree -> Prop :=
| sub_refl t : subtree t t
| sub_child t c t' : In c (st_children t) -> subtree c t' -> subtree t t'.
Theorem C41_separator_tree_covers_nodes :
  forall elim, (forall x p, nth_error elim x = Some (Some p) -> x < p < length elim) ->
  exists t, sep_new elim = Some t /\
  (* each node exactly once *)
  Permutation (to_ordering t) (seq 0 (length elim)) /\
  (* sizes of all subtrees; each subtree has nodes, and these are the descendants of the highest one *)
  (forall s, subtree t s -> st_num s = length (to_ordering s)) /\
  (forall c s, In c (st_children t) -> subtree c s -> exists r, hd_error (to_ordering s) = Some r /\ forall z, In z (to_ordering s) <-> ancestor elim z r).
Proof.
  intros elim H. assert (HF : forest (length elim) elim) by (split; auto). destruct (sep_new_ok _ _ HF) as (subs & E & F & T & ND & HI).
  eexists. split; [exact E|]. cbn [to_ordering st_children sn_new sn_list]. change (sn_list sn_new) with (@nil nat). cbn [app].
  assert (G : forall c s, subtree c s -> (exists r, sep_ok elim r c) -> exists r, sep_ok elim r s).
  { induction 1; auto. intros (r & Hr). apply IHsubtree. inversion Hr; subst. cbn in H0. destruct (Forall2_In_r _ _ _ _ H4 H0) as (r' & _ & Hr'). eauto. }
  split. { apply NoDup_Permutation; auto. apply seq_NoDup. intros x. rewrite HI, in_seq. lia. }
  assert (P : Permutation (flat_map to_ordering subs) (seq 0 (length elim))). { apply NoDup_Permutation; auto. apply seq_NoDup. intros x. rewrite HI, in_seq. lia. }
  split.
  - intros s Hs. inversion Hs; subst. { cbn [st_num to_ordering]. change (sn_list sn_new) with (@nil nat). cbn [app]. apply Permutation_length in P. rewrite seq_length in P. auto. }
    cbn in H0. destruct (Forall2_In_r _ _ _ _ F H0) as (r' & _ & Hr'). destruct (G _ _ H1) as (r & Hr); eauto. symmetry. eapply sep_nodes; eauto.
  - intros c s Hc Hs. destruct (Forall2_In_r _ _ _ _ F Hc) as (r' & _ & Hr'). destruct (G _ _ Hs) as (r & Hr); eauto. exists r. split.
    + pose proof (sep_high elim _ _ Hr) as Hh. rewrite sn_high_list in Hh. destruct s as [sn l k]. cbn in *. destruct (sn_list sn); [discriminate|]. auto.
    + eapply sep_nodes; eauto.
Qed.
Print Assumptions C41_separator_tree_covers_nodes.

(** The order with fixed layout: a permutation, as good as the given order, and its separator tree validates. Validation of
    an empty graph fails (see below), so there must be a node. [size_sort] is the contract of sort_unstable_by_key by size. *)
Theorem C41_reordered_order_validates :
  forall adj g order ranks c sort debug, valid_adj adj -> fits_u32 adj -> from_adjacency_lists adj = Some g -> node_order (length adj) order ranks ->
  cch_contract g order ranks = Some c -> 0 < length adj ->
  (forall l, Permutation (sort l) l /\ StronglySorted le (map st_num (sort l))) ->
  exists t o c' sep, sep_new (c_elim c) = Some t /\ reorder_for_sep sort debug order t = Some o /\ node_order (length adj) (no_order o) (no_ranks o) /\
    cch_contract g (no_order o) (no_ranks o) = Some c' /\ fix_order_and_build sort debug g order ranks = Some c' /\ cch_arcs c' <= cch_arcs c /\
    sep_new (c_elim c') = Some sep /\ validate sep = Some tt.
Proof. intros. eapply reorder_cch; eauto. Qed.
Print Assumptions C41_reordered_order_validates.
(** So the CCH of fix_order_and_build can be customized in parallel, see C27. *)

(** The other two reorderings give permutations; [rs] is the sorting of the nodes of one separator by geographic position. *)
Theorem C41_reorderings_are_permutations :
  forall n elim order ranks debug, (forall x p, nth_error elim x = Some (Some p) -> x < p < length elim) -> length elim = n -> (N.of_nat n < U32MAX)%N -> node_order n order ranks ->
  exists t, sep_new elim = Some t /\
  (exists o, reorder_bfs debug order t = Some o /\ node_order n (no_order o) (no_ranks o)) /\
  forall rs, (forall l, Permutation (rs l) l) -> exists o, reorder_geo rs debug order t = Some o /\ node_order n (no_order o) (no_ranks o).
Proof.
  intros n elim order ranks debug H L HN HO. destruct (C41_separator_tree_covers_nodes elim H) as (t & E & P & _). rewrite L in P. exists t. split; auto. split.
  - unfold reorder_bfs. destruct (bfs_ok (st_count t) [t] []) as (l & -> & Pl). { cbn. lia. } cbn [app flat_map bind] in *. rewrite app_nil_r in Pl.
    destruct (order_from_list debug n order ranks l HO HN) as (lo & o & -> & Eo & Ho & _). { rewrite Pl; auto. } exists o. auto.
  - intros rs HR. unfold reorder_geo. destruct (order_from_list debug n order ranks (to_ordering (reorder_tree rs 0 t)) HO HN) as (lo & o & -> & Eo & Ho & _).
    { rewrite (reorder_tree_perm rs HR). auto. } exists o. auto.
Qed.
Print Assumptions C41_reorderings_are_permutations.

(** The empty graph does not validate: num_nodes - 1 underflows. *)
Theorem C41_empty_graph_does_not_validate_refuted : exists t, sep_new [] = Some t /\ validate t = None.
Proof. eexists. split; vm_compute; reflexivity. Qed.
Print Assumptions C41_empty_graph_does_not_validate_refuted.

(** an order whose separator tree does not validate, and the fixed one. Insertion sort by size. *)
Fixpoint st_ins (t : septree) (l : list septree) : list septree := match l with [] => [t] | a :: l' => if st_num t <=? st_num a then t :: l else a :: st_ins t l' end.
Definition st_sort (l : list septree) : list septree := fold_right st_ins [] l.
Lemma st_ins_perm t l : Permutation (st_ins t l) (t :: l).
Proof. induction l as [|a l IH]; cbn; auto. destruct (_ <=? _); auto. rewrite IH. constructor. Qed.
Example C41_sort_exists : forall l, Permutation (st_sort l) l /\ StronglySorted le (map st_num (st_sort l)).
Proof.
  induction l as [|t l [P S]]; cbn; [split; constructor|]. split. { rewrite st_ins_perm, P. auto. } fold (st_sort l). clear P. induction (st_sort l) as [|a l' IH]; cbn. { repeat constructor. }
  cbn in S. apply StronglySorted_inv in S as [S1 S2]. destruct (Nat.leb_spec (st_num t) (st_num a)).
  - cbn. constructor; [constructor; auto|]. constructor; auto. eapply Forall_impl; [|exact S2]. cbn. intros; lia.
  - cbn. constructor; auto. rewrite Forall_forall in *. intros x Hx. apply in_map_iff in Hx as (y & <- & Hy). eapply Permutation_in in Hy; [|apply st_ins_perm]. destruct Hy as [<-|Hy]; [lia|]. apply S2. apply in_map. auto.
Qed.
Definition rx_adj : list (list (nat * N)) := [[(1, 3%N)]; [(2, 2%N)]; [(3, 1%N)]; [(4, 4%N)]; [(5, 2%N)]; [(6, 1%N)]; []].
Definition rx_order : list nat := [0; 6; 2; 5; 1; 4; 3].
Definition rx_ranks : list nat := [0; 4; 2; 6; 5; 3; 1].
Example C41_nonvacuous :
  valid_adj rx_adj /\ fits_u32 rx_adj /\ node_order (length rx_adj) rx_order rx_ranks /\
  (g <- from_adjacency_lists rx_adj ;; c <- cch_contract g rx_order rx_ranks ;; t <- sep_new (c_elim c) ;; validate t) = None /\
  (g <- from_adjacency_lists rx_adj ;; c <- fix_order_and_build st_sort true g rx_order rx_ranks ;; t <- sep_new (c_elim c) ;; _ <- validate t ;; Some (c_order c, t)) =
    Some ([6; 5; 4; 2; 0; 1; 3], Sep (Consecutive 0 0) [Sep (Consecutive 6 7) [Sep (Consecutive 0 3) [] 3; Sep (Consecutive 5 6) [Sep (Consecutive 3 4) [] 1; Sep (Consecutive 4 5) [] 1] 3] 7] 7).
Proof.
  split; [apply valid_check; vm_compute; reflexivity|]. split; [split; vm_compute; reflexivity|]. split; [apply order_check; vm_compute; reflexivity|].
  split; vm_compute; reflexivity.
Qed.

(** ** C27: parallel customization *)

(** Any interleaving of the steps of the tasks, for any number of threads and whatever the workspaces contain:
    no step panics, it never gets stuck, it ends after boundedly many steps, and the result is the one of the sequential routine. *)
Theorem C27_parallel_customization_schedule_independent :
  forall adj g order ranks c madj metric k, valid_adj adj -> fits_u32 adj -> from_adjacency_lists adj = Some g -> node_order (length adj) order ranks ->
  cch_contract g order ranks = Some c -> same_topology adj madj -> from_adjacency_lists madj = Some metric -> customize c metric = Some k ->
  forall sep threads, sep_new (c_elim c) = Some sep -> validate sep = Some tt ->
  exists up dn task bound,
    prepare_weights (c_fw_orig c) metric (repeat INF (cch_arcs c)) = Some up /\ prepare_weights (c_bw_orig c) metric (repeat INF (cch_arcs c)) = Some dn /\
    par_customize c threads sep = Some task /\
    (exists j s t, tsteps (length adj) j (par_init c up dn) task s t /\ finished t) /\
    forall j s t, tsteps (length adj) j (par_init c up dn) task s t ->
      ~ tpanic s t /\ (finished t \/ exists s' t', tstep (length adj) s t s' t') /\ j <= bound /\
      (finished t -> forall wo wi, customized_of c (mkCst (h_up s) (h_dn s) (h_upu s) (h_dnu s) wo wi) = Some k).
Proof.
  intros adj g order ranks c madj metric k HV HF Hg HO E HT Hm Ek sep threads Hs V. destruct (cch_contract_ok _ _ _ _ _ HV HF Hg HO E) as (nodes & HK).
  destruct (prepare_ok adj order ranks nodes c HK madj metric HT (topo_valid _ _ HT HV) (topo_fits _ _ HT HF) Hm (c_fw_orig c) (fun u v => (u, v)) (co_fwl _ _ _ _ _ HK) (co_fw _ _ _ _ _ HK)) as (up0 & E1 & L1 & S1 & _).
  destruct (prepare_ok adj order ranks nodes c HK madj metric HT (topo_valid _ _ HT HV) (topo_fits _ _ HT HF) Hm (c_bw_orig c) (fun u v => (v, u)) (co_bwl _ _ _ _ _ HK) (co_bw _ _ _ _ _ HK)) as (dn0 & E2 & L2 & S2 & _).
  assert (Em : cch_arcs c = length (concat nodes)) by (unfold cch_arcs; rewrite (co_head _ _ _ _ _ HK); reflexivity).
  assert (Su : small nodes up0) by (split; auto). assert (Sd : small nodes dn0) by (split; auto).
  destruct (customize_basic_ok adj order ranks nodes c HK up0 dn0 Su Sd) as (s & E3 & H3).
  destruct (par_customize_ok adj order ranks nodes c HK up0 dn0 Su Sd threads sep Hs V) as (tk & Et & Ht).
  assert (INV : forall j s t, tsteps (length adj) j (par_init c up0 dn0) tk s t -> tinv adj nodes c up0 dn0 s 0 (length adj) t).
  { intros j s0 t H. eapply (tsteps_inv adj order ranks nodes c HK up0 dn0 Su Sd j _ _ _ _ H); eauto. }
  exists up0, dn0, tk, (tsize tk). rewrite Em. split; auto. split; auto. split; auto. split.
  { assert (G : forall b s t, tsize t < b -> tinv adj nodes c up0 dn0 s 0 (length adj) t -> exists j s' t', tsteps (length adj) j s t s' t' /\ finished t').
    { induction b as [|b IH]; intros s0 t Hb Hi; [lia|]. destruct (tinv_progress adj order ranks nodes c HK up0 dn0 s0 t _ _ Hi) as [Fi|(s' & t' & Hst)].
      - exists 0, s0, t. split; auto. constructor.
      - pose proof (tstep_size _ _ _ _ _ Hst). destruct (tstep_inv adj order ranks nodes c HK up0 dn0 Su Sd _ _ _ _ Hst _ _ Hi) as (Hi' & _).
        destruct (IH s' t') as (j & s2 & t2 & Hj & Hf); [lia|auto|]. exists (S j), s2, t2. split; auto. econstructor; eauto. }
    eapply (G (S (tsize tk))); eauto. }
  intros j s0 t H. pose proof (INV _ _ _ H) as Hi. split. { eapply (tinv_safe adj order ranks nodes c HK up0 dn0); eauto. }
  split. { eapply (tinv_progress adj order ranks nodes c HK up0 dn0); eauto. } split. { apply tsteps_size in H. lia. }
  intros Fi wo wi. destruct (par_final adj order ranks nodes c HK up0 dn0 s0 t s Hi Fi H3) as (U & D & UU & DU).
  unfold customize in Ek. rewrite Em, E1 in Ek. cbn [bind] in Ek. rewrite E2 in Ek. cbn [bind] in Ek. rewrite E3 in Ek. cbn [bind] in Ek.
  unfold customized_of in *. cbn [s_up s_dn s_upu s_dnu]. rewrite U, D, UU, DU. exact Ek.
Qed.
Print Assumptions C27_parallel_customization_schedule_independent.

(** a path of seven nodes with a chord; the separator tree has two cells of different size below the top separator *)
Definition px_adj : list (list (nat * N)) := [[(1, 3%N); (2, 4%N)]; [(2, 2%N); (0, 1%N)]; [(3, 1%N); (1, 0%N)]; [(4, 4%N)]; [(5, 2%N); (3, 9%N)]; [(6, 1%N)]; [(5, 8%N)]].
Definition px_order : list nat := [0; 2; 1; 6; 5; 4; 3].
Definition px_ranks : list nat := [0; 2; 1; 6; 5; 4; 3].
Example C27_C41_nonvacuous :
  valid_adj px_adj /\ fits_u32 px_adj /\ node_order (length px_adj) px_order px_ranks /\
  (g <- from_adjacency_lists px_adj ;; c <- cch_contract g px_order px_ranks ;; k <- customize c g ;; sep <- sep_new (c_elim c) ;; _ <- validate sep ;;
   tk <- par_customize c 2 sep ;;
   Some (c_elim c, sep, match tk with TScope [TScope [TScope [] a b l; TScope [] a' b' l'] _ _ after] lo hi [] => Some (a, b, length l, a', b', length l', lo, hi, length after) | _ => None end))
  = Some ([Some 1; Some 2; Some 6; Some 4; Some 5; Some 6; None],
     Sep (Consecutive 0 0) [Sep (Consecutive 6 7) [Sep (Consecutive 0 3) [] 3; Sep (Consecutive 3 6) [] 3] 7] 7, Some (0, 5, 40, 5, 8, 22, 0, 8, 6)).
Proof.
  split; [apply valid_check; vm_compute; reflexivity|]. split; [split; vm_compute; reflexivity|]. split; [apply order_check; vm_compute; reflexivity|].
  vm_compute. reflexivity.
Qed.
