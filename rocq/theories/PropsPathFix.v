(** Properties C62 (naive search), C63 (fixing violating subpaths) and C64 (local optimality). *)
From Coq Require Import Sorting.Sorted.
From Verif Require Import Base SpecGraph SpecCCH BitVec LoopProof Graph CCH CCHQuery CCHPerfect CCHRebuild CCHPerfectView PropsCCH PropsPerfect SpecUBS UBS UBSProof PropsUBS PathPot SpecPathPot PathPotProof PathPotView CUBSProof CCHMetricProof PropsCUBS SpecPathFix PathFix PathFixProof.

(** the calls a history may contain *)
Definition op_ok (madj : list (list (nat * N))) (op : pf_op) : Prop :=
  match op with
  | PfFind p => good_path madj p
  | PfNaive p | PfLocal p => NoDup p /\ exists x, finite_path madj p x
  | PfFix p => exists x, finite_path madj p x
  end.

Section Use.
  Variables adj madj : list (list (nat * N)).
  Variables g mg : fograph N.
  Variables order ranks : list nat.
  Variable c : cch.
  Variable k : customized.
  Hypothesis HV : valid_adj adj.
  Hypothesis HF : fits_u32 adj.
  Hypothesis Hg : from_adjacency_lists adj = Some g.
  Hypothesis HO : node_order (length adj) order ranks.
  Hypothesis E : cch_contract g order ranks = Some c.
  Hypothesis HT : same_topology adj madj.
  Hypothesis Hmg : from_adjacency_lists madj = Some mg.
  Hypothesis Hc : customize c mg = Some k.
  Hypothesis Hpos : positive madj.
  Hypothesis HWm : forall l v w, In l madj -> In (v, w) l -> (w <= INF)%N.
  Lemma pf_setup : valid_adj madj /\ length madj = length adj /\ exists d, pot_data c k = Some d /\ exists It Is, CUOK adj It Is (cubs_new d) /\
    forall dbg, tree_for adj dbg (rank_arc order (adj_arc madj)) It /\ tree_for adj dbg (flip_arc (rank_arc order (adj_arc madj))) Is.
  Proof.
    assert (Hm : metric_for adj c madj k) by (split; eauto).
    destruct (perfect_exists _ _ _ _ _ _ _ HV HF Hg HO E Hm) as (nodes & up0 & dn0 & s & S & HK & HVm & HR & L & F & EW & EP). split; [exact HVm|].
    assert (Ln : length madj = length adj). { pose proof (f_equal (@length _) HT) as Q. rewrite !map_length in Q. auto. } split; [exact Ln|].
    set (d := (perfect_cust adj order ranks nodes c s S, perfect_tail adj nodes c s S)). exists d. split. { eapply pot_data_ok; eauto. }
    exists (base_f adj order ranks nodes c s S), (base_b adj order ranks nodes c s S). split.
    - assert (R : forall k, all_none (repeat None k) = true) by (induction k0; auto).
      pose proof (num_kp adj order ranks nodes c HK madj HT HVm up0 dn0 s k HR S L F) as Nk.
      constructor; unfold cubs_new, d; cbn [cu_t cu_s cu_cache cu_ranks fst]; rewrite ?repeat_length; auto.
      + eapply (new_f adj order ranks nodes c HK madj HT HVm up0 dn0 s k HR S L F).
      + eapply (new_b adj order ranks nodes c HK madj HT HVm up0 dn0 s k HR S L F).
    - intros dbg. split; [exact (tree_f adj order ranks nodes c HK madj HT HVm up0 dn0 s k HR S L F Hpos dbg)|exact (tree_b adj order ranks nodes c HK madj HT HVm up0 dn0 s k HR S L F Hpos dbg)].
  Qed.
  Lemma pf_use : exists d, pot_data c k = Some d /\
    forall dbg sort sort_start thr ops, cmp_sort rg_ltb sort -> cmp_sort (fun a b => fst a <? fst b) sort_start -> (forall a b, (a <= b)%N -> (thr a <= thr b)%N) -> Forall (op_ok madj) ops ->
    exists u, pf_history dbg mg order ranks sort sort_start thr (cubs_new d) ops = Some u /\
    forall path x, finite_path madj path x ->
      (NoDup path -> exists u' r, cubs_naive dbg mg ranks sort thr u path = Some (u', r) /\ lists_minimal (violates (adj_arc madj) thr path) r) /\
      (NoDup path -> exists u' lo, cubs_local dbg mg ranks u path = Some (u', (lo, x)) /\ locally_optimal_up_to (adj_arc madj) path x lo) /\
      exists u' o, fix_paths dbg mg order ranks sort sort_start thr u path = Some (u', o) /\
        match o with
        | None => fine (adj_arc madj) thr path
        | Some p => ~ fine (adj_arc madj) thr path /\ fine (adj_arc madj) thr p /\ same_ends path p /\ exists y, plen (adj_arc madj) p y /\ (y < x)%N
        end.
  Proof.
    destruct pf_setup as (HVm & Ln & d & Ed & It & Is & HU & HT'). exists d. split; [exact Ed|].
    assert (HOm : node_order (length madj) order ranks) by (rewrite Ln; exact HO). pose proof (topo_fits _ _ HT HF) as HFm.
    intros dbg sort sort_start thr ops Hs Hss Ht Hops. destruct (HT' dbg) as [TF TB].
    assert (HN := fun u p x => cubs_naive_ok adj madj order ranks mg Ln HVm HFm HWm Hmg HOm Hpos dbg It Is TB sort Hs thr Ht u p x).
    assert (HL := fun u p x => cubs_local_ok adj madj order ranks mg Ln HVm HFm HWm Hmg HOm dbg It Is TF TB u p x).
    assert (HX := fun u p x => fix_paths_ok adj madj order ranks mg Ln HVm HFm HWm Hmg HOm Hpos dbg It Is TF TB sort Hs thr Ht sort_start Hss u p x).
    assert (Hh : exists u, pf_history dbg mg order ranks sort sort_start thr (cubs_new d) ops = Some u /\ CUOK adj It Is u).
    { unfold pf_history. revert HU. generalize (cubs_new d). induction Hops as [|op ops Ho Hops IH]; intros u HU; cbn [foldM]; [eauto|].
      destruct op as [p|p|p|p]; cbn [op_ok pf_step] in *.
      - destruct (cubs_history_ok adj madj order ranks mg Ln HVm HFm HWm Hmg HOm Hpos dbg It Is TF TB sort Hs thr Ht u [p] HU ltac:(auto)) as (u' & Eh & HU'). unfold cubs_history in Eh. cbn [foldM] in Eh.
        destruct (cubs_find dbg mg ranks sort thr u p) as [[u1 r]|]; cbn [bind] in *; [|discriminate]. injection Eh as ->. auto.
      - destruct Ho as (ND & x & G1 & G2 & G3). rewrite Ln in G1. destruct (HN u p x HU ND G1 G2 G3) as (u' & r & E1 & HU' & _). rewrite E1. cbn [bind]. auto.
      - destruct Ho as (ND & x & G1 & G2 & G3). rewrite Ln in G1. destruct (HL u p x HU ND G1 G2 G3) as (u' & r & E1 & HU' & _). rewrite E1. cbn [bind]. auto.
      - destruct Ho as (x & G1 & G2 & G3). rewrite Ln in G1. destruct (HX u p x HU G1 G2 G3) as (u' & r & E1 & HU' & _). rewrite E1. cbn [bind]. auto. }
    destruct Hh as (u & Eu & HU'). exists u. split; [exact Eu|]. intros path x (G1 & G2 & G3). rewrite Ln in G1. split; [|split].
    - intros ND. destruct (HN u path x HU' ND G1 G2 G3) as (u' & r & E1 & _ & H). eauto.
    - intros ND. destruct (HL u path x HU' ND G1 G2 G3) as (u' & r & E1 & _ & H). eauto.
    - destruct (HX u path x HU' G1 G2 G3) as (u' & r & E1 & _ & H). eauto.
  Qed.
End Use.

(** For every CCH, every metric with positive weights and every history of calls: the naive search lists exactly the minimal violating subpaths too *)
Theorem C62_naive_search :
  forall adj g order ranks c, valid_adj adj -> fits_u32 adj -> from_adjacency_lists adj = Some g -> node_order (length adj) order ranks ->
  cch_contract g order ranks = Some c ->
  forall madj mg k, same_topology adj madj -> from_adjacency_lists madj = Some mg -> customize c mg = Some k ->
  positive madj -> (forall l v w, In l madj -> In (v, w) l -> (w <= INF)%N) ->
  exists d, pot_data c k = Some d /\
  forall dbg sort sort_start thr ops, cmp_sort rg_ltb sort -> cmp_sort (fun a b => fst a <? fst b) sort_start -> (forall a b, (a <= b)%N -> (thr a <= thr b)%N) -> Forall (op_ok madj) ops ->
  exists u, pf_history dbg mg order ranks sort sort_start thr (cubs_new d) ops = Some u /\
  forall path x, finite_path madj path x -> NoDup path ->
  exists u' r, cubs_naive dbg mg ranks sort thr u path = Some (u', r) /\ lists_minimal (violates (adj_arc madj) thr path) r.
Proof.
  intros adj g order ranks c HV HF Hg HO E madj mg k HT Hmg Hc Hpos HWm. destruct (pf_use adj madj g mg order ranks c k HV HF Hg HO E HT Hmg Hc Hpos HWm) as (d & Ed & H). exists d. split; [exact Ed|].
  intros dbg sort sort_start thr ops H1 H2 H3 H4. destruct (H dbg sort sort_start thr ops H1 H2 H3 H4) as (u & Eu & Hu). exists u. split; [exact Eu|]. intros path x Hp. apply (proj1 (Hu path x Hp)).
Qed.
Print Assumptions C62_naive_search.

(** Fixing: it ends; it answers that there is nothing to fix exactly if no node repeats and no subpath violates the threshold; otherwise it returns a strictly
    shorter path with the same ends and without violations *)
Theorem C63_fixed_paths :
  forall adj g order ranks c, valid_adj adj -> fits_u32 adj -> from_adjacency_lists adj = Some g -> node_order (length adj) order ranks ->
  cch_contract g order ranks = Some c ->
  forall madj mg k, same_topology adj madj -> from_adjacency_lists madj = Some mg -> customize c mg = Some k ->
  positive madj -> (forall l v w, In l madj -> In (v, w) l -> (w <= INF)%N) ->
  exists d, pot_data c k = Some d /\
  forall dbg sort sort_start thr ops, cmp_sort rg_ltb sort -> cmp_sort (fun a b => fst a <? fst b) sort_start -> (forall a b, (a <= b)%N -> (thr a <= thr b)%N) -> Forall (op_ok madj) ops ->
  exists u, pf_history dbg mg order ranks sort sort_start thr (cubs_new d) ops = Some u /\
  forall path x, finite_path madj path x ->
  exists u' o, fix_paths dbg mg order ranks sort sort_start thr u path = Some (u', o) /\
    (o = None <-> fine (adj_arc madj) thr path) /\
    forall p, o = Some p -> fine (adj_arc madj) thr p /\ same_ends path p /\ exists y, plen (adj_arc madj) p y /\ (y < x)%N.
Proof.
  intros adj g order ranks c HV HF Hg HO E madj mg k HT Hmg Hc Hpos HWm. destruct (pf_use adj madj g mg order ranks c k HV HF Hg HO E HT Hmg Hc Hpos HWm) as (d & Ed & H). exists d. split; [exact Ed|].
  intros dbg sort sort_start thr ops H1 H2 H3 H4. destruct (H dbg sort sort_start thr ops H1 H2 H3 H4) as (u & Eu & Hu). exists u. split; [exact Eu|]. intros path x Hp. destruct (Hu path x Hp) as (_ & _ & u' & o & Eo & Ho).
  exists u', o. split; [exact Eo|]. destruct o as [p|].
  - destruct Ho as (N1 & R). split; [split; [discriminate|tauto]|]. intros ? [= <-]. exact R.
  - split; [tauto|]. discriminate.
Qed.
Print Assumptions C63_fixed_paths.

(** Local optimality of a path: the length of its shortest subpath that is no shortest path, or its own length; and its length *)
Theorem C64_local_optimality :
  forall adj g order ranks c, valid_adj adj -> fits_u32 adj -> from_adjacency_lists adj = Some g -> node_order (length adj) order ranks ->
  cch_contract g order ranks = Some c ->
  forall madj mg k, same_topology adj madj -> from_adjacency_lists madj = Some mg -> customize c mg = Some k ->
  positive madj -> (forall l v w, In l madj -> In (v, w) l -> (w <= INF)%N) ->
  exists d, pot_data c k = Some d /\
  forall dbg sort sort_start thr ops, cmp_sort rg_ltb sort -> cmp_sort (fun a b => fst a <? fst b) sort_start -> (forall a b, (a <= b)%N -> (thr a <= thr b)%N) -> Forall (op_ok madj) ops ->
  exists u, pf_history dbg mg order ranks sort sort_start thr (cubs_new d) ops = Some u /\
  forall path x, finite_path madj path x -> NoDup path ->
  exists u' lo, cubs_local dbg mg ranks u path = Some (u', (lo, x)) /\ locally_optimal_up_to (adj_arc madj) path x lo.
Proof.
  intros adj g order ranks c HV HF Hg HO E madj mg k HT Hmg Hc Hpos HWm. destruct (pf_use adj madj g mg order ranks c k HV HF Hg HO E HT Hmg Hc Hpos HWm) as (d & Ed & H). exists d. split; [exact Ed|].
  intros dbg sort sort_start thr ops H1 H2 H3 H4. destruct (H dbg sort sort_start thr ops H1 H2 H3 H4) as (u & Eu & Hu). exists u. split; [exact Eu|]. intros path x Hp. apply (proj1 (proj2 (Hu path x Hp))).
Qed.
Print Assumptions C64_local_optimality.

(** the sort by start index may be the same sort *)
Example rg_isort_start : cmp_sort (fun a b => fst a <? fst b) rg_isort.
Proof.
  intros l. destruct (rg_isort_ok l) as [P S]. split; [exact P|]. clear P. induction S as [|a l' S IH F]; constructor; [exact IH|]. clear - F. eapply Forall_impl; [|exact F]. intros b H. unfold rg_ltb in H. apply orb_false_iff in H. tauto.
Qed.
(** the graphs of C62_nonvacuous; one object answers a history of calls *)
Definition pf_run {T} (f : cubs -> option (cubs * T)) (ops : list pf_op) : option T :=
  c <- cch_contract cu_g cu_order cu_rks ;; k <- customize c ubs_g ;; d <- pot_data c k ;;
  u <- pf_history true ubs_g cu_order cu_rks rg_isort rg_isort ubs_thr (cubs_new d) ops ;; '(_, r) <- f u ;; Some r.
Definition pf_ops : list pf_op := [PfFix [0; 1; 2; 3; 6; 1; 3; 4; 5; 0]; PfLocal [0; 1; 3; 4]; PfNaive [1; 2; 3]; PfFind [0; 1; 2; 3; 4; 5]].
Example C63_nonvacuous :
  Forall (op_ok ubs_adj) pf_ops /\ (forall a b, (a <= b)%N -> (ubs_thr a <= ubs_thr b)%N) /\ finite_path ubs_adj [0; 1; 2; 3; 4; 5] 24%N /\
  pf_run (fun u => cubs_naive true ubs_g cu_rks rg_isort ubs_thr u [0; 1; 2; 3; 4; 5]) pf_ops = Some [(1, 3); (3, 5)] /\
  pf_run (fun u => cubs_local true ubs_g cu_rks u [0; 1; 2; 3; 4; 5]) pf_ops = Some (10%N, 24%N) /\
  pf_run (fun u => fix_paths true ubs_g cu_order cu_rks rg_isort rg_isort ubs_thr u [0; 1; 2; 3; 4; 5]) pf_ops = Some (Some [0; 1; 3; 6; 5]) /\
  pf_run (fun u => fix_paths true ubs_g cu_order cu_rks rg_isort rg_isort ubs_thr u [0; 1; 3; 6; 5]) pf_ops = Some None /\
  pf_run (fun u => fix_paths true ubs_g cu_order cu_rks rg_isort rg_isort ubs_thr u [0; 1; 2; 3; 6; 1; 3; 4; 5; 0]) pf_ops = Some (Some [0]).
Proof.
  assert (CH : forall u v w, existsb (fun a => (fst a =? v) && (snd a =? w)%N) (nth u ubs_adj []) = true -> forallb (fun a => negb (fst a =? v) || (w <=? snd a)%N) (nth u ubs_adj []) = true -> cheapest (adj_arc ubs_adj) u v w).
  { intros u v w H1 H2. split.
    - apply existsb_exists in H1. destruct H1 as ([v' w'] & Hin & H). apply andb_true_iff in H. cbn [fst snd] in H. rewrite Nat.eqb_eq, N.eqb_eq in H. destruct H as [-> ->]. exact Hin.
    - intros w' H. rewrite forallb_forall in H2. specialize (H2 _ H). cbn [fst snd] in H2. rewrite Nat.eqb_refl in H2. apply N.leb_le, H2. }
  assert (FP : forall p x, forallb (fun v => v <? 7) p = true -> plen (adj_arc ubs_adj) p x -> (x <? INF)%N = true -> finite_path ubs_adj p x).
  { intros p x H1 H2 H3. split; [|split; [auto|apply N.ltb_lt; auto]]. apply Forall_forall. intros v Hv. rewrite forallb_forall in H1. apply Nat.ltb_lt, H1, Hv. }
  assert (C01' : cheapest (adj_arc ubs_adj) 0 1 2) by (apply CH; reflexivity). assert (C12' : cheapest (adj_arc ubs_adj) 1 2 5) by (apply CH; reflexivity). assert (C13' : cheapest (adj_arc ubs_adj) 1 3 4) by (apply CH; reflexivity). assert (C23' : cheapest (adj_arc ubs_adj) 2 3 5) by (apply CH; reflexivity).
  assert (C34' : cheapest (adj_arc ubs_adj) 3 4 6) by (apply CH; reflexivity). assert (C36' : cheapest (adj_arc ubs_adj) 3 6 1) by (apply CH; reflexivity). assert (C45' : cheapest (adj_arc ubs_adj) 4 5 6) by (apply CH; reflexivity). assert (C50' : cheapest (adj_arc ubs_adj) 5 0 3) by (apply CH; reflexivity). assert (C61' : cheapest (adj_arc ubs_adj) 6 1 1) by (apply CH; reflexivity).
  assert (P1 : plen (adj_arc ubs_adj) [0; 1; 2; 3; 4; 5] 24) by (apply (plen_cons _ 0 1 _ 2 22); [auto|apply (plen_cons _ 1 2 _ 5 17); [auto|apply (plen_cons _ 2 3 _ 5 12); [auto|apply (plen_cons _ 3 4 _ 6 6); [auto|apply (plen_cons _ 4 5 _ 6 0); [auto|constructor]]]]]).
  assert (P2 : plen (adj_arc ubs_adj) [1; 3; 4; 5; 0] 19) by (apply (plen_cons _ 1 3 _ 4 15); [auto|apply (plen_cons _ 3 4 _ 6 9); [auto|apply (plen_cons _ 4 5 _ 6 3); [auto|apply (plen_cons _ 5 0 _ 3 0); [auto|constructor]]]]).
  assert (P3 : plen (adj_arc ubs_adj) [0; 1; 2; 3; 6; 1; 3; 4; 5; 0] 33) by (apply (plen_cons _ 0 1 _ 2 31); [auto|apply (plen_cons _ 1 2 _ 5 26); [auto|apply (plen_cons _ 2 3 _ 5 21); [auto|apply (plen_cons _ 3 6 _ 1 20); [auto|apply (plen_cons _ 6 1 _ 1 19); [auto|exact P2]]]]]).
  assert (P4 : plen (adj_arc ubs_adj) [0; 1; 3; 4] 12) by (apply (plen_cons _ 0 1 _ 2 10); [auto|apply (plen_cons _ 1 3 _ 4 6); [auto|apply (plen_cons _ 3 4 _ 6 0); [auto|constructor]]]).
  assert (P5 : plen (adj_arc ubs_adj) [1; 2; 3] 10) by (apply (plen_cons _ 1 2 _ 5 5); [auto|apply (plen_cons _ 2 3 _ 5 0); [auto|constructor]]).
  split.
  { unfold pf_ops. repeat apply Forall_cons; [| | | |apply Forall_nil]; cbn [op_ok].
    - exists 33%N. apply FP; auto.
    - split; [repeat constructor; cbn; intuition congruence|]. exists 12%N. apply FP; auto.
    - split; [repeat constructor; cbn; intuition congruence|]. exists 10%N. apply FP; auto.
    - destruct (FP [0; 1; 2; 3; 4; 5] 24%N eq_refl P1 eq_refl) as (A & B & C). split; [exact A|]. intros _. right. eauto. }
  split. { intros a b H. unfold ubs_thr. apply N.div_le_mono; [discriminate|auto]. }
  split. { apply FP; auto. }
  split; [vm_compute; reflexivity|]. split; [vm_compute; reflexivity|]. split; [vm_compute; reflexivity|]. split; vm_compute; reflexivity.
Qed.
