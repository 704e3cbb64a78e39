(** Property C62: minimal subpaths that are not (almost) shortest, found with path unpacking CCH potentials. *)
From Coq Require Import Sorting.Sorted.
From Verif Require Import Base SpecGraph SpecCCH BitVec Graph CCH CCHQuery CCHPerfect CCHRebuild CCHPerfectView PropsCCH PropsPerfect SpecUBS UBS UBSProof PropsUBS PathPot SpecPathPot PathPotProof PathPotView CUBSProof CCHMetricProof.

(** For every CCH, every metric with positive weights, every history of searches, in release and debug builds: the search succeeds and lists exactly the
    minimal subpaths that exceed the distance between their ends by more than the threshold; for a path with repeated nodes, the cycles. *)
Theorem C62_violating_subpaths :
  forall adj g order ranks c, valid_adj adj -> fits_u32 adj -> from_adjacency_lists adj = Some g -> node_order (length adj) order ranks ->
  cch_contract g order ranks = Some c ->
  forall madj mg k, same_topology adj madj -> from_adjacency_lists madj = Some mg -> customize c mg = Some k ->
  positive madj -> (forall l v w, In l madj -> In (v, w) l -> (w <= INF)%N) ->
  exists d, pot_data c k = Some d /\
  forall dbg sort thr paths, cmp_sort rg_ltb sort -> (forall a b, (a <= b)%N -> (thr a <= thr b)%N) -> Forall (good_path madj) paths ->
  exists u, cubs_history dbg mg ranks sort thr (cubs_new d) paths = Some u /\
  forall path, good_path madj path -> exists u' r, cubs_find dbg mg ranks sort thr u path = Some (u', r) /\
    (NoDup path -> lists_minimal (violates (adj_arc madj) thr path) r) /\
    (~ NoDup path -> r <> [] /\ StronglySorted (fun a b => snd a < snd b) r /\ forall q, In q r <-> revisit path q).
Proof.
  intros adj g order ranks c HV HF Hg HO E madj mg k HT Hmg Hc Hpos HWm.
  assert (Hm : metric_for adj c madj k) by (split; eauto).
  destruct (perfect_exists _ _ _ _ _ _ _ HV HF Hg HO E Hm) as (nodes & up0 & dn0 & s & S & HK & HVm & HR & L & F & EW & EP).
  set (d := (perfect_cust adj order ranks nodes c s S, perfect_tail adj nodes c s S)). exists d. split. { eapply pot_data_ok; eauto. }
  assert (Ln : length madj = length adj). { pose proof (f_equal (@length _) HT) as Q. rewrite !map_length in Q. auto. }
  assert (HOm : node_order (length madj) order ranks) by (rewrite Ln; exact HO).
  intros dbg sort thr paths Hs Ht Hp.
  pose proof (tree_f adj order ranks nodes c HK madj HT HVm up0 dn0 s k HR S L F Hpos dbg) as TF. pose proof (tree_b adj order ranks nodes c HK madj HT HVm up0 dn0 s k HR S L F Hpos dbg) as TB.
  set (It := base_f adj order ranks nodes c s S) in *. set (Is := base_b adj order ranks nodes c s S) in *.
  assert (HU : CUOK adj It Is (cubs_new d)).
  { assert (R : forall k, all_none (repeat None k) = true) by (induction k0; auto).
    pose proof (num_kp adj order ranks nodes c HK madj HT HVm up0 dn0 s k HR S L F) as Nk.
    constructor; unfold cubs_new, d; cbn [cu_t cu_s cu_cache cu_ranks fst]; rewrite ?repeat_length; auto.
    - eapply (new_f adj order ranks nodes c HK madj HT HVm up0 dn0 s k HR S L F).
    - eapply (new_b adj order ranks nodes c HK madj HT HVm up0 dn0 s k HR S L F). }
  destruct (cubs_history_ok adj madj order ranks mg Ln HVm (topo_fits _ _ HT HF) HWm Hmg HOm Hpos dbg It Is TF TB sort Hs thr Ht (cubs_new d) paths HU Hp) as (u & Eh & HU').
  exists u. split; [exact Eh|]. intros path [G1 G2]. rewrite Ln in G1. destruct (ListDec.NoDup_dec Nat.eq_dec path) as [ND|ND].
  - destruct (cubs_find_simple adj madj order ranks mg Ln HVm (topo_fits _ _ HT HF) HWm Hmg HOm Hpos dbg It Is TF TB sort Hs thr Ht u path HU' ND G1 (G2 ND)) as (u' & r & Ef & _ & LM). exists u', r. split; [exact Ef|]. split; [auto|]. intros; contradiction.
  - destruct (cubs_find_repeat adj madj order ranks mg Ln HWm HOm dbg It Is sort thr u path HU' ND G1) as (u' & r & Ef & _ & LM). exists u', r. split; [exact Ef|]. split; [intros; contradiction|]. intros _. exact LM.
Qed.
Print Assumptions C62_violating_subpaths.

(** the CCH is built for other weights; the path 0-1-2-3-4-5 has the detours 1-2-3 and 3-4-5 *)
Definition cu_adj : list (list (nat * N)) := map (map (fun a => (fst a, 1%N))) ubs_adj.
Definition cu_g : fograph N := match from_adjacency_lists cu_adj with Some g => g | None => mkFo [] [] [] end.
Definition cu_order : list nat := [6; 4; 2; 0; 3; 5; 1].
Definition cu_rks : list nat := [3; 6; 2; 4; 1; 5; 0].
Definition cu_run (paths : list (list nat)) (path : list nat) : option (list (nat * nat)) :=
  c <- cch_contract cu_g cu_order cu_rks ;; k <- customize c ubs_g ;; d <- pot_data c k ;;
  u <- cubs_history true ubs_g cu_rks rg_isort ubs_thr (cubs_new d) paths ;; '(_, r) <- cubs_find true ubs_g cu_rks rg_isort ubs_thr u path ;; Some r.
Example C62_nonvacuous :
  valid_adj cu_adj /\ fits_u32 cu_adj /\ from_adjacency_lists cu_adj = Some cu_g /\ node_order 7 cu_order cu_rks /\ same_topology cu_adj ubs_adj /\ positive ubs_adj /\
  (forall l v w, In l ubs_adj -> In (v, w) l -> (w <= INF)%N) /\
  cu_run [[0; 1; 2; 3; 4; 5]; [0; 1; 2; 3; 6; 1; 3; 4; 5; 0]; []; [3]] [0; 1; 2; 3; 4; 5] = Some [(1, 3); (3, 5)] /\
  cu_run [] [0; 1; 3; 6; 5] = Some [] /\
  cu_run [[0; 1; 2; 3; 4; 5]] [0; 1; 2; 3; 6; 1; 3; 4; 5; 0] = Some [(1, 5); (3, 6); (0, 9)].
Proof.
  split. { intros l v w Hl Hv. repeat (destruct Hl as [<-|Hl]; [cbn in *; repeat (destruct Hv as [[= <- <-]|Hv]; [lia|]); destruct Hv|]). destruct Hl. }
  split. { vm_compute. repeat split; reflexivity. }
  split; [vm_compute; reflexivity|]. split. { apply order_check; vm_compute; reflexivity. } split; [reflexivity|].
  split. { intros l v w Hl Hv. repeat (destruct Hl as [<-|Hl]; [cbn in *; repeat (destruct Hv as [[= <- <-]|Hv]; [lia|]); destruct Hv|]). destruct Hl. }
  split. { intros l v w Hl Hv. repeat (destruct Hl as [<-|Hl]; [cbn in *; repeat (destruct Hv as [[= <- <-]|Hv]; [unfold INF; lia|]); destruct Hv|]). destruct Hl. }
  split; [vm_compute; reflexivity|]. split; vm_compute; reflexivity.
Qed.
