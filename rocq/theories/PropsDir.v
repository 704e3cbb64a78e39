(** Statements about directed CCHs: CCHs without the edges that no metric gives a finite weight. *)
From Verif Require Import Base Graph GraphProof SpecGraph SpecCCH ExTab CCH CCHTheory CCHContractProof CCHBuildProof CCHCustProof CCHMetricProof
  CCHQuery CCHQueryProof CCHPathTheory CCHPathProof CCHViewProof CCHServerProof CHInitProof CCHPerfect CCHRebuild CCHPerfectView PropsCCH PropsPerfect DirCCH DirCCHProof DirRel.

(** metric [madj] is customized to [kd] with the directed CCH [d] *)
Definition directed_metric_for (adj : list (list (nat * N))) (d : dcch) (madj : list (list (nat * N))) (kd : customized) : Prop :=
  same_topology adj madj /\ exists mg, from_adjacency_lists madj = Some mg /\ customize_directed d mg = Some kd.

Lemma dir_all adj g order ranks c : valid_adj adj -> fits_u32 adj -> from_adjacency_lists adj = Some g -> node_order (length adj) order ranks ->
  cch_contract g order ranks = Some c ->
  exists nodes s0 d, cch_ok adj order ranks nodes c /\ cust_ok adj nodes (prepare_zero_weights (c_fw_orig c) (repeat INF (length (concat nodes)))) (prepare_zero_weights (c_bw_orig c) (repeat INF (length (concat nodes)))) s0 /\
    to_directed c = Some d /\ directed_of order ranks nodes c s0 d.
Proof.
  intros HV HF Hg HO E. destruct (cch_contract_ok _ _ _ _ _ HV HF Hg HO E) as (nodes & HK). destruct (zero_exists adj order ranks nodes c HK) as (s0 & H0 & EA).
  destruct (to_directed_ok adj order ranks nodes c HK s0 H0 EA) as (d & Ed & HD). exists nodes, s0, d. auto.
Qed.
Lemma dir_fw adj order ranks nodes c (HK : cch_ok adj order ranks nodes c) s0 (H0 : cust_ok adj nodes (prepare_zero_weights (c_fw_orig c) (repeat INF (length (concat nodes)))) (prepare_zero_weights (c_bw_orig c) (repeat INF (length (concat nodes)))) s0)
  d (HD : directed_of order ranks nodes c s0 d) madj (HT : same_topology adj madj) up0 dn0 s k (HR : cust_result adj order ranks nodes c madj up0 dn0 s k) s1
  (H1 : ddone (sub nodes (pkU s0)) (sub nodes (pkD s0)) (map (fun e => nth e up0 0%N) (kept nodes (pkU s0))) (map (fun e => nth e dn0 0%N) (kept nodes (pkD s0))) (fun x => x < length (sub nodes (pkU s0))) s1)
  (M0 : wmax up0 /\ wmax dn0) x y w :
  (garc (link_iter (k_fw (kdir order ranks d s1))) x y w <-> garc (link_iter (k_fw k)) x y w /\ live nodes s0 x y) /\
  (garc (link_iter (k_bw (kdir order ranks d s1))) x y w <-> garc (link_iter (k_bw k)) x y w /\ live nodes s0 y x).
Proof.
  rewrite !garc_larc. rewrite <- !garc_larc. rewrite (fw_arc _ _ _ _ _ HK _ _ _ _ _ HR), (bw_arc _ _ _ _ _ HK _ _ _ _ _ HR), !garc_larc. split; split.
  - intros (e & H). apply (dfw_larc _ _ _ _ _ HK s0 H0 d HD madj HT up0 dn0 s k HR s1 H1 M0) in H. destruct H as (L & [A B] & _). auto.
  - intros ((L & A) & B). destruct (live_edge adj order ranks nodes c HK s0 s x y w (conj A B)) as (e & [[_ He]|[L2 _]]); [|lia]. exists e.
    apply (dfw_larc _ _ _ _ _ HK s0 H0 d HD madj HT up0 dn0 s k HR s1 H1 M0). split; [auto|]. split; [split; auto|auto].
  - intros (e & H). apply (dbw_larc _ _ _ _ _ HK s0 H0 d HD madj HT up0 dn0 s k HR s1 H1 M0) in H. destruct H as (L & [A B] & _). auto.
  - intros ((L & A) & B). destruct (live_edge adj order ranks nodes c HK s0 s y x w (conj A B)) as (e & [[L2 _]|[_ He]]); [lia|]. exists e.
    apply (dbw_larc _ _ _ _ _ HK s0 H0 d HD madj HT up0 dn0 s k HR s1 H1 M0). split; [auto|]. split; [split; auto|auto].
Qed.

(** ** C55: the directed CCH *)

(** It can always be built. Every metric is customized with it to the weights the CCH gives, and no finite weight is lost. *)
Theorem C55_directed_customization_has_the_same_weights :
  forall adj g order ranks c, valid_adj adj -> fits_u32 adj -> from_adjacency_lists adj = Some g -> node_order (length adj) order ranks ->
  cch_contract g order ranks = Some c ->
  exists d, to_directed c = Some d /\
  forall madj mg, same_topology adj madj -> from_adjacency_lists madj = Some mg ->
  exists k kd, customize c mg = Some k /\ customize_directed d mg = Some kd /\
    (forall x y w, garc (link_iter (k_fw kd)) x y w -> garc (link_iter (k_fw k)) x y w) /\
    (forall x y w, garc (link_iter (k_bw kd)) x y w -> garc (link_iter (k_bw k)) x y w) /\
    (forall x y w, (w < INF)%N -> garc (link_iter (k_fw k)) x y w -> garc (link_iter (k_fw kd)) x y w) /\
    (forall x y w, (w < INF)%N -> garc (link_iter (k_bw k)) x y w -> garc (link_iter (k_bw kd)) x y w).
Proof.
  intros adj g order ranks c HV HF Hg HO E. destruct (dir_all _ _ _ _ _ HV HF Hg HO E) as (nodes & s0 & d & HK & H0 & Ed & HD). exists d. split; [exact Ed|].
  intros madj mg HT Hm. pose proof (topo_valid _ _ HT HV) as HVm. pose proof (from_adj_fits _ _ Hm) as HFm.
  destruct (customize_directed_ok adj order ranks nodes c HK s0 d HD madj mg HT HVm HFm Hm) as (up0 & dn0 & s & k & s1 & Ek & HR & Ekd & H1 & M0).
  exists k, (kdir order ranks d s1). split; [exact Ek|]. split; [exact Ekd|].
  pose proof (dir_fw adj order ranks nodes c HK s0 H0 d HD madj HT up0 dn0 s k HR s1 H1 M0) as Q.
  assert (FL : forall x y w, carc nodes s x y w -> (w < INF)%N -> live nodes s0 x y) by (intros x y w; apply (finite_live adj order ranks nodes c HK s0 H0 madj HT up0 dn0 s (cr_ok _ _ _ _ _ _ _ _ _ _ HR) (cr_real _ _ _ _ _ _ _ _ _ _ HR))).
  repeat split.
  - intros x y w H. apply Q in H. apply H.
  - intros x y w H. apply Q in H. apply H.
  - intros x y w L H. apply Q. split; [exact H|]. apply (fw_arc _ _ _ _ _ HK _ _ _ _ _ HR) in H. destruct H as [_ H]. eauto.
  - intros x y w L H. apply Q. split; [exact H|]. apply (bw_arc _ _ _ _ _ HK _ _ _ _ _ HR) in H. destruct H as [_ H]. eauto.
Qed.
Print Assumptions C55_directed_customization_has_the_same_weights.

(** It keeps an edge, in one direction, exactly if some metric gives it a finite weight. *)
Theorem C55_directed_cch_keeps_the_edges_some_metric_uses :
  forall adj g order ranks c d madj kd, valid_adj adj -> fits_u32 adj -> from_adjacency_lists adj = Some g -> node_order (length adj) order ranks ->
  cch_contract g order ranks = Some c -> to_directed c = Some d -> directed_metric_for adj d madj kd -> forall x y,
  ((exists w, garc (link_iter (k_fw kd)) x y w) <-> exists madj' k' w, metric_for adj c madj' k' /\ garc (link_iter (k_fw k')) x y w /\ (w < INF)%N) /\
  ((exists w, garc (link_iter (k_bw kd)) x y w) <-> exists madj' k' w, metric_for adj c madj' k' /\ garc (link_iter (k_bw k')) x y w /\ (w < INF)%N).
Proof.
  intros adj g order ranks c d0 madj kd HV HF Hg HO E Ed0 (HT & mg & Hm & Ekd0) x y. destruct (dir_all _ _ _ _ _ HV HF Hg HO E) as (nodes & s0 & d & HK & H0 & Ed & HD).
  rewrite Ed in Ed0. injection Ed0 as <-.
  pose proof (topo_valid _ _ HT HV) as HVm. pose proof (from_adj_fits _ _ Hm) as HFm.
  destruct (customize_directed_ok adj order ranks nodes c HK s0 d HD madj mg HT HVm HFm Hm) as (up0 & dn0 & s & k & s1 & Ek & HR & Ekd & H1 & M0).
  rewrite Ekd in Ekd0. injection Ekd0 as <-.
  pose proof (dir_fw adj order ranks nodes c HK s0 H0 d HD madj HT up0 dn0 s k HR s1 H1 M0) as Q.
  assert (FL : forall madj' k', metric_for adj c madj' k' -> exists up1 dn1 s', cust_result adj order ranks nodes c madj' up1 dn1 s' k' /\ forall x y w, carc nodes s' x y w -> (w < INF)%N -> live nodes s0 x y).
  { intros madj' k' (HT' & mg' & Hm' & Ek'). pose proof (topo_valid _ _ HT' HV) as HVm'. pose proof (from_adj_fits _ _ Hm') as HFm'.
    destruct (customize_full adj order ranks nodes c HK madj' mg' HT' HVm' HFm' Hm') as (up1 & dn1 & s' & k1 & _ & _ & _ & _ & Ek1 & HR'). rewrite Ek' in Ek1. injection Ek1 as <-. exists up1, dn1, s'. split; [exact HR'|].
    intros x' y' w. apply (finite_live adj order ranks nodes c HK s0 H0 madj' HT' up1 dn1 s' (cr_ok _ _ _ _ _ _ _ _ _ _ HR') (cr_real _ _ _ _ _ _ _ _ _ _ HR')). }
  set (zadj := map (map (fun p : nat * N => (fst p, 0%N))) adj).
  assert (HTz : same_topology adj zadj). { unfold same_topology, zadj. rewrite map_map. apply map_ext. intros l. rewrite map_map. apply map_ext. intros a. reflexivity. }
  assert (HFz : fits_u32 zadj) by (apply (topo_fits _ _ HTz HF)).
  destruct (from_adjacency_ok zadj (proj1 HFz) (proj2 HFz)) as (zg & Ez & _).
  destruct (customize_full adj order ranks nodes c HK zadj zg HTz (topo_valid _ _ HTz HV) HFz Ez) as (up1 & dn1 & s' & k' & _ & _ & _ & _ & Ek' & HR').
  assert (ZM : metric_for adj c zadj k') by (split; [auto|eauto]).
  assert (ZW : forall u v w, adj_arc zadj u v w -> w = 0%N).
  { intros u v w H. unfold adj_arc, zadj in H. rewrite <- (map_nth (map (fun p : nat * N => (fst p, 0%N))) adj [] u : _ = _) in H || idtac.
    destruct (nth_in_or_default u (map (map (fun p : nat * N => (fst p, 0%N))) adj) []) as [K|K]; [|rewrite K in H; destruct H].
    apply in_map_iff in K. destruct K as (l & El & _). rewrite <- El in H. apply in_map_iff in H. destruct H as (p & Ep & _). injection Ep. auto. }
  assert (LA : forall x y, live nodes s0 x y -> carc nodes s' x y 0%N) by (intros x' y'; apply (live_attained adj order ranks nodes c HK s0 H0 zadj up1 dn1 s' k' HTz ZW HR' (S (Nat.min x' y')) x' y'); lia).
  assert (CL : forall x y w, carc nodes s0 x y w -> exists w', carc nodes s x y w') by (intros x' y' w Hw; apply (carc_cadj _ _ _ _ _ HK s), (carc_cadj _ _ _ _ _ HK s0); eauto).
  split; split.
  - intros (w & H). apply Q in H. destruct H as [H L]. apply (fw_arc _ _ _ _ _ HK _ _ _ _ _ HR) in H. exists zadj, k', 0%N. split; [exact ZM|]. split; [|unfold INF; lia].
    apply (fw_arc _ _ _ _ _ HK _ _ _ _ _ HR'). split; [apply H|]. apply LA, L.
  - intros (madj' & k1 & w & Hm1 & Hw & Lw). destruct (FL madj' k1 Hm1) as (u1 & d1 & s2 & HR2 & F2). apply (fw_arc _ _ _ _ _ HK _ _ _ _ _ HR2) in Hw. destruct Hw as [L Hw].
    pose proof (F2 _ _ _ Hw Lw) as LV. destruct LV as (w0 & Hw0 & L0). destruct (CL _ _ _ Hw0) as (w' & Hw'). exists w'. apply Q. split; [|exists w0; auto]. apply (fw_arc _ _ _ _ _ HK _ _ _ _ _ HR). auto.
  - intros (w & H). apply Q in H. destruct H as [H L]. apply (bw_arc _ _ _ _ _ HK _ _ _ _ _ HR) in H. exists zadj, k', 0%N. split; [exact ZM|]. split; [|unfold INF; lia].
    apply (bw_arc _ _ _ _ _ HK _ _ _ _ _ HR'). split; [apply H|]. apply LA, L.
  - intros (madj' & k1 & w & Hm1 & Hw & Lw). destruct (FL madj' k1 Hm1) as (u1 & d1 & s2 & HR2 & F2). apply (bw_arc _ _ _ _ _ HK _ _ _ _ _ HR2) in Hw. destruct Hw as [L Hw].
    pose proof (F2 _ _ _ Hw Lw) as LV. destruct LV as (w0 & Hw0 & L0). destruct (CL _ _ _ Hw0) as (w' & Hw'). exists w'. apply Q. split; [|exists w0; auto]. apply (bw_arc _ _ _ _ _ HK _ _ _ _ _ HR). auto.
Qed.
Print Assumptions C55_directed_cch_keeps_the_edges_some_metric_uses.

(** customizations of any kind of metrics of the same topology *)
Definition every_metric_for (adj : list (list (nat * N))) (c : cch) (d : dcch) (madj : list (list (nat * N))) (k : customized) : Prop :=
  any_metric_for adj c madj k \/ directed_metric_for adj d madj k.
Definition every_ops_ok (adj : list (list (nat * N))) (c : cch) (d : dcch) (ops : list cs_op) : Prop :=
  forall op, In op ops -> match op with OpUpdate k => exists madj, every_metric_for adj c d madj k | OpQuery from to _ => from < length adj /\ to < length adj end.
Lemma every_served adj g order ranks c d madj k : valid_adj adj -> fits_u32 adj -> from_adjacency_lists adj = Some g -> node_order (length adj) order ranks ->
  cch_contract g order ranks = Some c -> to_directed c = Some d -> every_metric_for adj c d madj k -> served adj order ranks madj k.
Proof.
  intros HV HF Hg HO E Ed0 [Hm|(HT & mg & Hm & Ekd0)]. { eapply any_served; eauto. }
  destruct (dir_all _ _ _ _ _ HV HF Hg HO E) as (nodes & s0 & d1 & HK & H0 & Ed & HD). rewrite Ed in Ed0. injection Ed0 as ->.
  pose proof (topo_valid _ _ HT HV) as HVm. pose proof (from_adj_fits _ _ Hm) as HFm.
  destruct (customize_directed_ok adj order ranks nodes c HK s0 d HD madj mg HT HVm HFm Hm) as (up0 & dn0 & s & k1 & s1 & Ek & HR & Ekd & H1 & M0).
  rewrite Ekd in Ekd0. injection Ekd0 as <-. do 3 eexists. eapply (directed_view adj order ranks nodes c HK s0 H0 d HD madj HT HVm up0 dn0 s k1 HR s1 H1 M0).
Qed.
(** One server, created and updated with ordinary, perfect and directed customizations in any order: every distance is exact,
    every path is a simple path of that length, however often it is asked for. *)
Theorem C55_queries_on_directed_customizations_exact :
  forall adj g order ranks c d, valid_adj adj -> fits_u32 adj -> from_adjacency_lists adj = Some g -> node_order (length adj) order ranks ->
  cch_contract g order ranks = Some c -> to_directed c = Some d ->
  forall k0 ops, (exists madj, every_metric_for adj c d madj k0) -> every_ops_ok adj c d ops ->
  exists sv, cs_history (cs_new k0) ops = Some sv /\
  forall madj from to, every_metric_for adj c d madj (last_update k0 ops) -> from < length adj -> to < length adj ->
  exists sv' r, cs_distance sv from to = Some (sv', r) /\ exact_answer (adj_arc madj) from to r /\
  forall dist, r = Some dist -> exists p, npath (adj_arc madj) from p to dist /\ NoDup p /\
    forall j, exists sv1 sv2, cs_paths sv' from to j = Some sv1 /\ cs_path sv1 from to = Some (sv2, p).
Proof.
  intros adj g order ranks c dd HV HF Hg HO E Edd k0 ops (madj0 & Hk) Hops.
  assert (SV : forall madj k, every_metric_for adj c dd madj k -> served adj order ranks madj k) by (intros; eapply every_served; eauto).
  destruct (served_history adj order ranks ops) with (sv := cs_new k0) as (sv & Eh & Kh & Sh).
  - intros op Hop. specialize (Hops op Hop). destruct op as [k|from to j]; [|exact Hops]. destruct Hops as (madj' & H). eauto.
  - exists madj0. apply SV. exact Hk.
  - eapply served_new; eauto.
  - exists sv. split; [exact Eh|]. intros madj from to Hm Hf Ht. assert (Sm : served adj order ranks madj (q_cust sv)) by (apply SV; rewrite Kh; exact Hm).
    destruct (served_distance adj order ranks madj sv from to Sm Sh Hf Ht) as (sv1 & r & E1 & _ & _ & X & P1).
    exists sv1, r. split; [exact E1|]. split; [exact X|]. intros d Hd. destruct (P1 d Hd) as (p & NP & ND & HP). exists p. split; [exact NP|]. split; [exact ND|]. intros j.
    destruct (HP j) as (sv2 & sv3 & E2 & _ & _ & E3). eauto.
Qed.
Print Assumptions C55_queries_on_directed_customizations_exact.

Example C55_nonvacuous :
  (g <- from_adjacency_lists cx_adj ;; c <- cch_contract g cx_order cx_ranks ;; d <- to_directed c ;; mg <- from_adjacency_lists cx_madj ;; k <- customize c mg ;; kd <- customize_directed d mg ;;
   Some (head (k_fw k), weight (k_fw k), weight (k_bw k), (first_out (k_fw kd), head (k_fw kd), weight (k_fw kd), k_upu kd, (first_out (k_bw kd), head (k_bw kd), weight (k_bw kd), k_dnu kd, k_btail kd)))) =
  Some ([1; 2; 4; 2; 3; 4; 3; 4; 4], [INF; 0; 9; 4; INF; 13; INF; 15; 13]%N, [4; INF; INF; 2; 0; INF; 4; INF; 1]%N,
     ([0; 2; 4; 5; 6; 6], [2; 4; 2; 4; 4; 4], [0; 9; 4; 13; 15; 13]%N, [no_unp; no_unp; (Some 0, Some 0); (Some 0, Some 1); (Some 1, Some 3); (Some 2, Some 3)],
      ([0; 1; 3; 4; 5; 5], [1; 2; 3; 3; 4], [4; 2; 0; 4; 1]%N, [no_unp; no_unp; no_unp; (Some 2, Some 2); no_unp], [0; 1; 1; 2; 3]))) /\
  (g <- from_adjacency_lists cx_adj ;; c <- cch_contract g cx_order cx_ranks ;; d <- to_directed c ;; mg <- from_adjacency_lists cx_madj ;; kd <- customize_directed d mg ;;
   mg0 <- from_adjacency_lists cx_adj ;; k0 <- customize c mg0 ;; kp <- customize_perfect c k0 ;;
   sv <- cs_history (cs_new k0) [OpQuery 2 1 2; OpUpdate kd; OpQuery 0 3 1; OpUpdate kp; OpQuery 1 1 2; OpUpdate kd; OpQuery 1 4 0] ;;
   '(sv1, r1) <- cs_distance sv 2 1 ;; '(sv2, p1) <- cs_path sv1 2 1 ;; '(sv3, r2) <- cs_distance sv2 4 2 ;; '(_, p2) <- cs_path sv3 4 2 ;;
   Some (r1, p1, r2, p2)) = Some (Some 5%N, [2; 4; 3; 0; 1], Some 13%N, [4; 3; 0; 2]).
Proof. split; vm_compute; reflexivity. Qed.
