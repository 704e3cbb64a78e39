(** Statements about the perfect customization of directed CCHs. *)
From Verif Require Import Base Graph GraphProof SpecGraph SpecCCH ExTab CCH CCHTheory CCHContractProof CCHBuildProof CCHCustProof CCHMetricProof
  CCHQuery CCHQueryProof CCHPathTheory CCHPathProof CCHViewProof CCHServerProof CHInitProof CCHPerfect CCHRebuild CCHPerfectView PropsCCH PropsPerfect DirCCH DirCCHProof DirRel PropsDir DirPerf DirPerfProof DirPerfView.

(** ** C67: perfect customization of directed CCHs *)

(** arc [e] of the forward graph (b = true, upwards) or of the backward graph (b = false, downwards) of [kd] goes from rank [x] to rank [y] with weight [w] *)
Definition harc (kd : customized) (b : bool) (e x y : nat) (w : N) : Prop :=
  if b then garc_ids (link_iter_ids (k_fw kd)) x e y w else garc_ids (link_iter_ids (k_bw kd)) y e x w.
(** one hop of the hierarchy, up or down *)
Definition hop (kd : customized) (x y : nat) (w : N) : Prop := exists b e, harc kd b e x y w.

(** It never panics. No weight increases. Exactly the arcs whose weight decreased are marked for removal. A finite new weight is the length of a walk in the hierarchy.
    So an arc on a shortest walk keeps its weight and is not removed. *)
Theorem C67_directed_perfect_customization_sound :
  forall adj g order ranks c d madj kd, valid_adj adj -> fits_u32 adj -> from_adjacency_lists adj = Some g -> node_order (length adj) order ranks ->
  cch_contract g order ranks = Some c -> to_directed c = Some d -> directed_metric_for adj d madj kd ->
  exists s, directed_perfect d (weight (k_fw kd)) (weight (k_bw kd)) = Some s /\
    length (dp_up s) = length (weight (k_fw kd)) /\ length (dp_dn s) = length (weight (k_bw kd)) /\ length (dp_um s) = length (weight (k_fw kd)) /\ length (dp_dm s) = length (weight (k_bw kd)) /\
    forall b e x y w, harc kd b e x y w ->
    exists w' f, nth_error (if b then dp_up s else dp_dn s) e = Some w' /\ nth_error (if b then dp_um s else dp_dm s) e = Some f /\
      (w' <= w)%N /\ (f = true <-> (w' < w)%N) /\ ((w' < INF)%N -> walk (hop kd) x y w') /\
      ((forall l, walk (hop kd) x y l -> (w <= l)%N) -> w' = w /\ f = false).
Proof.
  intros adj g order ranks c d0 madj kd HV HF Hg HO E Ed0 (HT & mg & Hm & Ekd0). destruct (dir_all _ _ _ _ _ HV HF Hg HO E) as (nodes & s0 & d & HK & H0 & Ed & HD).
  rewrite Ed in Ed0. injection Ed0 as <-. pose proof (topo_valid _ _ HT HV) as HVm. pose proof (from_adj_fits _ _ Hm) as HFm.
  destruct (customize_directed_ok adj order ranks nodes c HK s0 d HD madj mg HT HVm HFm Hm) as (up0 & dn0 & s & k & s1 & Ek & HR & Ekd & H1 & M0).
  rewrite Ekd in Ekd0. injection Ekd0 as <-. pose proof (do_ok _ _ _ _ _ _ HD) as DO. set (fn := sub nodes (pkU s0)) in *. set (bn := sub nodes (pkD s0)) in *.
  destruct (dd_st _ _ _ _ _ _ H1) as (L1 & _ & W1 & L2 & _ & W2 & _).
  destruct (directed_perfect_ok fn bn d DO (s_up s1) (s_dn s1) L1 L2 W1 W2) as (r & Er & I). exists r. cbn [kdir k_fw k_bw weight]. split; [exact Er|].
  split; [apply (iv_w _ _ _ _ _ I true)|]. split; [apply (iv_w _ _ _ _ _ I false)|]. split; [apply (iv_m _ _ _ _ _ I true)|]. split; [apply (iv_m _ _ _ _ _ I false)|].
  assert (HA : forall b e x y w, harc (kdir order ranks d s1) b e x y w <-> goes fn bn b e x y /\ nth_error (DirPerfProof.w0 (s_up s1) (s_dn s1) b) e = Some w).
  { intros b e x y w. unfold harc. destruct b; cbn [goes DirPerfProof.w0 kdir k_fw k_bw].
    - pose proof (arrays_larc fn _ _ (dk_f _ _ _ DO) (s_up s1) x e y w L1) as K. unfold larc, k_links in K. rewrite K. split; intros [P Q]; split; auto; pose proof (edge_lt _ _ _ _ P).
      + rewrite Q. apply nth_error_nth'. lia. + symmetry. apply nth_error_nth; auto.
    - pose proof (arrays_larc bn _ _ (dk_b _ _ _ DO) (s_dn s1) y e x w L2) as K. unfold larc, k_links in K. rewrite K. split; intros [P Q]; split; auto; pose proof (edge_lt _ _ _ _ P).
      + rewrite Q. apply nth_error_nth'. lia. + symmetry. apply nth_error_nth; auto. }
  assert (HH : forall x y l, walk (arc0 fn bn (s_up s1) (s_dn s1)) x y l -> walk (hop (kdir order ranks d s1)) x y l).
  { intros x y l W. induction W as [|x z y w l (b & e & A) W IH]; [constructor|]. apply walk_cons with (v := z); auto. exists b, e. apply HA. auto. }
  intros b e x y w Ha. apply HA in Ha. destruct Ha as [Gx Ew]. pose proof (nth_error_Some_lt _ _ _ Ew) as Le.
  destruct (nth_error (dpw b r) e) as [w'|] eqn:E1; [|apply nth_error_None in E1; rewrite (iv_w _ _ _ _ _ I) in E1; lia].
  destruct (nth_error (dpm b r) e) as [f|] eqn:E2; [|apply nth_error_None in E2; rewrite (iv_m _ _ _ _ _ I) in E2; lia].
  destruct (iv_c _ _ _ _ _ I _ _ _ _ _ E1 E2 Ew) as [C1 C2]. exists w', f. split; [destruct b; exact E1|]. split; [destruct b; exact E2|]. split; [exact C1|]. split; [exact C2|].
  assert (C3 : (w' < INF)%N -> walk (hop (kdir order ranks d s1)) x y w') by (intros L; apply HH; eapply (iv_walk _ _ _ _ _ I); eauto). split; [exact C3|].
  intros Hs. assert (Mw : (w <= INF)%N) by (eapply w0_max with (fn := fn) (bn := bn); eauto). assert (Q : (w <= w')%N). { destruct (N.lt_ge_cases w' INF) as [L|L]; [apply Hs, C3, L|lia]. }
  split; [lia|]. destruct f; auto. destruct C2 as [C2 _]. specialize (C2 eq_refl). lia.
Qed.
Print Assumptions C67_directed_perfect_customization_sound.

(** After the removal of the marked arcs every query is still exact: the customization never panics, and a server created with it answers every distance query
    after every history of queries exactly and reports a simple path of that length, however often it is asked for. *)
Theorem C67_queries_on_directed_perfect_customizations_exact :
  forall adj g order ranks c d madj kd, valid_adj adj -> fits_u32 adj -> from_adjacency_lists adj = Some g -> node_order (length adj) order ranks ->
  cch_contract g order ranks = Some c -> to_directed c = Some d -> directed_metric_for adj d madj kd ->
  exists kp, customize_directed_perfect d kd = Some kp /\
  forall ops, (forall op, In op ops -> exists from to j, op = OpQuery from to j /\ from < length adj /\ to < length adj) ->
  exists sv, cs_history (cs_new kp) ops = Some sv /\
  forall from to, from < length adj -> to < length adj ->
  exists sv' r, cs_distance sv from to = Some (sv', r) /\ exact_answer (adj_arc madj) from to r /\
  forall dist, r = Some dist -> exists p, npath (adj_arc madj) from p to dist /\ NoDup p /\
    forall j, exists sv1 sv2, cs_paths sv' from to j = Some sv1 /\ cs_path sv1 from to = Some (sv2, p).
Proof.
  intros adj g order ranks c d0 madj kd HV HF Hg HO E Ed0 (HT & mg & Hm & Ekd0). destruct (dir_all _ _ _ _ _ HV HF Hg HO E) as (nodes & s0 & d & HK & H0 & Ed & HD).
  rewrite Ed in Ed0. injection Ed0 as <-. pose proof (topo_valid _ _ HT HV) as HVm. pose proof (from_adj_fits _ _ Hm) as HFm.
  destruct (customize_directed_ok adj order ranks nodes c HK s0 d HD madj mg HT HVm HFm Hm) as (up0 & dn0 & s & k & s1 & Ek & HR & Ekd & H1 & M0).
  rewrite Ekd in Ekd0. injection Ekd0 as <-. pose proof (do_ok _ _ _ _ _ _ HD) as DO.
  destruct (dd_st _ _ _ _ _ _ H1) as (L1 & _ & W1 & L2 & _ & W2 & _).
  destruct (directed_perfect_ok _ _ d DO (s_up s1) (s_dn s1) L1 L2 W1 W2) as (r & Er & I).
  eexists. split; [eapply (dperf_built adj order ranks nodes c HK s0 H0 d HD madj HT HVm up0 dn0 s k HR s1 H1 M0 r I Er)|]. intros ops Hops.
  destruct (dp_history adj order ranks nodes c HK s0 H0 d HD madj HT HVm up0 dn0 s k HR s1 H1 M0 r I ops Hops (cs_new (dperf adj order ranks nodes s0 d s1 r)) eq_refl (dp_new adj order ranks nodes c HK s0 H0 d HD madj HT HVm up0 dn0 s k HR s1 H1 M0 r I)) as (sv & Eh & Kh & Sh).
  exists sv. split; [exact Eh|]. intros from to Hf Ht.
  destruct (dp_distance_ok adj order ranks nodes c HK s0 H0 d HD madj HT HVm up0 dn0 s k HR s1 H1 M0 r I sv from to Kh Sh Hf Ht) as (sv1 & q & E1 & Ek1 & S1 & X & P1).
  exists sv1, q. split; [exact E1|]. split; [exact X|]. intros dist Hd. destruct (P1 dist Hd) as (p & HP & NP & ND). exists p. split; [exact NP|]. split; [exact ND|]. intros j.
  destruct (dp_paths_ok adj order ranks nodes c HK s0 H0 d HD madj HT HVm up0 dn0 s k HR s1 H1 M0 r I j sv1 from to p Ek1 S1 HP) as (sv2 & E2 & Ek2 & S2 & HP2).
  destruct (dp_path_ok adj order ranks nodes c HK s0 H0 d HD madj HT HVm up0 dn0 s k HR s1 H1 M0 r I sv2 from to p Ek2 S2 HP2) as (sv3 & E3 & _). eauto.
Qed.
Print Assumptions C67_queries_on_directed_perfect_customizations_exact.

Definition dpx_adj : list (list (nat * N)) := [[(1, 1%N); (2, 10%N)]; [(3, 1%N)]; []; [(2, 1%N)]].
Definition dpx_id := [0; 1; 2; 3].
(** The weights need not become distances, unlike for CCHs: here the shortcut from 1 to 2 is infinity for every metric and removed, so the triangle 0, 1, 2 is never looked at,
    and the arc from 0 to 2 keeps its weight 10 although the hierarchy has a walk of length 3. *)
Theorem C67_directed_perfect_weights_are_distances_refuted :
  exists adj g order ranks c d kd s e x y l, valid_adj adj /\ fits_u32 adj /\ from_adjacency_lists adj = Some g /\ node_order (length adj) order ranks /\
  cch_contract g order ranks = Some c /\ to_directed c = Some d /\ directed_metric_for adj d adj kd /\ directed_perfect d (weight (k_fw kd)) (weight (k_bw kd)) = Some s /\
  harc kd true e x y 10 /\ nth_error (dp_up s) e = Some 10%N /\ nth_error (dp_um s) e = Some false /\ walk (hop kd) x y l /\ (l < 10)%N.
Proof.
  exists dpx_adj. let r := eval vm_compute in (from_adjacency_lists dpx_adj) in match r with Some ?g => exists g end. exists dpx_id, dpx_id.
  match goal with |- context [cch_contract ?g dpx_id dpx_id] => let r := eval vm_compute in (cch_contract g dpx_id dpx_id) in match r with Some ?c => exists c end end.
  match goal with |- context [to_directed ?c] => let r := eval vm_compute in (to_directed c) in match r with Some ?d => exists d end end.
  match goal with |- context [directed_metric_for _ ?d _ _] => let r := eval vm_compute in (mg <- from_adjacency_lists dpx_adj ;; customize_directed d mg) in match r with Some ?k => exists k end end.
  match goal with |- context [directed_perfect ?d (weight (k_fw ?k)) _] => let r := eval vm_compute in (directed_perfect d (weight (k_fw k)) (weight (k_bw k))) in match r with Some ?k => exists k end end.
  exists 1, 0, 2, 3%N.
  split; [apply valid_check; vm_compute; reflexivity|].
  split; [split; vm_compute; reflexivity|]. split; [vm_compute; reflexivity|].
  split. { apply order_check; vm_compute; reflexivity. }
  split; [vm_compute; reflexivity|]. split; [vm_compute; reflexivity|]. split. { split; [reflexivity|]. let r := eval vm_compute in (from_adjacency_lists dpx_adj) in match r with Some ?g => exists g end. split; vm_compute; reflexivity. }
  split; [vm_compute; reflexivity|]. split. { eexists. split; [lazy; reflexivity|]. cbn. auto. } split; [reflexivity|]. split; [reflexivity|]. split; [|lia].
  apply (walk_cons _ 0 1 2 1 2); [exists true, 0; eexists; split; [lazy; reflexivity|cbn; auto]|].
  apply (walk_cons _ 1 3 2 1 1); [exists true, 2; eexists; split; [lazy; reflexivity|cbn; auto]|].
  apply (walk_cons _ 3 2 2 1 0); [exists false, 0; eexists; split; [lazy; reflexivity|cbn; auto]|]. constructor.
Qed.
Print Assumptions C67_directed_perfect_weights_are_distances_refuted.

(** a metric for which arcs of both directions become shorter and are removed *)
Definition dpy_adj : list (list (nat * N)) := [[(1, 1%N); (3, 1%N)]; [(0, 3%N); (2, 9%N); (3, 8%N)]; [(0, 4%N); (1, 9%N); (3, 1%N)]; [(2, 1%N); (1, 7%N)]].
Example C67_nonvacuous :
  valid_adj dpy_adj /\ fits_u32 dpy_adj /\ node_order (length dpy_adj) dpx_id dpx_id /\
  (g <- from_adjacency_lists dpy_adj ;; c <- cch_contract g dpx_id dpx_id ;; d <- to_directed c ;; kd <- customize_directed d g ;;
   s <- directed_perfect d (weight (k_fw kd)) (weight (k_bw kd)) ;; Some (weight (k_fw kd), weight (k_bw kd), s)) =
  Some ([1; 1; 9; 4; 1]%N, [3; 4; 5; 7; 1]%N, mkDps [1; 1; 5; 4; 1]%N [3; 4; 5; 6; 1]%N [false; false; true; false; false] [false; false; false; true; false]).
Proof.
  split; [apply valid_check; vm_compute; reflexivity|]. split; [split; vm_compute; reflexivity|]. split; [apply order_check; vm_compute; reflexivity|].
  vm_compute. reflexivity.
Qed.
(** the same metric after the rebuild, with queries before *)
Example C67_queries_nonvacuous :
  (g <- from_adjacency_lists dpy_adj ;; c <- cch_contract g dpx_id dpx_id ;; d <- to_directed c ;; kd <- customize_directed d g ;;
   kp <- customize_directed_perfect d kd ;; sv <- cs_history (cs_new kp) [OpQuery 1 2 2; OpQuery 3 0 0] ;;
   '(sv1, r1) <- cs_distance sv 1 2 ;; '(sv2, p1) <- cs_path sv1 1 2 ;; '(sv3, r2) <- cs_distance sv2 3 1 ;; '(_, p2) <- cs_path sv3 3 1 ;;
   Some (weight (k_fw kp), weight (k_bw kp), r1, p1, r2, p2)) =
  Some ([1; 1; 4; 1]%N, [3; 4; 5; 1]%N, Some 5%N, [1; 0; 3; 2], Some 6%N, [3; 2; 0; 1]).
Proof. vm_compute. reflexivity. Qed.
