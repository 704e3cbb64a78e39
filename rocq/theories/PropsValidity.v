(** Property C66: perfect customization with validities. *)
From Verif Require Import Base SpecGraph SpecCCH BitVec Graph CCH CCHBuildProof CCHContractProof CCHCustProof CCHMetricProof ExTab SepTree CCHPar CCHPerfect CCHPerfectProof CCHPerfectPar CCHRebuild CCHPerfectView PropsCCH PropsPar PropsPerfect PropsPerfectPar SpecValidity Validity ValidityProof ValidityPar.

(** For every CCH, every customized metric and all validities: the customization does not panic and computes the weights of the perfect customization. If at every time
    each weight is an upper bound from its validity on, then this holds afterwards; an arc keeps its validity unless its weight decreases, and no new validities appear.
    (Sequential execution; the parallel one gives the same result by the next theorem.) *)
Theorem C66_validities :
  forall adj g order ranks c, valid_adj adj -> fits_u32 adj -> from_adjacency_lists adj = Some g -> node_order (length adj) order ranks ->
  cch_contract g order ranks = Some c ->
  forall madj k, metric_for adj c madj k ->
  let up := weight (k_fw k) in let dn := weight (k_bw k) in
  forall upv dnv, length upv = length up -> length dnv = length dn ->
  exists s vs, perfect_weights c up dn = Some s /\ customize_with_validity c up dn upv dnv = Some vs /\ v_up vs = g_up s /\ v_dn vs = g_dn s /\
  refines (upv ++ dnv) up upv (v_up vs) (v_upv vs) /\ refines (upv ++ dnv) dn dnv (v_dn vs) (v_dnv vs) /\
  forall metric, valid_bounds metric c up dn upv dnv -> valid_bounds metric c (v_up vs) (v_dn vs) (v_upv vs) (v_dnv vs).
Proof.
  intros adj g order ranks c HV HF Hg HO E madj k Hm up dn upv dnv L1 L2.
  destruct (perfect_exists _ _ _ _ _ _ _ HV HF Hg HO E Hm) as (nodes & up0 & dn0 & s & S & HK & _ & HR & _ & _ & EW & _).
  destruct (weights_sim c up dn upv dnv S EW L1 L2) as (vs & Ev & E1 & E2). exists S, vs. split; [exact EW|]. split; [exact Ev|]. split; [exact E1|]. split; [exact E2|].
  assert (Hf : forall e x y x' y', cch_arc c e x y -> cch_arc c e x' y' -> x = x' /\ y = y').
  { intros e x y x' y' (a & b & A1 & A2 & A3 & A4) (a' & b' & B1 & B2 & B3 & B4). pose proof (nodes_len _ _ _ _ _ HK) as NL.
    pose proof (nth_error_Some_lt _ _ _ A2) as LA. pose proof (nth_error_Some_lt _ _ _ B2) as LB. rewrite (co_fol _ _ _ _ _ HK) in LA, LB.
    rewrite (co_fo _ _ _ _ _ HK) in A1, A2, B1, B2 by lia. injection A1 as <-. injection A2 as <-. injection B1 as <-. injection B2 as <-.
    assert (x = x'). { destruct (Nat.lt_trichotomy x x') as [H|[H|H]]; auto; exfalso; [pose proof (off_mono nodes (x + 1) x' ltac:(lia) ltac:(lia))|pose proof (off_mono nodes (x' + 1) x ltac:(lia) ltac:(lia))]; lia. } split; auto. congruence. }
  assert (HW : forall w, In w up \/ In w dn -> (w <= INF)%N).
  { unfold up, dn. rewrite (cr_k _ _ _ _ _ _ _ _ _ _ HR). cbn [k_fw k_bw weight]. destruct (cr_ok _ _ _ _ _ _ _ _ _ _ HR) as [(S1 & S2 & _) _]. intros w [H|H]; apply (In_nth _ _ 0%N) in H; destruct H as (i & _ & <-); [apply S1|apply S2]. }
  assert (HS := fun metric => validity_sound c metric up dn upv dnv vs Hf L1 L2 HW Ev).
  destruct (HS (fun _ x y w => True)) as (_ & R1 & R2). { intros e x y _. split; intros; exists 0%N; (split; [|lia]); refine (walk_cons _ _ _ _ 0%N 0%N I _); constructor. }
  split; [exact R1|]. split; [exact R2|]. intros metric HB. apply (HS metric HB).
Qed.
Print Assumptions C66_validities.

(** Any interleaving of the steps of the calls, for any number of workers each with its own workspace:
    no step panics, it never gets stuck, it ends after boundedly many steps, weights and validities are those of the sequential routine and all workspaces are clean again. *)
Theorem C66_parallel_validities :
  forall adj g order ranks c, valid_adj adj -> fits_u32 adj -> from_adjacency_lists adj = Some g -> node_order (length adj) order ranks ->
  cch_contract g order ranks = Some c ->
  forall madj k, metric_for adj c madj k ->
  let up := weight (k_fw k) in let dn := weight (k_bw k) in
  forall upv dnv, length upv = length up -> length dnv = length dn ->
  forall sep threads, 0 < threads -> sep_new (c_elim c) = Some sep -> validate sep = Some tt ->
  let ws := repeat None (length adj) in
  let init := (mkVsh up dn upv dnv, repeat ws threads) in
  exists seq task bound,
    customize_with_validity c up dn upv dnv = Some seq /\ par_validity c threads sep = Some task /\
    (exists j sp t, vtsteps j init task sp t /\ vfinished t) /\
    forall j sp t, vtsteps j init task sp t ->
      ~ vpanic (fst sp) t /\ (vfinished t \/ exists sp' t', vtstep sp t sp' t') /\ j <= bound /\
      (vfinished t -> sp = (seq, repeat ws threads)).
Proof.
  intros adj g order ranks c HV HF Hg HO E madj k Hm up dn upv dnv L1 L2 sep threads Ht Hs V ws init.
  destruct (perfect_exists _ _ _ _ _ _ _ HV HF Hg HO E Hm) as (nodes & up0 & dn0 & s & S & HK & HVm & HR & _).
  pose proof (cr_ok _ _ _ _ _ _ _ _ _ _ HR) as HC.
  assert (Eu : up = s_up s) by (unfold up; rewrite (cr_k _ _ _ _ _ _ _ _ _ _ HR); reflexivity). assert (Ed : dn = s_dn s) by (unfold dn; rewrite (cr_k _ _ _ _ _ _ _ _ _ _ HR); reflexivity).
  clearbody up dn. subst up dn. fold (vini s upv dnv) in init.
  destruct (par_validity_ok adj order ranks nodes c HK up0 dn0 s HC upv dnv L1 L2 threads sep Hs V) as (tk & Et & I0 & Hr0).
  assert (C0 : clean adj (snd init)). { apply Forall_forall. intros x Hx. apply repeat_spec in Hx. auto. }
  assert (L0 : length (snd init) + vrunning tk = threads) by (rewrite Hr0; cbn [init snd]; rewrite repeat_length; lia).
  assert (FR : forall t, vfinished t -> vrunning t = 0).
  { induction t as [code subs IH|p code subs IH|subs IH] using vtask_ind2; intros F; inversion F as [subs' F' X]; clear X. cbn [vrunning].
    rewrite Forall_forall in IH, F'. clear F. induction subs as [|t subs IHs]; [reflexivity|]. cbn [map list_sum fold_right]. rewrite (IH t) by (try apply F'; left; auto).
    apply IHs; intros; [apply IH|apply F']; auto; right; auto. }
  exists (T adj c s upv dnv 0), tk, (vsize tk). split; [apply (fin_seq adj order ranks nodes c HK up0 dn0 s HC); auto|]. split; [exact Et|]. split.
  { assert (G : forall b sp t, vsize t < b -> clean adj (snd sp) -> vinv adj nodes c s upv dnv (fst sp) 0 (length adj) t -> length (snd sp) + vrunning t = threads -> exists j sp' t', vtsteps j sp t sp' t' /\ vfinished t').
    { induction b as [|b IH]; intros [S1 pool] t Hb HC1 Hi HL; [lia|]. cbn [fst snd] in *.
      destruct (vinv_progress adj order ranks nodes c HK up0 dn0 s HC upv dnv L1 L2 t S1 pool _ _ Hi) as [Fi|(S' & pool' & t' & Hst)]; [lia| |].
      - exists 0, (S1, pool), t. split; auto. constructor.
      - pose proof (vtstep_size _ _ _ _ Hst). destruct (vtstep_inv adj order ranks nodes c HK up0 dn0 s HC upv dnv L1 L2 _ _ _ _ Hst _ _ HC1 Hi) as (C' & I' & _ & L').
        destruct (IH (S', pool') t') as (j & s2 & t2 & Hj & Hf); [lia|auto|auto|cbn [snd] in *; lia|]. exists (Datatypes.S j), s2, t2. split; auto. econstructor; eauto. }
    eapply (G (Datatypes.S (vsize tk))); eauto. }
  intros j [S1 pool] t H. destruct (vtsteps_inv adj order ranks nodes c HK up0 dn0 s HC upv dnv L1 L2 j _ _ _ _ H _ _ C0 I0) as (C1 & I1 & L3). cbn [fst snd] in *.
  split. { eapply (vinv_safe adj order ranks nodes c HK up0 dn0 s HC upv dnv L1 L2); eauto. }
  split. { destruct (vinv_progress adj order ranks nodes c HK up0 dn0 s HC upv dnv L1 L2 t S1 pool _ _ I1) as [|(S' & pool' & t' & Hst)]; [lia|auto|]. right. eauto. }
  split. { apply vtsteps_size in H. lia. }
  intros Fi. f_equal.
  - apply (vcf_unique adj order ranks nodes c HK up0 dn0 s HC upv dnv L1 L2). eapply (vinv_finished adj order ranks nodes c HK up0 dn0 s HC upv dnv L1 L2); eauto.
  - rewrite (FR t Fi) in L3. assert (Lp : length pool = threads) by lia. rewrite <- Lp. clear -C1. induction C1 as [|x l -> _ IH]; [reflexivity|]. cbn [length repeat]. f_equal. exact IH.
Qed.
Print Assumptions C66_parallel_validities.

(** the graph of C28_nonvacuous: the weights 10 (0 to 1) and 11 (3 to 1) decrease and get the later of the two validities on the shorter way *)
Definition vd_run : option (list N * list N * list N * list N) :=
  g <- from_adjacency_lists pf_adj ;; c <- cch_contract g pf_order pf_order ;; k <- customize c g ;;
  vs <- customize_with_validity c (weight (k_fw k)) (weight (k_bw k)) [5; 3; 0; 8; 0; 9]%N [1; 0; 6; 7; 4; 2]%N ;; Some (v_up vs, v_upv vs, v_dn vs, v_dnv vs).
Example C66_nonvacuous : vd_run = Some ([2; 1; 3; 4; 6; 2]%N, [7; 3; 9; 8; 9; 9]%N, [3; 3; 1; 1; 3; 2]%N, [1; 9; 6; 7; 7; 2]%N) /\
  (* bounds for arcs of weight 1 that exist from time 1 on *)
  forall c, valid_bounds (fun t x y w => (1 <= t)%N /\ w = 1%N) c [10; 1; INF; 4; INF; 2]%N [3; INF; 1; 1; 11; 2]%N [5; 3; 0; 8; 0; 9]%N [1; 0; 6; 7; 4; 2]%N.
Proof.
  split; [vm_compute; reflexivity|]. intros c e x y _.
  split; intros w v t Hw Hv Hl Ht; (assert (H : (1 <= t /\ 1 <= w)%N) by (do 6 (destruct e as [|e]; [cbn in Hw, Hv; injection Hw as <-; injection Hv as <-; lia|]); destruct e; discriminate));
  (exists 1%N; split; [|lia]; refine (walk_cons _ _ _ _ 1%N 0%N _ _); [split; [lia|reflexivity]|constructor]).
Qed.

(** the graph of C27_perfect_nonvacuous: four calls, two of them with work that may interleave *)
Fixpoint vshape (t : vtask) : list nat :=
  match t with VExec code subs | VRun _ code subs => length code :: flat_map vshape subs | VScope subs => flat_map vshape subs end.
Example C66_parallel_nonvacuous :
  valid_adj px_adj /\ fits_u32 px_adj /\ node_order (length px_adj) px_order px_ranks /\
  (g <- from_adjacency_lists px_adj ;; c <- cch_contract g px_order px_ranks ;; mg <- from_adjacency_lists px_m ;; k <- customize c mg ;; sep <- sep_new (c_elim c) ;; _ <- validate sep ;;
   tk <- par_validity c 2 sep ;; vs <- customize_with_validity c (weight (k_fw k)) (weight (k_bw k)) [7; 1; 2; 3; 4; 5; 6; 9]%N [3; 1; 4; 1; 5; 9; 2; 6]%N ;;
   Some (vshape tk, v_up vs, v_upv vs)) = Some ([0; 0; 94; 48], [5; 3; 0; 1; 3; 8; INF; 9]%N, [4; 1; 2; 3; 4; 5; 6; 9]%N).
Proof.
  split; [apply valid_check; vm_compute; reflexivity|]. split; [split; vm_compute; reflexivity|]. split; [apply order_check; vm_compute; reflexivity|].
  vm_compute. reflexivity.
Qed.
