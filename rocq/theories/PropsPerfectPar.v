(** Statements about the parallel perfect customization. *)
From Verif Require Import Base SpecGraph SpecCCH BitVec Graph ExTab CCH CCHTheory CCHContractProof CCHBuildProof CCHCustProof CCHMetricProof
  CCHQuery CCHPathTheory CCHViewProof CCHServerProof SepTree SepTreeProof CCHPar CCHParProof CCHParTreeProof CCHPerfect CCHPerfectProof CCHPerfectPar CCHRebuild CCHRebuildProof CCHPerfectView PropsCCH PropsPar PropsPot PropsPerfect.

(** ** C27: the perfect customization in parallel *)

(** Any interleaving of the steps of the calls, for any number of workers each with its own workspace:
    no step panics, it never gets stuck, it ends after boundedly many steps, the result is the one of the sequential routine
    and all workspaces are clean again. *)
Theorem C27_parallel_perfect_customization_schedule_independent :
  forall adj g order ranks c, valid_adj adj -> fits_u32 adj -> from_adjacency_lists adj = Some g -> node_order (length adj) order ranks ->
  cch_contract g order ranks = Some c ->
  forall madj k, metric_for adj c madj k ->
  forall sep threads, 0 < threads -> sep_new (c_elim c) = Some sep -> validate sep = Some tt ->
  let ws := repeat None (length adj) in
  let init := (psh_init (weight (k_fw k)) (weight (k_bw k)), repeat ws threads) in
  exists seq task bound,
    perfect_weights c (weight (k_fw k)) (weight (k_bw k)) = Some seq /\ par_perfect c threads sep = Some task /\
    (exists j sp t, qsteps j init task sp t /\ qfinished t) /\
    forall j sp t, qsteps j init task sp t ->
      ~ qpanic (fst sp) t /\ (qfinished t \/ exists sp' t', qstep sp t sp' t') /\ j <= bound /\
      (qfinished t -> sp = (seq, repeat ws threads)).
Proof.
  intros adj g order ranks c HV HF Hg HO E madj k Hm sep threads Ht Hs V ws init.
  destruct (perfect_exists _ _ _ _ _ _ _ HV HF Hg HO E Hm) as (nodes & up0 & dn0 & s & S & HK & HVm & HR & LS & FS & EW & _).
  pose proof (cr_ok _ _ _ _ _ _ _ _ _ _ HR) as HC.
  assert (Ei : init = (psh_init (s_up s) (s_dn s), repeat ws threads)) by (unfold init; rewrite (cr_k _ _ _ _ _ _ _ _ _ _ HR); reflexivity).
  destruct (par_perfect_ok adj order ranks nodes c HK up0 dn0 s HC threads sep Hs V) as (tk & Et & Ht0 & Hr0).
  assert (C0 : clean adj (snd init)). { rewrite Ei. cbn [snd]. apply Forall_forall. intros x Hx. apply repeat_spec in Hx. auto. }
  assert (I0 : qinv adj nodes c s (fst init) 0 (length adj) tk) by (rewrite Ei; exact Ht0).
  assert (L0 : length (snd init) + running tk = threads) by (rewrite Ei, Hr0; cbn [snd]; rewrite repeat_length; lia).
  assert (FR : forall t, qfinished t -> running t = 0).
  { induction t as [code subs IH|p code subs IH|subs IH] using qtask_ind2; intros F; inversion F as [subs' F' X]; clear X. cbn [running].
    rewrite Forall_forall in IH, F'. clear F. induction subs as [|t subs IHs]; [reflexivity|]. cbn [map list_sum fold_right]. rewrite (IH t) by (try apply F'; left; auto).
    apply IHs; intros; [apply IH|apply F']; auto; right; auto. }
  exists S, tk, (qsize tk). split; [exact EW|]. split; [exact Et|]. split.
  { assert (G : forall b sp t, qsize t < b -> clean adj (snd sp) -> qinv adj nodes c s (fst sp) 0 (length adj) t -> length (snd sp) + running t = threads -> exists j sp' t', qsteps j sp t sp' t' /\ qfinished t').
    { induction b as [|b IH]; intros [S1 pool] t Hb HC1 Hi HL; [lia|]. cbn [fst snd] in *.
      destruct (qinv_progress adj order ranks nodes c HK up0 dn0 s HC t S1 pool _ _ Hi) as [Fi|(S' & pool' & t' & Hst)]; [lia| |].
      - exists 0, (S1, pool), t. split; auto. constructor.
      - pose proof (qstep_size _ _ _ _ Hst). destruct (qstep_inv adj order ranks nodes c HK up0 dn0 s HC _ _ _ _ Hst _ _ HC1 Hi) as (C' & I' & _ & L').
        destruct (IH (S', pool') t') as (j & s2 & t2 & Hj & Hf); [lia|auto|auto|cbn [snd] in *; lia|]. exists (Datatypes.S j), s2, t2. split; auto. econstructor; eauto. }
    eapply (G (Datatypes.S (qsize tk))); eauto. }
  intros j [S1 pool] t H. destruct (qsteps_inv adj order ranks nodes c HK up0 dn0 s HC j _ _ _ _ H _ _ C0 I0) as (C1 & I1 & L1). cbn [fst snd] in *.
  split. { eapply (qinv_safe adj order ranks nodes c HK up0 dn0 s HC); eauto. }
  split. { destruct (qinv_progress adj order ranks nodes c HK up0 dn0 s HC t S1 pool _ _ I1) as [|(S' & pool' & t' & Hst)]; [lia|auto|]. right. eauto. }
  split. { apply qsteps_size in H. lia. }
  intros Fi. f_equal.
  - destruct (qinv_closed adj nodes c s _ _ _ _ I1) as (_ & _ & GL).
    apply (perfect_unique adj order ranks nodes c HK up0 dn0 s HC); auto. eapply (qinv_finished adj order ranks nodes c HK up0 dn0 s HC); eauto.
  - rewrite (FR t Fi) in L1. assert (Lp : length pool = threads) by lia. rewrite <- Lp. clear -C1. induction C1 as [|x l -> _ IH]; [reflexivity|]. cbn [length repeat]. f_equal. exact IH.
Qed.
Print Assumptions C27_parallel_perfect_customization_schedule_independent.

(** the tasks of the example of C27 *)
Fixpoint qshape (t : qtask) : list nat :=
  match t with QExec code subs | QRun _ code subs => length code :: flat_map qshape subs | QScope subs => flat_map qshape subs end.
Definition px_m : list (list (nat * N)) := [[(1, 3%N); (2, 14%N)]; [(2, 2%N); (0, 1%N)]; [(3, 1%N); (1, 0%N)]; [(4, 4%N)]; [(5, 2%N); (3, 9%N)]; [(6, 1%N)]; [(5, 8%N)]].
Example C27_perfect_nonvacuous :
  valid_adj px_adj /\ fits_u32 px_adj /\ node_order (length px_adj) px_order px_ranks /\
  (g <- from_adjacency_lists px_adj ;; c <- cch_contract g px_order px_ranks ;; mg <- from_adjacency_lists px_m ;; k <- customize c mg ;; sep <- sep_new (c_elim c) ;; _ <- validate sep ;;
   tk <- par_perfect c 2 sep ;; s <- perfect_weights c (weight (k_fw k)) (weight (k_bw k)) ;;
   Some (qshape tk, weight (k_fw k), g_up s, g_upm s)) = 
    Some ([0; 0; 94; 48], [14; 3; 0; 1; 3; 8; INF; 9]%N, [5; 3; 0; 1; 3; 8; INF; 9]%N, [true; false; false; false; false; false; false; false]).
Proof.
  split; [apply valid_check; vm_compute; reflexivity|]. split; [split; vm_compute; reflexivity|]. split; [apply order_check; vm_compute; reflexivity|].
  vm_compute. reflexivity.
Qed.
