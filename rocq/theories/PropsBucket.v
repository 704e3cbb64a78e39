(** Statements about BucketCHPotential, which reports the distances to many targets at once. *)
From Verif Require Import PropsTTF Base SpecGraph SpecPQ SpecCCH SpecCH IndexHeap IndexHeapProof Graph ExTab CCH CCHQuery CCHPerfect CHPrep Dijkstra LoopProof
  CCHViewProof CCHBuildProof CCHContractProof PropsCCH PropsPerfect PropsRphast PropsCHPrep Bucket BucketProof BPotProof.

(** the targets of the last init of a history of calls *)
Definition last_targets (ops : list bp_op) (ts : list nat) : list nat := fold_left (fun o op => match op with BpInit ts => ts | BpValue _ => o end) ops ts.
(** init takes different nodes *)
Definition bp_op_ok (n : nat) (op : bp_op) : Prop := match op with BpInit ts => NoDup ts /\ forall t, In t ts -> t < n | BpValue v => v < n end.

Lemma bp_calls n arc order ranks lf lb : hierarchy n arc order ranks lf lb -> forall ops, Forall (bp_op_ok n) ops -> forall p targets ts,
  mapM (fun t => nth_error ranks t) targets = Some ts -> BpOK n lf lb p (Some ts) ->
  exists p' ts', bp_history false n ranks lf lb p ops = Some p' /\ mapM (fun t => nth_error ranks t) (last_targets ops targets) = Some ts' /\ BpOK n lf lb p' (Some ts').
Proof.
  intros HH ops HO. induction HO as [|op ops Hop HO IH]; intros p targets ts Ets HP; unfold bp_history; cbn [foldM].
  - exists p, ts. auto.
  - destruct op as [tg|v]; cbn [bp_do bp_op_ok] in *.
    + destruct Hop as [ND HT]. destruct (bp_init_ok n arc order ranks lf lb HH p _ tg HP ND HT) as (p1 & ts1 & E1 & Et1 & H1). rewrite E1. cbn [bind]. apply (IH p1 tg ts1 Et1 H1).
    + destruct (bp_value_ok n arc order ranks lf lb HH p targets ts v HP Ets Hop) as (p1 & row & E1 & H1 & _). rewrite E1. cbn [bind]. apply (IH p1 targets ts Ets H1).
Qed.

(** However often init and potential were called before (in a release build, with different targets per init), every call returns
    (no panic, no endless loop), and potential(v) is the list of the distances from v to the targets of the last init, in their
    order, with INFINITY exactly for targets to which there is no path shorter than INFINITY. *)
Theorem C52_many_to_many_potential_is_exact :
  forall n arc order ranks lf lb, hierarchy n arc order ranks lf lb ->
  forall targets ops, bp_op_ok n (BpInit targets) -> Forall (bp_op_ok n) ops ->
  exists p, bp_history false n ranks lf lb (bp_new n) (BpInit targets :: ops) = Some p /\
  forall v, v < n -> exists p' row, bp_value false n ranks lf p v = Some (p', row) /\ length row = length (last_targets ops targets) /\
  forall i t, nth_error (last_targets ops targets) i = Some t -> exists d, nth_error row i = Some d /\ exact_answer arc v t (reported d).
Proof.
  intros n arc order ranks lf lb HH targets ops [ND HT] HO. unfold bp_history. cbn [foldM bp_do].
  destruct (bp_init_ok n arc order ranks lf lb HH _ None targets (bp_new_ok n lf lb) ND HT) as (p & ts & E & Ets & HP). rewrite E. cbn [bind].
  destruct (bp_calls n arc order ranks lf lb HH ops HO p targets ts Ets HP) as (p' & ts' & E' & Ets' & HP'). unfold bp_history in E'. rewrite E'. exists p'. split; auto.
  intros v Hv. destruct (bp_value_ok n arc order ranks lf lb HH p' _ ts' v HP' Ets' Hv) as (p2 & row & E2 & _ & L & X). eauto.
Qed.
Print Assumptions C52_many_to_many_potential_is_exact.

Theorem C52_many_to_many_potential_on_cch :
  forall adj g order ranks c madj k, valid_adj adj -> fits_u32 adj -> from_adjacency_lists adj = Some g -> node_order (length adj) order ranks ->
  cch_contract g order ranks = Some c -> any_metric_for adj c madj k ->
  forall targets ops, bp_op_ok (length adj) (BpInit targets) -> Forall (bp_op_ok (length adj)) ops ->
  exists p, bp_history false (length adj) ranks (link_iter (k_fw k)) (link_iter (k_bw k)) (bp_new (length adj)) (BpInit targets :: ops) = Some p /\
  forall v, v < length adj -> exists p' row, bp_value false (length adj) ranks (link_iter (k_fw k)) p v = Some (p', row) /\ length row = length (last_targets ops targets) /\
  forall i t, nth_error (last_targets ops targets) i = Some t -> exists d, nth_error row i = Some d /\ exact_answer (adj_arc madj) v t (reported d).
Proof. intros adj g order ranks c madj k HV HF Hg HO E Hm. eapply C52_many_to_many_potential_is_exact. eapply C32_customized_cch_is_a_hierarchy; eauto. Qed.
Print Assumptions C52_many_to_many_potential_on_cch.

Theorem C52_many_to_many_potential_on_contracted_graph :
  forall adj g order ranks c, valid_adj adj -> from_adjacency_lists adj = Some g -> node_order (length adj) order ranks ->
  ch_contract g order ranks = Some c -> light c ->
  forall targets ops, bp_op_ok (length adj) (BpInit targets) -> Forall (bp_op_ok (length adj)) ops ->
  exists p, bp_history false (length adj) ranks (link_iter (chi_fw c)) (link_iter (chi_bw c)) (bp_new (length adj)) (BpInit targets :: ops) = Some p /\
  forall v, v < length adj -> exists p' row, bp_value false (length adj) ranks (link_iter (chi_fw c)) p v = Some (p', row) /\ length row = length (last_targets ops targets) /\
  forall i t, nth_error (last_targets ops targets) i = Some t -> exists d, nth_error row i = Some d /\ exact_answer (adj_arc adj) v t (reported d).
Proof. intros. eapply C52_many_to_many_potential_is_exact; eauto. eapply C44_contraction_preserves_distances_partial; eauto. Qed.
Print Assumptions C52_many_to_many_potential_on_contracted_graph.

(** ** What is excluded above *)

(** In a debug build the assertion of l.557 tests the flag of the wrong node: after init the first call of potential for any node
    that has an upward arc panics. *)
Theorem C52_debug_build_panics :
  forall n ranks lf lb p0 targets p v r a ls, bp_init n ranks lf lb p0 targets = Some p -> nth_error ranks v = Some r -> lf r = Some (a :: ls) ->
  bp_value true n ranks lf p v = None.
Proof.
  intros n ranks lf lb p0 targets p v r a ls E Er El. unfold bp_value. rewrite Er. cbn [bind].
  assert (HF : forall u, nth_error (bp_final p) u <> Some true).
  { unfold bp_init in E. destruct (foldM _ (bp_clear p0) (bp_pots p0)); [|discriminate]. cbn [bind] in E. destruct (mapM _ targets); [|discriminate]. cbn [bind] in E. destruct (bs_run _ _ _ _ _ _); [|discriminate]. cbn [bind] in E.
    injection E as <-. cbn. intros u H. apply nth_rep in H. discriminate. }
  (* a call for a node above [m] never marks a node up to [m] *)
  assert (K : forall fuel node s s', bp_compute true lf (bs_dist (bp_sel p)) (bp_num p) fuel node s = Some s' -> forall m, m < node -> nth_error (snd (fst s')) m = nth_error (snd (fst s)) m).
  { induction fuel as [|fuel IH]; intros node [[pots final] clear] s' Ec m Hm; [discriminate|]. cbn [bp_compute] in Ec. destruct (nth_error final node) as [f|]; [|discriminate]. cbn [bind] in Ec. destruct f; [injection Ec as <-; auto|].
    destruct (nth_error pots node) as [o|]; [|discriminate]. cbn [bind] in Ec.
    match type of Ec with (bind ?x _ = _) => destruct x as [s1'|] eqn:E1 end; [|discriminate]. cbn [bind] in Ec.
    assert (F1 : snd (fst s1') = final). { destruct o; [injection E1 as <-; auto|]. destruct (nth_error (bs_dist _) node); [|discriminate]. cbn [bind] in E1. destruct (foldM bp_enter _ _); [|discriminate]. cbn [bind] in E1. destruct (set_at pots _ _); [|discriminate]. cbn [bind] in E1. injection E1 as <-. auto. }
    destruct (lf node) as [hs|]; [|discriminate]. cbn [bind] in Ec. clear E1.
    match type of Ec with (bind (foldM ?f _ _) _ = _) => set (ff := f) in Ec end. destruct (foldM ff hs s1') as [[[pots2 final2] clear2]|] eqn:Ef; [|discriminate]. cbn [bind] in Ec.
    assert (F2 : nth_error final2 m = nth_error final m).
    { rewrite <- F1. clear Ec F1. revert s1' Ef. induction hs as [|[h w] hs IHh]; intros s1 Ef; cbn [foldM] in Ef. { injection Ef as ->. auto. }
      destruct (ff s1 (h, w)) as [s2|] eqn:E2; [|discriminate]. cbn [bind] in Ef. rewrite (IHh _ Ef). unfold ff in E2. cbn [fst snd] in E2.
      destruct (node <? h) eqn:Lh; [|discriminate]. apply Nat.ltb_lt in Lh. cbn [negb orb guard bind] in E2. destruct (bp_compute true lf _ _ fuel h s1) as [[[pots3 final3] clear3]|] eqn:E3; [|discriminate]. cbn [bind] in E2.
      destruct (nth_error final3 node) as [f3|]; [|discriminate]. cbn [bind] in E2. destruct f3; [|discriminate]. cbn [orb guard bind] in E2. destruct (nth_error pots3 h) as [[hr|]|]; try discriminate. cbn [bind] in E2. destruct (nth_error pots3 node) as [[rr|]|]; try discriminate. cbn [bind] in E2.
      destruct (zip_min rr hr w); [|discriminate]. cbn [bind] in E2. destruct (set_at pots3 node _); [|discriminate]. cbn [bind] in E2. injection E2 as <-. cbn [fst snd]. apply (IH h s1 _ E3 m). lia. }
    destruct (set_at final2 node true) as [final3|] eqn:Es; [|discriminate]. cbn [bind] in Ec. injection Ec as <-. cbn [fst snd]. rewrite <- F2.
    unfold set_at in Es. destruct (node <? length final2); [|discriminate]. injection Es as <-. apply nth_error_upd_neq. lia. }
  cbn [bp_compute]. destruct (nth_error (bp_final p) r) as [f|] eqn:Ef; [|auto]. cbn [bind]. destruct f; [exfalso; eapply HF; eauto|].
  destruct (nth_error (bp_pots p) r) as [o|]; [|auto]. cbn [bind].
  match goal with |- bind (bind ?x _) _ = _ => destruct x as [s1|] eqn:E1 end; [|auto]. cbn [bind].
  assert (F1 : snd (fst s1) = bp_final p). { destruct o; [injection E1 as <-; auto|]. destruct (nth_error (bs_dist _) r); [|discriminate]. cbn [bind] in E1. destruct (foldM bp_enter _ _); [|discriminate]. cbn [bind] in E1. destruct (set_at (bp_pots p) _ _); [|discriminate]. cbn [bind] in E1. injection E1 as <-. auto. }
  rewrite El. cbn [bind foldM]. destruct (r <? fst a) eqn:La; [|auto]. apply Nat.ltb_lt in La. cbn [negb orb guard bind].
  destruct (bp_compute true lf _ _ n (fst a) s1) as [[[pots3 final3] clear3]|] eqn:E3; [|auto]. cbn [bind]. pose proof (K _ _ _ _ E3 r La) as Q. cbn [fst snd] in Q. rewrite Q, F1, Ef. auto.
Qed.
Print Assumptions C52_debug_build_panics.

(** A target that is named twice makes init panic. *)
Lemma first_dup (l : list nat) : ~ NoDup l -> exists l1 x l2, l = l1 ++ x :: l2 /\ NoDup l1 /\ In x l1.
Proof.
  intros H. induction l as [|y l IH] using rev_ind. { exfalso. apply H. constructor. }
  destruct (ListDec.NoDup_dec Nat.eq_dec l) as [N|N].
  - exists l, y, []. split; auto. split; auto. destruct (in_dec Nat.eq_dec y l) as [I|I]; auto. exfalso. apply H. apply NoDup_Add with (a := y) (l := l). { replace (l ++ [y]) with (l ++ y :: []) by auto. rewrite <- (app_nil_r l) at 1. apply Add_app. } auto.
  - destruct (IH N) as (l1 & x & l2 & E & N1 & I1). exists l1, x, (l2 ++ [y]). split; auto. rewrite E, <- app_assoc. auto.
Qed.
Theorem C52_repeated_target_panics :
  forall n arc order ranks lf lb, hierarchy n arc order ranks lf lb ->
  forall p targets, (p = bp_new n \/ exists targets0 ops, Forall (bp_op_ok n) (BpInit targets0 :: ops) /\ bp_history false n ranks lf lb (bp_new n) (BpInit targets0 :: ops) = Some p) ->
  (forall t, In t targets -> t < n) -> ~ NoDup targets -> bp_init n ranks lf lb p targets = None.
Proof.
  intros n arc order ranks lf lb HH p targets Hp HT ND.
  assert (C : clean n (bp_sel p)).
  { destruct Hp as [->|(t0 & ops & HO & Eh)]; [apply (bp_new_ok n lf lb)|]. inversion HO as [|? ? Hop0 HO']; subst. destruct Hop0 as [ND0 HT0]. unfold bp_history in Eh. cbn [foldM bp_do] in Eh.
    destruct (bp_init_ok n arc order ranks lf lb HH _ None t0 (bp_new_ok n lf lb) ND0 HT0) as (p1 & ts1 & E1 & Et1 & H1). rewrite E1 in Eh. cbn [bind] in Eh.
    destruct (bp_calls n arc order ranks lf lb HH ops HO' p1 t0 ts1 Et1 H1) as (p2 & ts2 & E2 & _ & H2). unfold bp_history in E2. assert (p2 = p) by congruence. subst. apply H2. }
  unfold bp_init. destruct (foldM _ (bp_clear p) (bp_pots p)); [|auto]. cbn [bind]. destruct (mapM (fun t => nth_error ranks t) targets) as [ts|] eqn:Ets; [|auto]. cbn [bind].
  destruct (first_dup targets ND) as (l1 & x & l2 & El & N1 & I1). assert (HT1 : forall t, In t l1 -> t < n). { intros t Ht. apply HT. rewrite El. apply in_or_app; auto. }
  destruct (targets_ranks n arc order ranks lf lb HH l1 N1 HT1) as (ts1 & E1 & NT1 & HTs1 & _). rewrite El, mapM_app, E1 in Ets. cbn [bind mapM] in Ets. destruct (nth_error ranks x) as [r|] eqn:Er; [|discriminate]. cbn [bind] in Ets. destruct (mapM _ l2) as [ts2|]; [|discriminate]. cbn [bind] in Ets. injection Ets as <-.
  assert (Ir : In r ts1). { apply In_nth_error in I1. destruct I1 as (i & Ei). destruct (Forall2_nth _ _ _ i x (mapM_inv _ _ _ E1) Ei) as (r' & Er' & Hr'). assert (r' = r) by congruence. subst. eapply nth_error_In; eauto. }
  destruct C as [C1 C2 C3 C4 C5 C6]. unfold bs_run, bs_init, bq_clear, hclear. destruct (hclear_spec nat nid Nat.ltb n _ C6) as (P & E & I & A). rewrite E. cbn [bind].
  destruct (init_fold n lb ts1 (fun l => l) NT1 HTs1 (fun l => Permutation.Permutation_refl l) (fun _ => True) (fun _ _ => Logic.I) (fun _ _ _ => Logic.I) ts1 0 (mkHeap P []) (repeat [] (length (bs_dist (bp_sel p))))) as (q & dist & Ef & L & I' & Q & D); auto. { rewrite repeat_length; auto. } { intros c. unfold qin. rewrite A. split; [tauto|intros (i & Hi & _); lia]. } { intros u row Eu. apply nth_rep in Eu. subst. split; [constructor|]. intros i d. split; [intros []|intros (? & _); lia]. }
  rewrite foldM_app, Ef. cbn [bind foldM]. unfold bs_terminal at 1. unfold bq_push, hpush. rewrite (hcontains_abs nat nid Nat.ltb n q (nid r) I') by (apply HTs1; auto). cbn [bind].
  assert (Qr : qin q r). { apply Q. apply In_nth_error; auto. } unfold qin in Qr. unfold nid at 1. destruct (qabs q r); [auto|tauto].
Qed.
Print Assumptions C52_repeated_target_panics.

Example C52_nonvacuous :
  (g <- from_adjacency_lists cx_adj ;; c <- cch_contract g cx_order cx_ranks ;; mg <- from_adjacency_lists cx_madj ;; k <- customize c mg ;;
   p <- bp_history false 5 cx_ranks (link_iter (k_fw k)) (link_iter (k_bw k)) (bp_new 5) [BpInit [3; 0]; BpValue 0; BpValue 4; BpInit [4; 1; 2]; BpValue 4] ;;
   rs <- mapM (fun v => '(_, r) <- bp_value false 5 cx_ranks (link_iter (k_fw k)) p v ;; Some r) [0; 1; 2; 3; 4] ;;
   Some (rs, bp_value true 5 cx_ranks (link_iter (k_fw k)) p 0, bp_init 5 cx_ranks (link_iter (k_fw k)) (link_iter (k_bw k)) p [2; 1; 2])) = Some ([[10; 0; 9]; [16; 0; 15]; [1; 5; 0]; [14; 4; 13]; [0; 4; 13]]%N, None, None).
Proof. vm_compute. reflexivity. Qed.
