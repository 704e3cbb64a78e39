(** Statements about CHPotential, the lazily evaluated exact potential on any contraction hierarchy. *)
From Verif Require Import PropsTTF PLFProof PLFRange Base SpecGraph SpecTTF SpecCCH SpecCH Graph ExTab CCH CCHQuery CCHPerfect CHPrep Dijkstra DijServer DijServerProof TDGraph TDGraphProof TDQueryProof
  CCHQueryProof CCHViewProof PropsDijkstra PropsTD PropsCCH CCHPot PropsPot PropsPerfect PropsRphast PropsCHPrep CHPot CHPotProof LowerPotProof.

(** the node of the last init of a history of calls *)
Definition last_init (ops : list cp_op) (t : nat) : nat := fold_left (fun o op => match op with CpInit u => u | CpValue _ => o end) ops t.
Definition cp_op_ok (n : nat) (op : cp_op) : Prop := match op with CpInit u => u < n | CpValue v => v < n end.

(** However often the potential was initialized and asked before, init and every later call of potential returns (no panic, no endless
    loop), and potential(v) is the distance from v to the target of the last init, and None exactly if there is no path shorter than
    INFINITY. *)
Theorem C51_potential_is_exact :
  forall n arc order ranks lf lb, hierarchy n arc order ranks lf lb ->
  forall ops t, Forall (cp_op_ok n) ops -> t < n ->
  exists p, cp_history n ranks lf lb (cp_new n) (CpInit t :: ops) = Some p /\
  forall v, v < n -> exists p' r, cp_value n ranks lf p v = Some (p', r) /\ exact_answer arc v (last_init ops t) r.
Proof.
  intros n arc order ranks lf lb HH ops t HO Ht. unfold cp_history. cbn [foldM cp_do].
  destruct (cp_init_ok n arc order ranks lf lb HH _ None t (cp_new_ok n ranks lf lb) Ht) as (p & E & HP). rewrite E. cbn [bind].
  destruct (cp_calls n arc order ranks lf lb HH ops HO p t HP) as (p' & E' & HP'). unfold cp_history in E'. rewrite E'. exists p'. split; auto.
  intros v Hv. destruct (cp_value_ok n arc order ranks lf lb HH p' _ v HP' Hv) as (p2 & r & E2 & _ & X). eauto.
Qed.
Print Assumptions C51_potential_is_exact.

(** on a customized contraction hierarchy *)
Theorem C51_potential_on_cch :
  forall adj g order ranks c madj k, valid_adj adj -> fits_u32 adj -> from_adjacency_lists adj = Some g -> node_order (length adj) order ranks ->
  cch_contract g order ranks = Some c -> any_metric_for adj c madj k ->
  forall ops t, Forall (cp_op_ok (length adj)) ops -> t < length adj ->
  exists p, cp_history (length adj) ranks (link_iter (k_fw k)) (link_iter (k_bw k)) (cp_new (length adj)) (CpInit t :: ops) = Some p /\
  forall v, v < length adj -> exists p' r, cp_value (length adj) ranks (link_iter (k_fw k)) p v = Some (p', r) /\ exact_answer (adj_arc madj) v (last_init ops t) r.
Proof. intros adj g order ranks c madj k HV HF Hg HO E Hm. eapply C51_potential_is_exact. eapply C32_customized_cch_is_a_hierarchy; eauto. Qed.
Print Assumptions C51_potential_on_cch.

(** on a hierarchy contracted with witness search *)
Theorem C51_potential_on_contracted_graph :
  forall adj g order ranks c, valid_adj adj -> from_adjacency_lists adj = Some g -> node_order (length adj) order ranks ->
  ch_contract g order ranks = Some c -> light c ->
  forall ops t, Forall (cp_op_ok (length adj)) ops -> t < length adj ->
  exists p, cp_history (length adj) ranks (link_iter (chi_fw c)) (link_iter (chi_bw c)) (cp_new (length adj)) (CpInit t :: ops) = Some p /\
  forall v, v < length adj -> exists p' r, cp_value (length adj) ranks (link_iter (chi_fw c)) p v = Some (p', r) /\ exact_answer (adj_arc adj) v (last_init ops t) r.
Proof. intros. eapply C51_potential_is_exact; eauto. eapply C44_contraction_preserves_distances_partial; eauto. Qed.
Print Assumptions C51_potential_on_contracted_graph.

(** ** C54: A* with CH potentials. A query metric none of whose arcs is below the metric of the hierarchy is searched with the
    lazily evaluated distances of the hierarchy as potential. *)

(** every arc of the query graph has a counterpart in the lower bound graph that is not longer *)
Definition bounded_below (n : nat) (arc barc : nat -> nat -> N -> Prop) : Prop := forall u v w, barc u v w -> u < n /\ exists w0, arc u v w0 /\ (w0 <= w)%N.

Theorem C54_astar_with_ch_potential_is_exact :
  forall n arc order ranks lf lb links ops sv s t, hierarchy n arc order ranks lf lb -> wf_links n links -> bounded_below n arc (garc links) ->
  Forall (op_ok n (fun t => t < n)) ops ->
  sv_history n links fst def_lk def_pl (cp_init n ranks lb) (cp_value n ranks lf) (sv_new n tt (cp_new n)) ops = Some sv -> s < n -> t < n ->
  exists sv' r, sv_distance n links fst def_lk def_pl (cp_init n ranks lb) (cp_value n ranks lf) sv s t 0 = Some (sv', r) /\ exact_answer (garc links) s t r /\
    forall x, r = Some x -> exists p, sv_node_path sv' s t = Some p /\ npath (garc links) s p t x /\ NoDup p.
Proof.
  intros n arc order ranks lf lb links ops sv s t HH WF HL Ho Eh Hs Ht.
  set (EI := fun p => exists o, CpOK n ranks lf lb p o). set (ET := fun t p => CpOK n ranks lf lb p (Some t)).
  assert (H0 : EI (cp_new n)) by (exists None; apply cp_new_ok).
  assert (HI : forall e t, EI e -> t < n -> exists e', cp_init n ranks lb e t = Some e' /\ ET t e') by (intros e t0 (o & He) Ht0; eapply cp_init_ok; eauto).
  assert (HG : forall e t v, ET t e -> t < n -> v < n -> exists e' r, cp_value n ranks lf e v = Some (e', r) /\ ET t e' /\ exact_answer arc v t r) by (intros e t0 v He _ Hv; eapply cp_value_ok; eauto).
  assert (HK : forall e t, ET t e -> EI e) by (intros e t0 He; exists (Some t0); exact He).
  apply (C20_astar_with_lower_bounds_is_exact _ n links _ _ _ _ _ _ (cp_new n) ops sv s t WF (exact_contract n arc _ _ EI ET _ H0 HI HG HK)); auto.
  intros t' Ht'. split; [eapply exact_h_small; eauto|eapply exact_h_admissible; eauto].
Qed.
Print Assumptions C54_astar_with_ch_potential_is_exact.

(** a CCHPotential meets the contract of potentials *)
Lemma cch_pot_states adj g order ranks c madj k : valid_adj adj -> fits_u32 adj -> from_adjacency_lists adj = Some g -> node_order (length adj) order ranks ->
  cch_contract g order ranks = Some c -> any_metric_for adj c madj k ->
  exists (EI : cpot -> Prop) (ET : nat -> cpot -> Prop), EI (pot_forward k) /\
    (forall e t, EI e -> t < length adj -> exists e', pot_init e t = Some e' /\ ET t e') /\
    (forall e t v, ET t e -> t < length adj -> v < length adj -> exists e' r, pot_value e v = Some (e', r) /\ ET t e' /\ exact_answer (adj_arc madj) v t r) /\
    (forall e t, ET t e -> EI e).
Proof.
  intros HV HF Hg HO E Hm. pose proof (C28_potential_on_perfect_customization_exact adj g order ranks c HV HF Hg HO E madj k Hm) as K.
  set (ET := fun t e => exists t0 ops, pot_calls_ok adj (PotInit t0 :: ops) /\ pot_history (pot_forward k) (PotInit t0 :: ops) = Some e /\ current_target (PotInit t0 :: ops) = Some t).
  assert (CT : forall ops op, current_target (ops ++ [op]) = match op with PotInit t' => Some t' | PotValue _ => current_target ops end).
  { intros ops op. unfold current_target. rewrite fold_left_app. cbn. destruct op; auto. }
  assert (PH : forall p ops op e, pot_history p ops = Some e -> pot_history p (ops ++ [op]) = pot_do e op).
  { intros p ops. revert p. unfold pot_history. induction ops as [|o ops IH]; intros p op e; cbn [app foldM]. { intros H. injection H as ->. destruct (pot_do e op); auto. } destruct (pot_do p o) as [p1|]; [|discriminate]. cbn [bind]. apply IH. }
  exists (fun e => e = pot_forward k \/ exists t, ET t e), ET. split; [auto|]. split; [|split].
  - intros e t [->|(t1 & t0 & ops & Hc & Eh & _)] Ht.
    + assert (Hc : pot_calls_ok adj [PotInit t]) by (intros op [<-|[]]; auto). destruct (K t [] Hc) as (p & Ep & _). exists p. split. { unfold pot_history in Ep. cbn [foldM pot_do] in Ep. destruct (pot_init (pot_forward k) t); [exact Ep|discriminate]. } exists t, []. auto.
    + assert (Hc' : pot_calls_ok adj (PotInit t0 :: ops ++ [PotInit t])). { intros op Hin. rewrite app_comm_cons in Hin. apply in_app_or in Hin. destruct Hin as [Hin|[<-|[]]]; [apply (Hc op Hin)|exact Ht]. }
      destruct (K t0 (ops ++ [PotInit t]) Hc') as (p & Ep & _). pose proof Ep as Ep'. rewrite app_comm_cons, (PH _ _ _ _ Eh) in Ep. cbn in Ep. exists p. split; auto. exists t0, (ops ++ [PotInit t]). split; auto. split; auto. rewrite app_comm_cons, CT. auto.
  - intros e t v (t0 & ops & Hc & Eh & Et) Ht Hv. destruct (K t0 ops Hc) as (p & Ep & HP). assert (p = e) by congruence. subst p. destruct (HP v Hv) as (p' & r & t' & Ev & Et' & X). assert (t' = t) by congruence. subst t'.
    exists p', r. split; auto. split; auto. exists t0, (ops ++ [PotValue v]). split. { intros op Hin. rewrite app_comm_cons in Hin. apply in_app_or in Hin. destruct Hin as [Hin|[<-|[]]]; [apply (Hc op Hin)|exact Hv]. }
    split. { rewrite app_comm_cons, (PH _ _ _ _ Eh). cbn. rewrite Ev. auto. } rewrite app_comm_cons, CT. auto.
  - intros e t He. eauto.
Qed.

(** A* with the potential of a CCH customized with lower bounds of the query metric *)
Theorem C54_astar_with_cch_potential_is_exact :
  forall adj g order ranks c madj k links ops sv s t, valid_adj adj -> fits_u32 adj -> from_adjacency_lists adj = Some g -> node_order (length adj) order ranks ->
  cch_contract g order ranks = Some c -> any_metric_for adj c madj k ->
  wf_links (length adj) links -> bounded_below (length adj) (adj_arc madj) (garc links) ->
  Forall (op_ok (length adj) (fun t => t < length adj)) ops ->
  sv_history (length adj) links fst def_lk def_pl pot_init pot_value (sv_new (length adj) tt (pot_forward k)) ops = Some sv -> s < length adj -> t < length adj ->
  exists sv' r, sv_distance (length adj) links fst def_lk def_pl pot_init pot_value sv s t 0 = Some (sv', r) /\ exact_answer (garc links) s t r /\
    forall x, r = Some x -> exists p, sv_node_path sv' s t = Some p /\ npath (garc links) s p t x /\ NoDup p.
Proof.
  intros adj g order ranks c madj k links ops sv s t HV HF Hg HO E Hm WF HL Ho Eh Hs Ht.
  destruct (cch_pot_states adj g order ranks c madj k HV HF Hg HO E Hm) as (EI & ET & H0 & HI & HG & HK).
  apply (C20_astar_with_lower_bounds_is_exact _ (length adj) links _ _ _ _ _ _ (pot_forward k) ops sv s t WF (exact_contract (length adj) (adj_arc madj) _ _ EI ET _ H0 HI HG HK)); auto.
  intros t' Ht'. split; [eapply exact_h_small; eauto|eapply exact_h_admissible; eauto].
Qed.
Print Assumptions C54_astar_with_cch_potential_is_exact.

(** every arc has a counterpart in the lower bound graph that is not longer than any breakpoint of its travel time function *)
Definition bounded_below_td (arc : nat -> nat -> N -> Prop) (tadj : td_adj) : Prop :=
  forall u e v f, arc_at tadj u e v f -> exists w0, arc u v w0 /\ forall p, In p f -> (w0 <= snd p)%N.
Lemma bounded_td arc P tadj : bounded_below_td arc tadj -> forall u e v f d w, arc_at tadj u e v f -> ttf_value P f d w -> exists w0, arc u v w0 /\ (w0 <= w)%N.
Proof. intros H u e v f d w Ha Hv. destruct (H _ _ _ _ Ha) as (w0 & H1 & H2). exists w0. split; auto. eapply ttf_value_ge; eauto. Qed.
Lemma td_exact_h_admissible {E} arc (pinit : E -> nat -> option E) pget (EI : E -> Prop) ET e0 P (tadj : td_adj) :
  EI e0 -> (forall e t, EI e -> t < length tadj -> exists e', pinit e t = Some e' /\ ET t e') ->
  (forall e t v, ET t e -> t < length tadj -> v < length tadj -> exists e' r, pget e v = Some (e', r) /\ ET t e' /\ exact_answer arc v t r) ->
  bounded_below_td arc tadj -> forall t y dy d, t < length tadj -> reach (td_step P tadj) y dy t d -> (d < INF)%N ->
  exists p, exact_h (length tadj) pinit pget e0 t y = Some p /\ forall q, exact_h (length tadj) pinit pget e0 t t = Some q -> (dy + p <= d + q)%N.
Proof.
  intros H0 HI HG HL t y dy d Ht R Ld. assert (Hy : y < length tadj).
  { assert (G : y = t \/ exists e v f, arc_at tadj y e v f). { clear - R. induction R as [|v d u d' R IH (e & f & w & Ha & _)]; auto. destruct IH as [->|IH]; eauto. }
    destruct G as [->|(e & v & f & k & Hk & _)]; auto. destruct (Nat.lt_ge_cases y (length tadj)) as [|C]; auto. rewrite nth_overflow in Hk by auto. destruct k; discriminate. }
  destruct (lower_reach (length tadj) arc P tadj (bounded_td arc P tadj HL) y dy t d R) as (l & W & L).
  pose proof (exact_h_ok (length tadj) arc pinit pget EI ET e0 H0 HI HG t y Ht Hy) as X. destruct (exact_h (length tadj) pinit pget e0 t y) as [p|]; cbn in X.
  - exists p. split; auto. intros q _. destruct X as (_ & _ & X). specialize (X _ W). lia.
  - specialize (X _ W). lia.
Qed.

(** Time-dependent A* with the potential of a CCH customized with lower bounds of the travel times: earliest arrivals, for any
    earlier queries. *)
Theorem C54_td_astar_with_cch_potential_is_exact :
  forall adj g order ranks c madj k, valid_adj adj -> fits_u32 adj -> from_adjacency_lists adj = Some g -> node_order (length adj) order ranks ->
  cch_contract g order ranks = Some c -> any_metric_for adj c madj k ->
  forall bs P debug tadj p0 qs s t dep, nbs_contract bs -> (0 < P)%N -> wf_td P INF tadj -> length tadj = length adj -> bounded_below_td (adj_arc madj) tadj ->
  (forall q, In q (qs ++ [(s, t, dep)]) -> td_ok_query tadj q /\ snd (fst q) < length tadj) ->
  exists sv1 sv2 r,
    td_history pot_init pot_value (td_of tadj) (td_eval bs P debug (td_of tadj)) (sv_new (length tadj) p0 (pot_forward k)) qs = Some sv1 /\
    td_query pot_init pot_value (td_of tadj) (td_eval bs P debug (td_of tadj)) sv1 s t dep = Some (sv2, r) /\
    earliest (td_step P tadj) s dep t r.
Proof.
  intros adj g order ranks c madj k HV HF Hg HO E Hm bs P debug tadj p0 qs s t dep HB HP HW HN HL Hq.
  destruct (cch_pot_states adj g order ranks c madj k HV HF Hg HO E Hm) as (EI & ET & H0 & HI & HG & HK). rewrite <- HN in HI, HG.
  apply (C38_td_astar bs P debug tadj p0 (pot_forward k) pot_init pot_value (fun t => t < length tadj) EI (fun t e => t < length tadj /\ ET t e)
    (exact_h (length tadj) pot_init pot_value (pot_forward k)) qs s t dep HB HP HW); auto.
  - apply (exact_contract (length tadj) (adj_arc madj) _ _ EI ET _ H0 HI HG HK).
  - intros t' v p Hp. destruct (Nat.lt_ge_cases t' (length tadj)) as [Ht|Ht].
    + pose proof (exact_h_small (length tadj) (adj_arc madj) _ _ EI ET _ H0 HI HG HK t' Ht v p Hp). unfold U32. lia.
    + exfalso. revert Hp. unfold exact_h. destruct (v <? length tadj); [|discriminate]. unfold pot_init. destruct (nth_error (p_ranks (pot_forward k)) t') as [r|] eqn:Er; [|discriminate]. exfalso.
      apply nth_error_Some_lt in Er. cbn in Er. destruct (any_served _ _ _ _ _ _ _ HV HF Hg HO E Hm) as (A & un & hop & HW'). rewrite (v_rks _ _ _ _ _ _ _ _ HW') in Er. destruct HO as (_ & L2 & _). lia.
  - intros t' y dy d. eapply td_exact_h_admissible; eauto.
Qed.
Print Assumptions C54_td_astar_with_cch_potential_is_exact.

Example C51_nonvacuous :
  (g <- from_adjacency_lists cx_adj ;; c <- cch_contract g cx_order cx_ranks ;; mg <- from_adjacency_lists cx_madj ;; k <- customize c mg ;;
   p <- cp_history 5 cx_ranks (link_iter (k_fw k)) (link_iter (k_bw k)) (cp_new 5) [CpInit 3; CpValue 0; CpValue 4; CpInit 1; CpValue 4] ;;
   rs <- mapM (fun v => '(_, r) <- cp_value 5 cx_ranks (link_iter (k_fw k)) p v ;; Some r) [0; 1; 2; 3; 4] ;; Some rs) = Some [Some 0; Some 0; Some 5; Some 4; Some 4]%N /\
  (g <- from_adjacency_lists chp_adj ;; c <- ch_contract g [2; 0; 4; 1; 3] [1; 3; 0; 4; 2] ;;
   p <- cp_history 5 [1; 3; 0; 4; 2] (link_iter (chi_fw c)) (link_iter (chi_bw c)) (cp_new 5) [CpInit 4; CpValue 3; CpInit 3; CpValue 3] ;;
   rs <- mapM (fun v => '(_, r) <- cp_value 5 [1; 3; 0; 4; 2] (link_iter (chi_fw c)) p v ;; Some r) [0; 1; 2; 3; 4] ;; Some rs) = Some [Some 3; Some 9; Some 2; Some 0; Some 3]%N.
Proof. split; vm_compute; reflexivity. Qed.

(** lower bounds for [cx_adj] and for the travel times of PropsTD; both are real bounds: some arcs are longer *)
Definition lb_adj : list (list (nat * N)) := [[(1, 2%N); (2, 6%N); (0, 0%N)]; [(3, 2%N); (3, 4%N)]; [(4, 1%N)]; [(0, 3%N)]; [(3, 5%N); (2, 0%N)]].
Definition lb_tadj : list (list (nat * N)) := [[(1, 10%N); (2, 20%N)]; [(3, 10%N)]; [(1, 3%N)]; []].
Example C54_nonvacuous :
  bounded_below 5 (adj_arc lb_adj) (garc (fun u => nth_error cx_adj u)) /\ wf_links 5 (fun u => nth_error cx_adj u) /\ same_topology cx_adj lb_adj /\
  bounded_below_td (adj_arc lb_tadj) PropsTD.ex_adj /\
  (g <- from_adjacency_lists cx_adj ;; c <- cch_contract g cx_order cx_ranks ;; mg <- from_adjacency_lists lb_adj ;; k <- customize c mg ;;
   sv <- sv_history 5 (fun u => nth_error cx_adj u) fst def_lk def_pl pot_init pot_value (sv_new 5 tt (pot_forward k)) [SvQuery 1 3; SvQuery 4 2] ;;
   '(sv1, a) <- sv_distance 5 (fun u => nth_error cx_adj u) fst def_lk def_pl pot_init pot_value sv 0 4 0 ;; p <- sv_node_path sv1 0 4 ;;
   sv <- sv_history 5 (fun u => nth_error cx_adj u) fst def_lk def_pl (cp_init 5 cx_ranks (link_iter (k_bw k))) (cp_value 5 cx_ranks (link_iter (k_fw k))) (sv_new 5 tt (cp_new 5)) [SvQuery 1 3; SvQuery 4 2] ;;
   '(sv1, b) <- sv_distance 5 (fun u => nth_error cx_adj u) fst def_lk def_pl (cp_init 5 cx_ranks (link_iter (k_bw k))) (cp_value 5 cx_ranks (link_iter (k_fw k))) sv 4 1 0 ;; q <- sv_node_path sv1 4 1 ;;
   Some (a, p, b, q)) = Some (Some 8%N, [0; 2; 4], Some 16%N, [4; 3; 0; 1]) /\
  (g <- from_adjacency_lists lb_tadj ;; c <- cch_contract g [1; 0; 3; 2] [1; 0; 3; 2] ;; k <- customize c g ;;
   let td := td_of PropsTD.ex_adj in
   sv <- td_history pot_init pot_value td (td_eval lin_search 100 true td) (sv_new 4 tt (pot_forward k)) [(0, 3, 70%N); (2, 0, 5%N)] ;;
   '(sv, r) <- td_query pot_init pot_value td (td_eval lin_search 100 true td) sv 0 3 25 ;; p <- sv_node_path sv 0 3 ;;
   '(_, r') <- td_query pot_init pot_value td (td_eval lin_search 100 true td) sv 3 0 25 ;; Some (r, p, r')) = Some (Some 92%N, [0; 2; 1; 3], None).
Proof.
  split.
  { intros u v w (l & El & H). pose proof (nth_error_Some_lt _ _ _ El) as Hu. split; [exact Hu|]. cbn beta in El.
    assert (B : forallb (fun u => forallb (fun a => existsb (fun b => (fst b =? fst a) && (snd b <=? snd a)%N) (nth u lb_adj [])) (nth u cx_adj [])) (seq 0 5) = true) by (vm_compute; reflexivity).
    rewrite forallb_forall in B. specialize (B u ltac:(apply in_seq; cbn in *; lia)). rewrite forallb_forall in B. rewrite (nth_error_nth _ _ _ El) in B. specialize (B _ H).
    apply existsb_exists in B. destruct B as ([v' w'] & B1 & B2). apply andb_true_iff in B2. destruct B2 as [B2 B3]. apply Nat.eqb_eq in B2. apply N.leb_le in B3. cbn in B2, B3. subst v'. exists w'. auto. }
  split. { intros u Hu. do 5 (destruct u as [|u]; [eexists; split; [reflexivity|]; intros v w H; cbn in H; repeat (destruct H as [H|H]; [injection H as <- <-; unfold INF; lia|]); destruct H|]). lia. }
  split; [reflexivity|]. split.
  { intros u e v f (i & H & _). apply nth_error_In in H. destruct (Nat.lt_ge_cases u 4) as [Hu|Hu]; [|rewrite nth_overflow in H by auto; destruct H].
    assert (B : forallb (fun u => forallb (fun a => existsb (fun b => (fst b =? fst a) && forallb (fun p => snd b <=? snd p)%N (snd a)) (nth u lb_tadj [])) (nth u PropsTD.ex_adj [])) (seq 0 4) = true) by (vm_compute; reflexivity).
    rewrite forallb_forall in B. specialize (B u ltac:(apply in_seq; lia)). rewrite forallb_forall in B. specialize (B _ H).
    apply existsb_exists in B. destruct B as ([v' w'] & B1 & B2). apply andb_true_iff in B2. destruct B2 as [B2 B3]. apply Nat.eqb_eq in B2. cbn [fst snd] in B2, B3. subst v'. rewrite forallb_forall in B3. exists w'. split; auto. intros p Hp. apply N.leb_le. apply B3. auto. }
  split; vm_compute; reflexivity.
Qed.
