(** The server of the CH potential queries with its core phase: exact between nodes attached to the core at different places. *)
From Verif Require Import Base SpecPQ SpecGraph SpecBits Graph GraphProof GraphIdProof GraphXProof GraphRevProof GraphOpsProof GraphSpecProof LoopProof CCHContractProof NodeOrder NodeOrderProof SepTree CCH IndexHeap IndexHeapProof TsVec TsVecProof Dijkstra DijkstraRef DijkstraProof DijServer DijServerProof DijOrderProof DijHistProof PLF TopoDij TopoDijProof SpecTopo TopoServerProof VTopo VTopoProof BicProof VCompProof VTBuildProof VTServerProof SpecVT VTPhaseProof.

Section CoreServer.
  Variable g : fograph N.
  Notation n := (num_nodes g).
  Notation links := (link_iter g).
  Variable nb : nat -> list (nat * N).
  Hypothesis He : enum n links nb.
  Hypothesis Hm : num_arcs g = length (all_arcs n nb).
  Hypothesis Hn : (N.of_nat n + 1 < U32MAX)%N.
  Hypothesis Hm1 : (N.of_nat (num_arcs g) < U32MAX)%N.
  Hypothesis Hw : forall u v w, u < n -> In (v, w) (nb u) -> (w <= INF)%N.
  Variable lsort : (nat * N -> nat) -> list (nat * N) -> list (nat * N).
  Hypothesis Hls : sort_contract lsort.
  Variable vt : vtopo.
  Hypothesis HV : vt_good n nb vt.
  Notation ord := (no_order (vt_order vt)).
  Notation ranks := (no_ranks (vt_order vt)).
  Hypothesis Hdeg : forall u, u < n -> length (outs_of nb u) + length (ins_of n nb u) < 256.
  Hypothesis Hsp : vt_deg2 vt <= vt_core vt.
  Context {E : Type}.
  Variables skip2 skip3 : bool.
  Variable pinit : E -> nat -> option E.
  Variable pget : E -> nat -> option (E * option N).
  Variable EI : E -> Prop.
  Variable ET : nat -> E -> Prop.
  Variable h : nat -> nat -> option N.
  Hypothesis HP : pot_contract n (fun t => t < n) pinit pget EI ET h.
  Hypothesis HF : forall t, t < n -> feasible_pot (garc links) t (h t) /\ forall v p, h t v = Some p -> (p + INF < U32)%N.
  Variables main comp : fograph N.
  Hypothesis Emain : permutated_filtered lsort n links ord ranks (core_arc vt) = Some main.
  Hypothesis Ecomp : permutated_filtered lsort n links ord ranks (comp_arc vt) = Some comp.
  Notation nd := (nd vt).

  Definition core (r : nat) : bool := r <? vt_core vt.
  Definition att (r : nat) : option nat :=
    if r <? vt_core vt then Some r else if r <? n then match bridge_node vt r with Some ob => ob | None => None end else None.
  Definition farc (r r' : nat) (w : N) : Prop := garc (link_iter comp) r r' w \/ garc (link_iter main) r r' w.

  Set Default Proof Using "All".
  Let Nlt := nd_lt g nb He Hm Hn Hm1 Hw lsort Hls vt HV.
  Let Nfun := nd_fun g nb He Hm Hn Hm1 Hw lsort Hls vt HV.
  Let Ninj := nd_inj g nb He Hm Hn Hm1 Hw lsort Hls vt HV.
  Let Nex := nd_ex g nb He Hm Hn Hm1 Hw lsort Hls vt HV.
  Let Nrank := nd_rank g nb He Hm Hn Hm1 Hw lsort Hls vt HV.

  Lemma in_core_lt r u : nd r u -> vt_in_core vt r = core r.
  Proof. intros H. unfold vt_in_core. destruct (core_ty n nb vt HV Hsp r u H) as (ty & -> & ->). auto. Qed.
  Lemma graphs_ok : num_nodes main = n /\ wf_links n (link_iter main) /\ wf_links n (link_iter comp) /\
    (forall r r' w, garc (link_iter main) r r' w -> exists u u', nd r u /\ nd r' u' /\ garc links u u' w /\ core r = true /\ core r' = true) /\
    (forall r r' w, garc (link_iter comp) r r' w -> exists u u', nd r u /\ nd r' u' /\ garc links u u' w /\ (core r = false \/ core r' = false)) /\
    (forall r u, nd r u -> forall w u', garc links u u' w -> exists r', nd r' u' /\ farc r r' w).
  Proof.
    destruct (filtered_ok g nb He Hm Hn Hm1 Hw lsort Hls vt HV (core_arc vt)) as (g1 & E1 & F1 & N1 & W1 & B1 & C1 & _). assert (g1 = main) by congruence. subst g1.
    destruct (filtered_ok g nb He Hm Hn Hm1 Hw lsort Hls vt HV (comp_arc vt)) as (g2 & E2 & F2 & N2 & W2 & B2 & C2 & _). assert (g2 = comp) by congruence. subst g2.
    split; auto. split; auto. split; auto. split; [|split].
    - intros r r' w Ha. assert (Hr : r < n). { destruct Ha as (l & El & _). pose proof (link_iter_lt main r l F1 El). lia. }
      destruct (Nex r Hr) as (u & Hu & _). destruct (B1 r u Hu w r' Ha) as (u' & Hu' & G & Pd). exists u, u'. unfold core_arc in Pd. apply andb_true_iff in Pd. rewrite (in_core_lt r u Hu), (in_core_lt r' u' Hu') in Pd. tauto.
    - intros r r' w Ha. assert (Hr : r < n). { destruct Ha as (l & El & _). pose proof (link_iter_lt comp r l F2 El). lia. }
      destruct (Nex r Hr) as (u & Hu & _). destruct (B2 r u Hu w r' Ha) as (u' & Hu' & G & Pd). exists u, u'. unfold comp_arc in Pd. apply orb_true_iff in Pd. rewrite (in_core_lt r u Hu), (in_core_lt r' u' Hu'), !negb_true_iff in Pd. tauto.
    - intros r u Hu w u' Ha. destruct (C1 r u Hu w u' Ha) as (r1 & H1 & G1). destruct (C2 r u Hu w u' Ha) as (r2 & H2 & G2). assert (r2 = r1) by (eapply Ninj; eauto). subst r2.
      exists r1. split; auto. unfold farc. destruct (core_arc vt r r1) eqn:EC; [auto|]. left. apply G2. unfold core_arc in EC. unfold comp_arc. destruct (vt_in_core vt r), (vt_in_core vt r1); cbn in *; congruence.
  Qed.
  Lemma att_core v : core v = true -> att v = Some v.
  Proof. unfold core, att. intros ->. auto. Qed.
  Lemma att_bridge v b : att v = Some b -> b < n /\ core b = true.
  Proof.
    unfold att, core. pose proof (v_core _ _ _ HV). destruct (Nat.ltb_spec v (vt_core vt)) as [A|A]. { intros [= <-]. split; [lia|]. apply Nat.ltb_lt; auto. }
    destruct (Nat.ltb_spec v n) as [B|B]; [|discriminate]. destruct (Nex v B) as (u & Hu & _). destruct (bridge_spec n nb vt HV Hsp v u Hu) as (ob & E1 & _ & E3 & _). rewrite E1. intros ->. specialize (E3 b eq_refl). split; [lia|]. apply Nat.ltb_lt; auto.
  Qed.
  Lemma att_step r u r' u' : nd r u -> nd r' u' -> core r = false -> adj n nb u u' -> att r = att r'.
  Proof.
    unfold core. intros Hu Hu' Hc Ha. apply Nat.ltb_ge in Hc. destruct (bridge_spec n nb vt HV Hsp r u Hu) as (ob & E1 & _ & _ & E4). destruct (E4 Hc r' u' Hu' Ha) as [F1 F2].
    destruct (Nlt r u Hu) as [L _]. destruct (Nlt r' u' Hu') as [L' _]. unfold att. rewrite (proj2 (Nat.ltb_ge _ _) Hc), (proj2 (Nat.ltb_lt _ _) L), (proj2 (Nat.ltb_lt _ _) L'), E1.
    destruct (Nat.ltb_spec r' (vt_core vt)) as [B|B]; [auto|]. rewrite (F2 B). auto.
  Qed.
  Lemma att_comp r r' w : garc (link_iter comp) r r' w -> att r = att r'.
  Proof.
    intros Ha. destruct graphs_ok as (_ & _ & _ & _ & B & _). destruct (B r r' w Ha) as (u & u' & Hu & Hu' & G & C). destruct (Nlt r u Hu) as [_ L]. destruct (Nlt r' u' Hu') as [_ L'].
    assert (Hin : In u' (outs_of nb u)). { destruct G as (l & El & Hi). destruct (He u L) as [El2 _]. assert (l = nb u) by congruence. subst l. unfold outs_of. apply in_map_iff. exists (u', w). auto. }
    destruct C as [C|C].
    - eapply att_step; eauto. right. auto.
    - symmetry. eapply att_step; eauto. left. apply ins_spec. auto.
  Qed.
  Lemma via_bridge r : r < n -> exists ob, bridge_node vt r = Some ob /\ match ob with Some b => b | None => r end = via att r.
  Proof.
    intros Hr. destruct (Nex r Hr) as (u & Hu & _). destruct (bridge_spec n nb vt HV Hsp r u Hu) as (ob & E1 & E2 & _). exists ob. split; auto.
    unfold via, att. destruct (Nat.ltb_spec r (vt_core vt)) as [A|A]. { rewrite (E2 A). auto. } rewrite (proj2 (Nat.ltb_lt _ _) Hr), E1. auto.
  Qed.
  Notation hr := (hr vt h).
  Lemma feasible_r t : t < n -> feasible_pot farc t (hr t) /\ forall v p, hr t v = Some p -> (p + INF < U32)%N.
  Proof.
    intros Ht. destruct (Nex t Ht) as (x & Hx & Hxn). destruct (HF x Hxn) as [[F1 F2] F3]. destruct graphs_ok as (_ & _ & _ & B1 & B2 & _). unfold VTServerProof.hr. unfold VTServerProof.nd in Hx. rewrite Hx. split; [split|].
    - rewrite Hx. auto.
    - intros r r' w q Ha Hq. assert (X : exists u u', nd r u /\ nd r' u' /\ garc links u u' w). { destruct Ha as [Ha|Ha]; [destruct (B2 _ _ _ Ha) as (u & u' & ? & ? & ? & _)|destruct (B1 _ _ _ Ha) as (u & u' & ? & ? & ? & _)]; eauto. }
      destruct X as (u & u' & Hu & Hu' & G). unfold VTServerProof.nd in Hu, Hu'. rewrite Hu' in Hq. rewrite Hu. eauto.
    - intros v p. destruct (nth_error ord v); [apply F3|discriminate].
  Qed.

  Lemma core_node_r r u : nd r u -> core_node vt u <-> core r = true.
  Proof.
    intros Hu. pose proof (v_order _ _ _ HV) as (L1 & L2 & L3 & L4). destruct (core_ty n nb vt HV Hsp r u Hu) as (ty & E1 & E2). split.
    - intros (r' & ty' & H1 & H2 & H3). apply L4 in H1. assert (r' = r) by (eapply Ninj; eauto). subst r'. assert (ty' = ty) by congruence. subst ty'. unfold core. rewrite <- E2. auto.
    - intros H. exists r, ty. split. { apply L3; auto. } split; auto. rewrite E2. auto.
  Qed.
  Lemma attached_r r u : nd r u -> attached vt u (match att r with Some b => nth_error ord b | None => None end).
  Proof.
    intros Hu. pose proof (v_order _ _ _ HV) as (L1 & L2 & L3 & L4). destruct (Nlt r u Hu) as [Lr _]. destruct (bridge_spec n nb vt HV Hsp r u Hu) as (ob & E1 & E2 & E3 & _). pose proof (core_node_r r u Hu) as CN. unfold core in CN.
    unfold attached, att. destruct (Nat.ltb_spec r (vt_core vt)) as [A|A]. { left. split; [apply CN; auto|exact Hu]. }
    right. rewrite (proj2 (Nat.ltb_lt _ _) Lr), E1. split. { rewrite CN. discriminate. }
    destruct ob as [b|].
    - pose proof (v_core _ _ _ HV). specialize (E3 b eq_refl). destruct (Nex b ltac:(lia)) as (x & Hx & _). unfold VTServerProof.nd in Hx. rewrite Hx. exists r, b. split; [apply L3; auto|]. split; auto.
    - intros b (r' & rb & H1 & H2 & _). apply L4 in H1. assert (r' = r) by (eapply Ninj; eauto). subst r'. congruence.
  Qed.

  Lemma core_distance_ok sv s t : SvOK n EI sv -> s < n -> t < n -> s = t \/ apart vt s t ->
    exists sv' r, vs_distance true skip2 skip3 pinit pget (S_of vt main comp sv) s t = Some (S_of vt main comp sv', r) /\ SvOK n EI sv' /\ exact_answer (garc links) s t r /\
      (forall x, r = Some x -> exists q, vs_node_path (S_of vt main comp sv') s t = Some q /\ npath (garc links) s q t x /\ NoDup q).
  Proof.
    intros OK Hs Ht Hst. destruct (Nrank s Hs) as (rs & Ers & Hrs & Lrs). destruct (Nrank t Ht) as (rt & Ert & Hrt & Lrt).
    destruct (Nat.eq_dec s t) as [->|Nst].
    - exists sv, (Some 0%N). unfold vs_distance. rewrite Nat.eqb_refl. split; auto. split; auto. split. { cbn. split; [reflexivity|]. split; [constructor|]. lia. }
      intros x [= <-]. exists [t]. split; [|split; [constructor|constructor; auto; constructor]].
      unfold vs_node_path. cbn [S_of vs_vt vs_sv]. rewrite Ert. cbn [bind]. unfold sv_node_path, node_path.
      assert (EB : forall k pr, back_nodes (P := unit) k pr rt rt = Some [rt]) by (intros [|k] pr; cbn [back_nodes]; rewrite Nat.eqb_refl; auto).
      rewrite EB. cbn [bind rev app mapM]. unfold no_node. rewrite Hrt. auto.
    - destruct Hst as [|Hap]; [congruence|]. destruct graphs_ok as (Nn & Wm & Wc & B1 & B2 & B3).
      assert (Hatt : att rs <> att rt). { intros Ea. pose proof (attached_r rs s Hrs) as X1. pose proof (attached_r rt t Hrt) as X2. rewrite Ea in X1. exact (Hap _ X1 X2). }
      destruct (core_query_ok n main comp vt skip2 skip3 pinit pget EI (ETr vt ET) hr Nn Wm Wc
        (report_ok g nb He Hm Hn Hm1 Hw lsort Hls vt HV Hdeg Hsp _ _ Emain) (report_ok g nb He Hm Hn Hm1 Hw lsort Hls vt HV Hdeg Hsp _ _ Ecomp)
        (perm_pot g nb He Hm Hn Hm1 Hw lsort Hls vt HV Hdeg Hsp skip2 skip3 pinit pget EI ET h HP) farc (fun _ _ _ => iff_refl _) feasible_r core att att_core att_comp
        ltac:(intros u v w Ha; destruct (B1 u v w Ha) as (? & ? & _ & _ & _ & C1 & C2); auto) att_bridge via_bridge sv s t rs rt OK Nst Ers Ert Lrs Lrt Hatt) as (sv' & r & E1 & OK' & EX & Y).
      exists sv', r. split; [exact E1|]. split; auto.
      assert (T1 : forall r0 u, nd r0 u -> forall w r', farc r0 r' w -> exists u', nd r' u' /\ garc links u u' w).
      { intros r0 u Hu w r' [Ha|Ha]; [destruct (B2 _ _ _ Ha) as (x & u' & Hx & Hu' & G & _)|destruct (B1 _ _ _ Ha) as (x & u' & Hx & Hu' & G & _)]; rewrite (Nfun r0 u x Hu Hx); eauto. }
      split. { eapply (exact_to (garc links) farc nd); eauto. }
      intros x ->. destruct (Y x eq_refl) as (p & P1 & P2 & P3).
      destruct (npath_to (garc links) farc nd T1 B3 Nfun Ninj rs s p rt t x Hrs Hrt P2) as (q & F & Pq). exists q. split; [|split; auto].
      + unfold vs_node_path. cbn [S_of vs_vt vs_sv]. rewrite Ers, Ert. cbn [bind]. rewrite P1. cbn [bind].
        unfold no_node. clear -F. induction F as [|a b p q H F IH]; auto. cbn [mapM]. rewrite H, IH. auto.
      + eapply NoDup_F2; eauto.
  Qed.

  Lemma core_history_ok sv qs : SvOK n EI sv -> Forall (fun q => fst q < n /\ snd q < n /\ (fst q = snd q \/ apart vt (fst q) (snd q))) qs ->
    exists sv', vs_history true skip2 skip3 pinit pget (S_of vt main comp sv) qs = Some (S_of vt main comp sv') /\ SvOK n EI sv'.
  Proof.
    intros OK F. revert sv OK. induction F as [|q qs (Hq1 & Hq2 & Hq3) F IH]; intros sv OK. { exists sv. auto. }
    destruct (core_distance_ok sv (fst q) (snd q) OK Hq1 Hq2 Hq3) as (sv1 & r & E1 & OK1 & _). destruct (IH sv1 OK1) as (sv2 & E2 & OK2).
    exists sv2. split; auto. unfold vs_history in *. cbn [foldM]. rewrite E1. cbn [bind]. exact E2.
  Qed.
End CoreServer.
