(** Storing and loading a CCH. *)
From Verif Require Import Base SpecIO SpecGraph SpecCCH Graph NodeOrder NodeOrderProof GraphProof CCH CCHTheory CCHContractProof CCHBuildProof IO IOProof.

Lemma from_ranks_ok debug n order ranks : node_order n order ranks -> (N.of_nat n < U32MAX)%N ->
  from_ranks debug ranks = Some (mkOrder order ranks).
Proof.
  intros (Lo & Lr & H1 & H2) HN.
  assert (HP : perm_vec ranks).
  { apply NoDup_bound_perm.
    - apply NoDup_nth_error. intros i j Hi E. destruct (nth_error_lt ranks i Hi) as [x Ex]. rewrite Ex in E.
      apply H2 in Ex. symmetry in E. apply H2 in E. congruence.
    - intros x Hx. apply In_nth_error in Hx. destruct Hx as [i Hi]. apply H2 in Hi. apply nth_error_Some_lt in Hi. lia. }
  destruct (invert_ok debug ranks HP) as (r & E & L & K); [rewrite Lr; auto|].
  unfold from_ranks. rewrite E. cbn [bind]. do 2 f_equal. apply list_ext. intros i.
  destruct (nth_error order i) as [u|] eqn:Eo.
  - apply H1 in Eo. apply K in Eo. auto.
  - apply nth_error_None. rewrite L. apply nth_error_None in Eo. lia.
Qed.

Lemma order_roundtrip debug n order ranks f dir : node_order n order ranks -> (N.of_nat n < U32MAX)%N ->
  f (join dir "ranks") = Some (data_bytes id_repr ranks) -> load_order debug f dir = Some (Some (mkOrder order ranks)).
Proof.
  intros HO HN E. unfold load_order. rewrite (load_data id_repr id_ok _ _ ranks); auto.
  - cbn [iobind]. rewrite (from_ranks_ok debug n order ranks); auto.
  - apply Forall_forall. intros x Hx. apply In_nth_error in Hx. destruct Hx as [i Hi]. destruct HO as (Lo & Lr & H1 & H2).
    apply H2 in Hi. apply nth_error_Some_lt in Hi. cbn. unfold U32MAX in HN. lia.
Qed.

Lemma contracted_fo nodes cg : contracted_graph nodes = Some cg ->
  fo_new (first_out cg) (head cg) (repeat tt (List.length (head cg))) = Some cg.
Proof.
  intros Ecg. destruct (contracted_graph_inv _ _ Ecg) as [Heq _]. revert Ecg. unfold contracted_graph, from_adjacency_lists.
  rewrite concat_map_map, !map_map, map_id. cbn [snd].
  replace (map (fun x => List.length (map (fun v => (v, tt)) x)) nodes) with (map (@List.length nat) nodes) by (apply map_ext; intros; rewrite map_length; auto).
  assert (EU : forall l : list nat, repeat tt (List.length l) = map (fun _ => tt) l) by (induction l; cbn; congruence).
  rewrite EU. rewrite Heq at 2 3 4. cbn [first_out head]. intros E. exact E.
Qed.
Lemma new_from_fields g order ranks cg c : cch_new_from g order ranks cg = Some c -> c_fo c = first_out cg /\ c_head c = head cg.
Proof.
  unfold cch_new_from. destruct (build_elimination_tree cg); cbn [bind]; [|discriminate].
  destruct (orig_arcs g order cg true); cbn [bind]; [|discriminate]. destruct (orig_arcs g order cg false); cbn [bind]; [|discriminate].
  destruct (fill_tails cg); cbn [bind]; [|discriminate]. destruct (reversed _ _ _ _); cbn [bind]; [|discriminate].
  intros [= <-]. split; reflexivity.
Qed.
Lemma cch_contract_inv g order ranks c : cch_contract g order ranks = Some c ->
  exists cg, fo_new (first_out cg) (head cg) (repeat tt (List.length (head cg))) = Some cg /\
    cch_new_from g order ranks cg = Some c /\ c_fo c = first_out cg /\ c_head c = head cg.
Proof.
  unfold cch_contract. destruct (contraction_new _ _ _ _) as [n0|]; cbn [bind]; [|discriminate].
  destruct (contraction_contract n0) as [nodes|]; cbn [bind]; [|discriminate].
  destruct (contracted_graph nodes) as [cg|] eqn:Ecg; cbn [bind]; [|discriminate].
  intros E. exists cg. split; [exact (contracted_fo nodes cg Ecg)|]. split; [exact E|]. exact (new_from_fields _ _ _ _ _ E).
Qed.

Lemma cch_roundtrip debug adj g order ranks c f dir : valid_adj adj -> fits_u32 adj -> from_adjacency_lists adj = Some g ->
  node_order (List.length adj) order ranks -> cch_contract g order ranks = Some c ->
  f (join dir "ranks") = Some (data_bytes id_repr ranks) ->
  load_cch debug g (save_cch f dir c) dir = Some (Some c).
Proof.
  intros HV HF Hg HO Hc Hf.
  destruct (cch_contract_ok _ _ _ _ _ HV HF Hg HO Hc) as (nodes & K).
  destruct (cch_contract_inv _ _ _ _ Hc) as (cg & Hn & Hnew & E1 & E2).
  destruct (co_fit _ _ _ _ _ K) as [F1 F2].
  assert (Lg : num_nodes g = List.length adj) by (destruct HF as [A1 A2]; destruct (from_adjacency_ok adj A1 A2) as (g' & Eg' & _ & E' & _); rewrite Hg in Eg'; injection Eg' as <-; exact E').
  unfold load_cch, save_cch.
  rewrite (order_roundtrip debug (List.length adj) order ranks); auto; [|lia|].
  2: { rewrite !write_other by (intros EQ; apply join_inj in EQ; discriminate). auto. }
  cbn [iobind].
  assert (V1 : Forall (r_valid id_repr) (c_head c)).
  { apply Forall_forall. intros x Hx. rewrite (co_head _ _ _ _ _ K) in Hx. apply in_concat in Hx. destruct Hx as (l & Hl & Hx).
    apply In_nth_error in Hl. destruct Hl as [i Hi].
    assert (In x (nbh nodes i)) by (unfold nbh; rewrite (nth_error_nth _ _ _ Hi); auto).
    destruct (co_chordal _ _ _ _ _ K) as [c1 c2 c3 c4]. apply c3 in H. cbn. unfold U32MAX in F1. lia. }
  assert (V2 : Forall (r_valid id_repr) (c_fo c)).
  { apply Forall_forall. intros x Hx. apply In_nth_error in Hx. destruct Hx as [i Hi].
    pose proof (nth_error_Some_lt _ _ _ Hi) as Li. rewrite (co_fol _ _ _ _ _ K) in Li. rewrite (co_fo _ _ _ _ _ K) in Hi by lia.
    injection Hi as <-. pose proof (off_le nodes i ltac:(rewrite (ch_len _ _ (co_chordal _ _ _ _ _ K)); lia)). cbn. unfold U32MAX in F2. lia. }
  rewrite (load_data id_repr id_ok _ _ (c_head c)); [|apply write_read|auto]. cbn [iobind].
  rewrite (load_data id_repr id_ok _ _ (c_fo c)); [| |auto].
  2: { rewrite write_other by (intros EQ; apply join_inj in EQ; discriminate). apply write_read. }
  cbn [iobind]. rewrite E1, E2, Hn. cbn [ok iobind].
  assert (Lc : num_nodes cg = List.length adj). { unfold num_nodes. rewrite <- E1, (co_fol _ _ _ _ _ K). lia. }
  rewrite Lc, Lg, Nat.eqb_refl. cbn [no_order no_ranks]. rewrite Hnew. reflexivity.
Qed.

(** the loader looks for a file that [save_cch] does not write *)
Lemma cch_alone debug g c dir : load_cch debug g (save_cch (fun _ => None) dir c) dir = Some None.
Proof.
  unfold load_cch, save_cch, load_order, load_vec. rewrite !write_other by (intros EQ; apply join_inj in EQ; discriminate). reflexivity.
Qed.
