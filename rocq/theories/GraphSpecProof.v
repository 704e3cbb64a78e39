(** Graph lemmas restated against adjacency lists (SpecGraph). *)
From Verif Require Import Base BitVec BitVecProof SpecGraph Graph GraphProof GraphRevProof GraphOpsProof GraphIdProof GraphXProof.

Section Glue.
  Context {W : Type}.
  Implicit Types adj : list (list (nat * W)).

  Lemma map_nth_seq {A} (d : A) (l : list A) : map (fun i => nth i l d) (seq 0 (length l)) = l.
  Proof.
    induction l as [|a l IH]; auto. cbn [length seq map nth]. f_equal. rewrite <- seq_shift, map_map. exact IH.
  Qed.

  Lemma adj_graph adj : valid_adj adj -> fits_u32 adj ->
    exists g, from_adjacency_lists adj = Some g /\ wf g /\ num_nodes g = length adj /\ num_arcs g = length (concat adj) /\
      enum (length adj) (link_iter g) (fun u => nth u adj []) /\ length (concat adj) = length (all_arcs (length adj) (fun u => nth u adj [])).
  Proof.
    intros HV [H1 H2]. destruct (from_adjacency_ok adj H1 H2) as (g & E & Wf & Nn & Na & Hl). exists g. repeat (split; [assumption|]).
    split.
    - intros u Hu. split. { apply Hl. apply nth_error_nth_some; auto. }
      intros v w Hi. apply (HV (nth u adj []) v w); auto. apply nth_In; auto.
    - unfold all_arcs. rewrite <- (map_nth_seq [] adj) at 1.
      generalize (seq 0 (length adj)). induction l as [|x l IH]; auto.
      cbn [map concat]. rewrite !app_length, IH, map_length. auto.
  Qed.

  Lemma enum_out g n u : num_nodes (W := W) g = n -> wf g -> n <= u -> link_iter g u = None.
  Proof.
    intros <- Hw Hu. unfold link_iter, range. unfold num_nodes in Hu. pose proof (wf_ne g Hw).
    rewrite (proj2 (nth_error_None _ (u + 1))) by lia. destruct (nth_error _ u); auto.
  Qed.

  Lemma link_iter_lt g u l : wf g -> link_iter (W := W) g u = Some l -> u < num_nodes g.
  Proof. intros Hw E. destruct (Nat.lt_ge_cases u (num_nodes g)); auto. rewrite (enum_out g (num_nodes g)) in E; auto. discriminate. Qed.

  Lemma reversed_spec dflt adj : valid_adj adj -> fits_u32 adj ->
    exists g g', from_adjacency_lists adj = Some g /\ reversed dflt (num_nodes g) (num_arcs g) (link_iter g) = Some g' /\
      num_nodes g' = length adj /\ num_arcs g' = num_arcs g /\ forall v, v < length adj -> link_iter g' v = Some (incoming adj v).
  Proof.
    intros HV HF. destruct (adj_graph adj HV HF) as (g & E & Wf & Nn & Na & En & El). destruct HF as [F1 F2].
    destruct (reversed_ok dflt (length adj) (num_arcs g) (link_iter g) _ En) as (g' & E' & W' & N' & M' & L').
    { lia. } { exact F1. } { rewrite Na; exact F2. }
    exists g, g'. rewrite Nn. repeat (split; [assumption|]). exact L'.
  Qed.

  Lemma reversed_arcs dflt adj g g' : valid_adj adj -> fits_u32 adj -> from_adjacency_lists adj = Some g ->
    reversed dflt (num_nodes g) (num_arcs g) (link_iter g) = Some g' ->
    forall u v w, garc (link_iter g') v u w <-> garc (link_iter g) u v w.
  Proof.
    intros HV HF Eg Eg' u v w. destruct (reversed_spec dflt adj HV HF) as (h & h' & E & E' & N' & M' & L').
    rewrite Eg in E. injection E as <-. rewrite Eg' in E'. injection E' as <-.
    destruct (adj_graph adj HV HF) as (h & E & Wf & Nn & Na & En & El). rewrite Eg in E. injection E as <-.
    assert (Wf' : wf g'). { destruct (reversed_ok dflt (length adj) (num_arcs g) (link_iter g) _ En) as (h & E1 & W1 & _). { rewrite Na; auto. } { apply HF. } { rewrite Na; apply HF. }
      rewrite <- Nn, Eg' in E1. injection E1 as <-. auto. }
    unfold garc. split.
    - intros (l & Hl & Hi). pose proof (link_iter_lt g' v l Wf' Hl) as Hv. rewrite N' in Hv. rewrite L' in Hl by auto. injection Hl as <-.
      unfold incoming in Hi. apply in_flat_map in Hi. destruct Hi as (u' & Hu' & Hi). apply in_seq in Hu'. apply in_map_iff in Hi. destruct Hi as ([v' w'] & Ea & Hi).
      cbn [snd] in Ea. injection Ea as <- <-. apply filter_In in Hi. cbn [fst] in Hi. destruct Hi as [Hi Hv']. apply Nat.eqb_eq in Hv'. subst v'.
      exists (nth u' adj []). split; auto. apply En. lia.
    - intros (l & Hl & Hi). pose proof (link_iter_lt g u l Wf Hl) as Hu. rewrite Nn in Hu. destruct (En u Hu) as [Eu Hb]. rewrite Eu in Hl. injection Hl as <-.
      exists (incoming adj v). split. { apply L'. eapply Hb; eauto. } apply in_flat_map. exists u. split. { apply in_seq; lia. }
      apply in_map_iff. exists (v, w). split; auto. apply filter_In. split; auto. apply Nat.eqb_refl.
  Qed.

  Lemma node_order_perm n order ranks : node_order n order ranks -> Permutation order (seq 0 n).
  Proof.
    intros (H1 & H2 & H3 & H4). apply NoDup_Permutation.
    - apply NoDup_nth_error. intros i j Hi E. destruct (nth_error order i) as [u|] eqn:Ei; [|apply nth_error_Some in Hi; congruence].
      apply H3 in Ei. symmetry in E. apply H3 in E. congruence.
    - apply seq_NoDup.
    - intros u. split; intros Hu.
      + apply In_nth_error in Hu. destruct Hu as [r Hr]. apply H3 in Hr. apply nth_error_Some_lt in Hr. apply in_seq. lia.
      + apply in_seq in Hu. destruct (nth_error_lt ranks u) as [r Hr]; [lia|]. apply H4 in Hr. eapply nth_error_In; eauto.
  Qed.

  Lemma permutated_spec sort adj order ranks predicate : sort_contract (W := W) sort -> valid_adj adj -> fits_u32 adj -> node_order (length adj) order ranks ->
    exists g g', from_adjacency_lists adj = Some g /\
      permutated_filtered sort (num_nodes g) (link_iter g) order ranks predicate = Some g' /\ num_nodes g' = length adj /\
      forall r u, nth_error order r = Some u -> exists l, link_iter g' r = Some l /\
        Permutation l (map (fun a => (nth (fst a) ranks 0, snd a)) (filter (fun a => predicate r (nth (fst a) ranks 0)) (nth u adj []))) /\
        forall i j a b, i <= j -> nth_error l i = Some a -> nth_error l j = Some b -> fst a <= fst b.
  Proof.
    intros HS HV HF HO. destruct (adj_graph adj HV HF) as (g & E & Wf & Nn & Na & En & El).
    destruct (permutated_ok sort (length adj) (link_iter g) _ order ranks predicate HS En (node_order_perm _ _ _ HO)) as (g' & E' & W' & N' & L').
    { apply HO. } { apply HF. } { rewrite <- El. apply HF. }
    exists g, g'. rewrite Nn. repeat (split; [assumption|]). exact L'.
  Qed.

  Lemma ch_split_spec adj order ranks : valid_adj adj -> fits_u32 adj -> node_order (length adj) order ranks ->
    exists g up down, from_adjacency_lists adj = Some g /\ ch_split (num_nodes g) (link_iter g) ranks = Some (up, down) /\
      num_nodes up = length adj /\ num_nodes down = length adj /\
      forall v, v < length adj ->
        link_iter up v = Some (filter (fun a => nth v ranks 0 <? nth (fst a) ranks 0) (nth v adj [])) /\
        link_iter down v = Some (filter (fun a => nth v ranks 0 <=? nth (fst a) ranks 0) (incoming adj v)).
  Proof.
    intros HV HF HO. destruct (adj_graph adj HV HF) as (g & E & Wf & Nn & Na & En & El).
    destruct (ch_split_ok ranks (length adj) (link_iter g) _ En) as (up & down & E' & W1 & W2 & N1 & N2 & L1 & L2).
    { apply HO. } { apply HF. } { rewrite <- El. apply HF. }
    exists g, up, down. rewrite Nn. repeat (split; [assumption|]). intros v Hv. split; [apply L1; auto|]. rewrite L2 by auto. f_equal.
    unfold incoming. generalize (seq 0 (length adj)). induction l as [|u l IH]; auto. cbn [flat_map]. rewrite filter_app, <- IH. f_equal.
    induction (nth u adj []) as [|[h w] q IHq]; auto. cbn [filter map fst snd]. destruct (h =? v); cbn [andb filter map]; auto.
    cbn [fst snd]. rewrite <- IHq, Nat.leb_antisym. destruct (negb _); auto.
  Qed.

  Lemma adj_first_out adj g u : from_adjacency_lists adj = Some g -> u <= length adj ->
    nth u (first_out g) 0 = length (concat (firstn u adj)).
  Proof.
    unfold from_adjacency_lists, fo_new. intros E Hu.
    repeat match type of E with (bind ?x _ = Some _) => destruct x; cbn [bind] in E; [|discriminate] end.
    injection E as <-. cbn [first_out]. apply nth_error_nth. rewrite d2fo_nth by (rewrite map_length; auto). rewrite concat_firstn_length. auto.
  Qed.
End Glue.

Lemma adj_edges adj g bs : valid_adj adj -> fits_u32 adj -> from_adjacency_lists adj = Some g -> bs_contract bs ->
  exists t, tm_new g = Some t /\
  forall (u k v : nat) (w : N), nth_error (nth u adj []) k = Some (v, w) ->
    let e := length (concat (firstn u adj)) + k in
    link g e = Some (v, w) /\ link_id_to_tail bs (first_out g) e = Some u /\ tm_tail bs t e = Some u.
Proof.
  intros HV HF Eg HB. destruct (adj_graph adj HV HF) as (h & E & Wf & Nn & Na & En & El). rewrite Eg in E. injection E as <-.
  destruct (tm_ok g Wf bs HB) as (t & Et & Ht). exists t. split; auto. intros u k v w Hk e.
  assert (Hu : u < length adj). { destruct (Nat.lt_ge_cases u (length adj)); auto. rewrite nth_overflow in Hk by auto. destruct k; discriminate. }
  destruct (En u Hu) as [Eu _]. destruct (link_iter_nth g u _ k Wf Eu) as (a & b & Er & Ll & Hab & Hn).
  pose proof (nth_error_Some_lt _ _ _ Hk) as Hkl. rewrite Hk in Hn. destruct (Nat.ltb_spec k (b - a)); [|lia].
  destruct (range_ok g u Wf ltac:(lia)) as (a' & b' & Er' & Fa & Fb & _). rewrite Er in Er'. injection Er' as <- <-.
  pose proof (adj_first_out adj g u Eg ltac:(lia)) as Fu. rewrite (nth_error_nth _ _ _ Fa) in Fu.
  assert (He : a <= e < b) by (unfold e; lia). split; [|split].
  - rewrite Hn. unfold e. rewrite <- Fu. auto.
  - destruct (link_id_to_tail_ok bs g e HB Wf) as (u' & a' & b' & E' & Hu' & Er' & He'). { unfold num_arcs; lia. } rewrite E'. f_equal.
    destruct (range_ok g u' Wf Hu') as (a2 & b2 & Er2 & Fa2 & Fb2 & _). rewrite Er2 in Er'. injection Er' as <- <-.
    destruct (lt_eq_lt_dec u' u) as [[C|C]|C]; auto.
    + pose proof (wf_mono_le g (u' + 1) u b2 a Wf ltac:(lia) Fb2 Fa). lia.
    + pose proof (wf_mono_le g (u + 1) u' b a2 Wf ltac:(lia) Fb Fa2). lia.
  - apply Ht; [lia|]. rewrite (nth_error_nth _ _ _ Fa). rewrite Nat.add_1_r in Fb. rewrite (nth_error_nth _ _ _ Fb). auto.
Qed.

Lemma adj_edge_indices {W} adj (g : fograph W) u v : valid_adj adj -> fits_u32 adj -> from_adjacency_lists adj = Some g -> u < length adj ->
  exists ids, edge_indices g u v = Some ids /\ NoDup ids /\
    forall e, In e ids <-> exists k w, e = length (concat (firstn u adj)) + k /\ nth_error (nth u adj []) k = Some (v, w).
Proof.
  intros HV HF Eg Hu. destruct (adj_graph adj HV HF) as (h & E & Wf & Nn & Na & En & El). rewrite Eg in E. injection E as <-.
  destruct (edge_indices_ok g u v Wf ltac:(lia)) as (a & b & Er & Ei). rewrite Ei. eexists; split; [reflexivity|].
  split. { apply NoDup_filter, seq_NoDup. }
  destruct (En u Hu) as [Eu _].
  destruct (range_ok g u Wf ltac:(lia)) as (a' & b' & Er' & Fa & Fb & Hab). rewrite Er in Er'. injection Er' as <- <-.
  pose proof (adj_first_out adj g u Eg ltac:(lia)) as Fu. rewrite (nth_error_nth _ _ _ Fa) in Fu.
  intros e. rewrite filter_In, in_seq. split.
  - intros [He Hh]. exists (e - a). destruct (link_iter_nth g u _ (e - a) Wf Eu) as (a' & b' & Er2 & Ll & _ & Hn). rewrite Er in Er2. injection Er2 as <- <-.
    destruct (Nat.ltb_spec (e - a) (b - a)); [|lia]. replace (a + (e - a)) with e in Hn by lia. unfold link in Hn.
    rewrite (nth_error_nth_some (head g) e 0) in Hn by lia. cbn [bind] in Hn. apply Nat.eqb_eq in Hh. rewrite Hh in Hn.
    destruct (nth_error_lt (weight g) e) as [w Hw']. { rewrite (wf_wt g Wf). lia. } rewrite Hw' in Hn. cbn [bind] in Hn. exists w. split; [lia|auto].
  - intros (k & w & -> & Hk). destruct (link_iter_nth g u _ k Wf Eu) as (a' & b' & Er2 & Ll & _ & Hn). rewrite Er in Er2. injection Er2 as <- <-.
    pose proof (nth_error_Some_lt _ _ _ Hk). destruct (Nat.ltb_spec k (b - a)); [|lia]. rewrite Hk in Hn. rewrite <- Fu. split; [lia|].
    unfold link in Hn. destruct (nth_error (head g) (a + k)) as [h|] eqn:Hh; cbn [bind] in Hn; [|discriminate]. destruct (nth_error (weight g) (a + k)); cbn [bind] in Hn; [|discriminate].
    injection Hn as -> _. rewrite (nth_error_nth _ _ _ Hh). apply Nat.eqb_refl.
Qed.

(** C14, parallel edges *)
Lemma dist_le_transfer (a1 a2 : nat -> nat -> N -> Prop) :
  (forall u v w, a1 u v w -> exists w', a2 u v w' /\ (w' <= w)%N) ->
  forall u v l, walk a1 u v l -> exists l', walk a2 u v l' /\ (l' <= l)%N.
Proof.
  intros H u v l Hw. induction Hw as [u|u v t w l Ha Hw IH].
  - exists 0%N. split; [constructor|lia].
  - destruct IH as (l' & W' & L'). destruct (H _ _ _ Ha) as (w' & A' & Lw). exists (w' + l')%N. split; [econstructor; eauto|lia].
Qed.
Lemma is_dist_transfer (a1 a2 : nat -> nat -> N -> Prop) :
  (forall u v w, a1 u v w -> exists w', a2 u v w' /\ (w' <= w)%N) ->
  (forall u v w, a2 u v w -> exists w', a1 u v w' /\ (w' <= w)%N) ->
  forall s t d, is_dist a1 s t d <-> is_dist a2 s t d.
Proof.
  assert (G : forall a1 a2 : nat -> nat -> N -> Prop, (forall u v w, a1 u v w -> exists w', a2 u v w' /\ (w' <= w)%N) ->
    (forall u v w, a2 u v w -> exists w', a1 u v w' /\ (w' <= w)%N) -> forall s t d, is_dist a1 s t d -> is_dist a2 s t d).
  { clear. intros a1 a2 H1 H2 s t d [Hw Hm]. destruct (dist_le_transfer a1 a2 H1 s t d Hw) as (l & Wl & Ll).
    destruct (dist_le_transfer a2 a1 H2 s t l Wl) as (l2 & Wl2 & Ll2). specialize (Hm _ Wl2) as Hm2. assert (l = d) by lia. subst l. split; auto.
    intros l3 W3. destruct (dist_le_transfer a2 a1 H2 s t l3 W3) as (l4 & W4 & L4). specialize (Hm _ W4). lia. }
  intros H1 H2 s t d; split; apply G; auto.
Qed.

Lemma garc_link {W} (g : fograph W) u v w : wf g ->
  (garc (link_iter g) u v w <-> exists a b e, range g u = Some (a, b) /\ a <= e < b /\ link g e = Some (v, w)).
Proof.
  intros Hw. split.
  - intros (l & Hl & Hi). apply In_nth_error in Hi. destruct Hi as [k Hk]. destruct (link_iter_nth g u l k Hw Hl) as (a & b & Er & Ll & Hab & Hn).
    exists a, b, (a + k). pose proof (nth_error_Some_lt _ _ _ Hk). destruct (Nat.ltb_spec k (b - a)); [|lia]. split; auto. split; [lia|]. congruence.
  - intros (a & b & e & Er & He & El). assert (Hu : u < num_nodes g). { unfold range in Er. destruct (nth_error (first_out g) u); cbn [bind] in Er; [|discriminate]. destruct (nth_error (first_out g) (u + 1)) eqn:F; [|discriminate]. apply nth_error_Some_lt in F. unfold num_nodes. lia. }
    destruct (link_iter_ok g u Hw Hu) as [l Hl]. exists l. split; auto. destruct (link_iter_nth g u l (e - a) Hw Hl) as (a' & b' & Er' & Ll & Hab & Hn).
    rewrite Er in Er'. injection Er' as <- <-. destruct (Nat.ltb_spec (e - a) (b - a)); [|lia]. replace (a + (e - a)) with e in Hn by lia. rewrite El in Hn.
    eapply nth_error_In; eauto.
Qed.

Lemma unify_spec adj g : valid_adj adj -> fits_u32 adj -> from_adjacency_lists adj = Some g ->
  exists g', unify_parallel_edges g = Some g' /\ first_out g' = first_out g /\ head g' = head g /\
    (forall u v w, garc (link_iter g') u v w -> (w <= INF)%N /\ (w = INF \/ garc (link_iter g) u v w) /\ forall w0, garc (link_iter g) u v w0 -> (w <= w0)%N) /\
    (forall u v, (exists w, garc (link_iter g) u v w) <-> exists w, garc (link_iter g') u v w) /\
    ((forall u v w, garc (link_iter g) u v w -> (w <= INF)%N) -> forall s t d, is_dist (garc (link_iter g')) s t d <-> is_dist (garc (link_iter g)) s t d).
Proof.
  intros HV HF Eg. destruct (adj_graph adj HV HF) as (h & E & Wf & Nn & Na & En & El). rewrite Eg in E. injection E as <-.
  assert (Hh : forall e v, nth_error (head g) e = Some v -> v < num_nodes g).
  { intros e v He. assert (Hlt : e < num_arcs g) by (eapply nth_error_Some_lt; eauto).
    destruct (link_id_to_tail_ok binary_search g e binary_search_contract Wf Hlt) as (u & a & b & _ & Hu & Er & Hab).
    destruct (nth_error_lt (weight g) e) as [w Hw]. { rewrite (wf_wt g Wf). auto. }
    assert (G : garc (link_iter g) u v w). { apply garc_link; auto. exists a, b, e. split; auto. split; auto. unfold link. rewrite He; cbn [bind]. rewrite Hw; auto. }
    destruct G as (l & Hl & Hi). rewrite Nn in *. destruct (En u Hu) as [Eu Hb]. rewrite Eu in Hl. injection Hl as <-. eapply Hb; eauto. }
  destruct (unify_ok g Wf Hh) as (wt' & E' & L' & N'). exists (mkFo (first_out g) (head g) wt'). split; auto. split; auto. split; auto.
  assert (Wf' : wf (mkFo (first_out g) (head g) wt')). { destruct Wf; split; auto. }
  set (g' := mkFo (first_out g) (head g) wt') in *.
  assert (Lk : forall e v w, link g' e = Some (v, w) <-> nth_error (head g) e = Some v /\ nth_error wt' e = Some w).
  { intros e v w. unfold link, g'; cbn [head weight]. destruct (nth_error (head g) e); cbn [bind]. 2:{ split; intros; [discriminate|destruct H; discriminate]. }
    destruct (nth_error wt' e); cbn [bind]; split; intros H; try discriminate; try (destruct H; congruence). injection H as -> ->. auto. }
  assert (Lk0 : forall e v w, link g e = Some (v, w) <-> nth_error (head g) e = Some v /\ nth_error (weight g) e = Some w).
  { intros e v w. unfold link. destruct (nth_error (head g) e); cbn [bind]. 2:{ split; intros; [discriminate|destruct H; discriminate]. }
    destruct (nth_error (weight g) e); cbn [bind]; split; intros H; try discriminate; try (destruct H; congruence). injection H as -> ->. auto. }
  assert (P1 : forall u v w, garc (link_iter g') u v w -> (w <= INF)%N /\ (w = INF \/ garc (link_iter g) u v w) /\ forall w0, garc (link_iter g) u v w0 -> (w <= w0)%N).
  { intros u v w G. apply garc_link in G; auto. destruct G as (a & b & e & Er & He & Hl). change (range g u = Some (a, b)) in Er. apply Lk in Hl. destruct Hl as [Hv Hwt].
    rewrite (N' u a b e Er He) in Hwt. injection Hwt as <-. rewrite (nth_error_nth _ _ _ Hv).
    destruct (minw_spec g Hh (weight g) (seq a (b - a)) v) as (M1 & M2 & M3). split; auto. split.
    - destruct M3 as [M3|(e' & Hin & Hhd & Hmw)]; auto. right. apply garc_link; auto. exists a, b, e'. apply in_seq in Hin. split; auto. split; [lia|].
      assert (e' < length (head g)). { apply nth_error_Some_lt in Hv. destruct (range_ok g u Wf) as (a2 & b2 & Er2 & _ & _ & L2). { unfold range in Er. destruct (nth_error (first_out g) u); cbn [bind] in Er; [|discriminate]. destruct (nth_error (first_out g) (u + 1)) eqn:F; [|discriminate]. apply nth_error_Some_lt in F. unfold num_nodes. lia. } rewrite Er in Er2. injection Er2 as <- <-. lia. }
      apply Lk0. split. { rewrite <- Hhd. apply nth_error_nth_some; auto. } rewrite Hmw. apply nth_error_nth_some. rewrite (wf_wt g Wf); auto.
    - intros w0 G0. apply garc_link in G0; auto. destruct G0 as (a0 & b0 & e0 & Er0 & He0 & Hl0). rewrite Er in Er0. injection Er0 as <- <-. apply Lk0 in Hl0. destruct Hl0 as [Hv0 Hw0].
      specialize (M2 e0). rewrite (nth_error_nth _ _ _ Hw0) in M2. apply M2. { apply in_seq; lia. } apply nth_error_nth; auto. }
  assert (P2 : forall u v, (exists w, garc (link_iter g) u v w) <-> exists w, garc (link_iter g') u v w).
  { intros u v. split; intros (w & G); apply garc_link in G; auto; destruct G as (a & b & e & Er & He & Hl).
    - apply Lk0 in Hl. destruct Hl as [Hv Hwt]. eexists. apply garc_link; auto. exists a, b, e. split; auto. split; auto. apply Lk. split; auto. apply (N' u a b e Er He).
    - apply Lk in Hl. destruct Hl as [Hv Hwt]. destruct (nth_error_lt (weight g) e) as [w0 Hw0]. { rewrite (wf_wt g Wf). eapply nth_error_Some_lt; eauto. }
      exists w0. apply garc_link; auto. exists a, b, e. split; auto. split; auto. apply Lk0. auto. }
  split; auto. split; auto. intros HI. apply is_dist_transfer.
  - intros u v w G. destruct (P1 _ _ _ G) as (H1 & [->|H2] & H3).
    + assert (X : exists w, garc (link_iter g) u v w) by (apply P2; eauto). destruct X as (w0 & G0). exists w0. split; auto. apply (HI u v); auto.
    + exists w. split; auto; lia.
  - intros u v w G. assert (X : exists w, garc (link_iter g') u v w) by (apply P2; eauto). destruct X as (w0 & G0). exists w0. split; auto. destruct (P1 _ _ _ G0) as (_ & _ & H3). auto.
Qed.

(** C14, line graph *)
Lemma line_graph_spec adj g tc : valid_adj adj -> fits_u32 adj -> from_adjacency_lists adj = Some g ->
  (forall e v w e' c, link g e = Some (v, w) -> tc e e' = Some c -> (w + c < U32)%N) ->
  (N.of_nat (length (concat adj)) + 1 < 4294967295)%N ->
  (N.of_nat (length (concat (map (turns_of g tc) (seq 0 (num_arcs g))))) < 4294967295)%N ->
  exists g', line_graph g tc = Some g' /\ num_nodes g' = num_arcs g /\
    (forall e v w a b, link g e = Some (v, w) -> range g v = Some (a, b) ->
      link_iter g' e = Some (flat_map (fun e' => match tc e e' with Some c => [(e', w + c)%N] | None => [] end) (seq a (b - a)))) /\
    forall e e' l, walk (garc (link_iter g')) e e' l <->
      turn_walk (fun e v w => link g e = Some (v, w)) (fun e u => exists a b, range g u = Some (a, b) /\ a <= e < b) tc e e' l.
Proof.
  intros HV HF Eg HT Hn Hm. destruct (adj_graph adj HV HF) as (h & E & Wf & Nn & Na & En & El). rewrite Eg in E. injection E as <-.
  assert (Hh : forall e v, nth_error (head g) e = Some v -> v < num_nodes g).
  { intros e v He. assert (Hlt : e < num_arcs g) by (eapply nth_error_Some_lt; eauto).
    destruct (link_id_to_tail_ok binary_search g e binary_search_contract Wf Hlt) as (u & a & b & _ & Hu & Er & Hab).
    destruct (nth_error_lt (weight g) e) as [w Hw]. { rewrite (wf_wt g Wf). auto. }
    assert (G : garc (link_iter g) u v w). { apply garc_link; auto. exists a, b, e. split; auto. split; auto. unfold link. rewrite He; cbn [bind]. rewrite Hw; auto. }
    destruct G as (l & Hl & Hi). rewrite Nn in *. destruct (En u Hu) as [Eu Hb]. rewrite Eu in Hl. injection Hl as <-. eapply Hb; eauto. }
  destruct (line_graph_ok g tc Wf Hh) as (g' & E' & W' & N' & L'). { rewrite Na. auto. } { auto. }
  exists g'. split; auto. split; auto.
  assert (LI : forall e v w a b, link g e = Some (v, w) -> range g v = Some (a, b) ->
      link_iter g' e = Some (flat_map (fun e' => match tc e e' with Some c => [(e', w + c)%N] | None => [] end) (seq a (b - a)))).
  { intros e v w a b Hl Hr. destruct (L' e v w Hl) as (a' & b' & Hr' & Hi). rewrite Hr in Hr'. injection Hr' as <- <-. rewrite Hi. f_equal.
    clear Hi. induction (seq a (b - a)) as [|x s IH]; auto. cbn [flat_map]. rewrite IH. f_equal. destruct (tc e x) as [c|] eqn:Ec; auto.
    unfold wadd. rewrite N.mod_small; auto. eapply HT; eauto. }
  split; auto.
  assert (A : forall e e' x, garc (link_iter g') e e' x <-> exists v w c, link g e = Some (v, w) /\ (exists a b, range g v = Some (a, b) /\ a <= e' < b) /\ tc e e' = Some c /\ x = (w + c)%N).
  { intros e e' x. split.
    - intros (l & Hl & Hi). pose proof (link_iter_lt g' e l W' Hl) as He. rewrite N' in He. unfold num_arcs in He.
      destruct (nth_error_lt (head g) e He) as [v Hv]. destruct (nth_error_lt (weight g) e) as [w Hw]. { rewrite (wf_wt g Wf); auto. }
      assert (Lk : link g e = Some (v, w)). { unfold link. rewrite Hv; cbn [bind]. rewrite Hw; auto. }
      destruct (range_ok g v Wf (Hh e v Hv)) as (a & b & Er & _). rewrite (LI e v w a b Lk Er) in Hl. injection Hl as <-.
      apply in_flat_map in Hi. destruct Hi as (y & Hy & Hi). apply in_seq in Hy. destruct (tc e y) as [c|] eqn:Ec; [|destruct Hi]. destruct Hi as [Hi|[]]. injection Hi as -> <-.
      exists v, w, c. split; auto. split; auto. exists a, b. split; auto. lia.
    - intros (v & w & c & Lk & (a & b & Er & He') & Ec & ->). eexists. split. { eapply LI; eauto. } apply in_flat_map. exists e'. split. { apply in_seq. lia. } rewrite Ec. left; auto. }
  intros e e' l. split.
  - induction 1 as [e|e x t w l Ha Hw IH]. { constructor. } apply A in Ha. destruct Ha as (v & w0 & c & Lk & Hr & Ec & ->). econstructor; eauto.
  - induction 1 as [e|e v w x c t l Lk Hr Ec Hw IH]. { constructor. } econstructor; eauto. apply A. exists v, w, c. auto.
Qed.
