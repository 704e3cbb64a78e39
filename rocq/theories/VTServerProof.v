(** The server of the CH potential queries without its core phase (BCC_CORE = false): exact answers in original ids. *)
From Verif Require Import Base SpecPQ SpecGraph SpecBits Graph GraphProof GraphIdProof GraphXProof GraphRevProof GraphOpsProof GraphSpecProof LoopProof CCHContractProof NodeOrder NodeOrderProof SepTree CCH IndexHeap IndexHeapProof TsVec TsVecProof Dijkstra DijkstraRef DijkstraProof DijServer DijServerProof DijOrderProof DijHistProof PLF TopoDij TopoDijProof SpecTopo TopoServerProof VTopo VTopoProof BicProof VCompProof VTBuildProof.
From Coq Require Import Permutation.

(** renaming the nodes of a graph *)
Section Rename.
  Variables (arc arc' : nat -> nat -> N -> Prop) (nd : nat -> nat -> Prop).   (** [nd r u]: rank [r] is node [u] *)
  Hypothesis Harc : forall r u, nd r u -> forall w r', arc' r r' w -> exists u', nd r' u' /\ arc u u' w.
  Hypothesis Harc' : forall r u, nd r u -> forall w u', arc u u' w -> exists r', nd r' u' /\ arc' r r' w.
  Hypothesis Hfun : forall r u u', nd r u -> nd r u' -> u = u'.
  Hypothesis Hinj : forall r r' u, nd r u -> nd r' u -> r = r'.
  Set Default Proof Using "All".
  Lemma walk_to r u t v l : nd r u -> nd t v -> walk arc' r t l -> walk arc u v l.
  Proof.
    intros Hr Ht H. revert u Hr. induction H as [r|r r' t w l Ha Hw IH]; intros u Hr.
    - rewrite (Hfun r u v Hr Ht). constructor.
    - destruct (Harc r u Hr w r' Ha) as (u' & Hu' & Hau). econstructor; eauto.
  Qed.
  Lemma walk_from u v l : walk arc u v l -> forall r t, nd r u -> nd t v -> walk arc' r t l.
  Proof.
    induction 1 as [u|u u' v w l Ha Hw IH]; intros r t Hr Ht.
    - rewrite (Hinj r t u Hr Ht). constructor.
    - destruct (Harc' r u Hr w u' Ha) as (r' & Hr' & Har). econstructor; eauto.
  Qed.
  Lemma exact_to r u t v a : nd r u -> nd t v -> exact_answer arc' r t a -> exact_answer arc u v a.
  Proof.
    intros Hr Ht. destruct a as [x|]; cbn.
    - intros (H1 & H2 & H3). split; auto. split. { eapply walk_to; eauto. } intros l W. apply H3. eapply walk_from; eauto.
    - intros H l W. apply H. eapply walk_from; eauto.
  Qed.
  Lemma npath_to r u p t v l : nd r u -> nd t v -> npath arc' r p t l -> exists q, Forall2 nd p q /\ npath arc u q v l.
  Proof.
    intros Hr Ht H. revert u Hr. induction H as [r|r r' t w l p Ha Hw IH]; intros u Hr.
    - rewrite (Hfun r v u Ht Hr). exists [u]. split; auto. constructor.
    - destruct (Harc r u Hr w r' Ha) as (u' & Hu' & Hau). destruct (IH Ht u' Hu') as (q & F & P). exists (u :: q). split; auto. econstructor; eauto.
  Qed.
End Rename.

Lemma NoDup_F2 {A B} (R : A -> B -> Prop) p q : (forall a a' b, R a b -> R a' b -> a = a') -> Forall2 R p q -> NoDup p -> NoDup q.
Proof.
  intros Hi F. induction F as [|a b p q Hab F IH]; intros ND; [constructor|]. inversion ND as [|? ? Hn ND']; subst. constructor; auto.
  intros Hb. apply Hn. clear -Hi F Hab Hb. induction F as [|a' b' p q H F IH]; [destruct Hb|]. destruct Hb as [->|Hb]; [left; eauto|right; auto].
Qed.

Section Server.
  Variable g : fograph N.
  Notation n := (num_nodes g).
  Notation links := (link_iter g).
  Variable nb : nat -> list (nat * N).
  Hypothesis He : enum n links nb.
  Hypothesis Hm : num_arcs g = length (all_arcs n nb).
  Hypothesis Hn : (N.of_nat n + 1 < U32MAX)%N.
  Hypothesis Hm1 : (N.of_nat (num_arcs g) < U32MAX)%N.
  Hypothesis Hw : forall u v w, u < n -> In (v, w) (nb u) -> (w <= INF)%N.
  Variable lsort : (nat * N -> nat) -> list (nat * N) -> list (nat * N).
  Hypothesis Hls : sort_contract lsort.
  Variable vt : vtopo.
  Hypothesis HV : vt_good n nb vt.
  Notation ord := (no_order (vt_order vt)).
  Notation ranks := (no_ranks (vt_order vt)).
  Definition nd (r u : nat) : Prop := nth_error ord r = Some u.

  Set Default Proof Using "All".
  Lemma nd_lt r u : nd r u -> r < n /\ u < n.
  Proof.
    pose proof (v_order _ _ _ HV) as (L1 & L2 & L3 & L4). intros H. split. { apply nth_error_Some_lt in H. lia. } apply L3 in H. apply nth_error_Some_lt in H. lia.
  Qed.
  Lemma nd_fun r u u' : nd r u -> nd r u' -> u = u'.
  Proof. unfold nd. congruence. Qed.
  Lemma nd_inj r r' u : nd r u -> nd r' u -> r = r'.
  Proof. pose proof (v_order _ _ _ HV) as (L1 & L2 & L3 & L4). intros H1 H2. apply L3 in H1, H2. congruence. Qed.
  Lemma nd_ex r : r < n -> exists u, nd r u /\ u < n.
  Proof. intros H. pose proof (v_order _ _ _ HV) as (L1 & L2 & L3 & L4). destruct (nth_error_lt ord r) as [u E]; [lia|]. exists u. split; auto. apply (nd_lt r u E). Qed.
  Lemma nd_rank u : u < n -> exists r, no_rank (vt_order vt) u = Some r /\ nd r u /\ r < n.
  Proof. intros H. pose proof (v_order _ _ _ HV) as (L1 & L2 & L3 & L4). destruct (nth_error_lt ranks u) as [r E]; [lia|]. exists r. split; auto. split. { apply L4; auto. } apply L4 in E. apply (nd_lt r u E). Qed.

  (** one of the graphs built by renaming and filtering *)
  Section Filtered.
    Variable pred : nat -> nat -> bool.
    Lemma filtered_ok : exists g', permutated_filtered lsort n links ord ranks pred = Some g' /\ wf g' /\ num_nodes g' = n /\ wf_links n (link_iter g') /\
      (forall r u, nd r u -> forall w r', garc (link_iter g') r r' w -> exists u', nd r' u' /\ garc links u u' w /\ pred r r' = true) /\
      (forall r u, nd r u -> forall w u', garc links u u' w -> exists r', nd r' u' /\ (pred r r' = true -> garc (link_iter g') r r' w)) /\
      (forall r u, nd r u -> exists l, link_iter g' r = Some l /\ Permutation l (map (fun a => (nth (fst a) ranks 0, snd a)) (filter (fun a => pred r (nth (fst a) ranks 0)) (nb u)))).
    Proof.
      pose proof (v_order _ _ _ HV) as NO. pose proof NO as (L1 & L2 & L3 & L4).
      destruct (permutated_ok lsort n links nb ord ranks pred Hls He (node_order_perm _ _ _ NO) L2 Hn) as (g' & E & Wf & Nn & HX). { rewrite <- Hm; auto. }
      assert (Rk : forall u, u < n -> nd (nth u ranks 0) u). { intros u Hu. destruct (nd_rank u Hu) as (r & Er & Hr & _). unfold no_rank in Er. rewrite (nth_error_nth _ _ _ Er). auto. }
      exists g'. split; auto. split; auto. split; auto. split; [|split; [|split]].
      - intros r Hr. destruct (nd_ex r Hr) as (u & Hu & Hun). destruct (HX r u Hu) as (l & El & P & _). exists l. split; auto.
        intros v w Hi. apply (Permutation_in _ P) in Hi. apply in_map_iff in Hi. destruct Hi as ([v' w'] & [= <- <-] & Hi). apply filter_In in Hi. destruct Hi as [Hi _].
        split; [|eauto]. apply (nd_lt _ _ (Rk v' (proj2 (He u Hun) v' w' Hi))).
      - intros r u Hr w r' (l & El & Hi). destruct (nd_lt r u Hr) as [_ Hun]. destruct (HX r u Hr) as (l' & El' & P & _). assert (l' = l) by congruence. subst l'.
        apply (Permutation_in _ P) in Hi. apply in_map_iff in Hi. destruct Hi as ([v' w'] & [= <- <-] & Hi). apply filter_In in Hi. destruct Hi as [Hi Hp].
        exists v'. split. { apply Rk. apply (proj2 (He u Hun) v' w' Hi). } split; auto. exists (nb u). split; auto. apply (He u Hun).
      - intros r u Hr w u' (l & El & Hi). destruct (nd_lt r u Hr) as [_ Hun]. destruct (He u Hun) as [El2 X]. assert (l = nb u) by congruence. subst l.
        exists (nth u' ranks 0). split. { apply Rk. eauto. } intros Hp. destruct (HX r u Hr) as (l' & El' & P & _). exists l'. split; auto.
        apply (Permutation_in _ (Permutation_sym P)). apply in_map_iff. exists (u', w). split; auto. apply filter_In. auto.
      - intros r u Hr. destruct (HX r u Hr) as (l & El & P & _). eauto.
    Qed.
  End Filtered.

  (** ** degrees *)
  Hypothesis Hdeg : forall u, u < n -> length (outs_of nb u) + length (ins_of n nb u) < 256.
  Lemma deg_of_sym u : u < n -> deg_of n nb u = symmetric_degree (outs_of nb u) (ins_of n nb u).
  Proof.
    intros Hu. unfold deg_of, as_u8. rewrite N.mod_small, Nat2N.id; auto. pose proof (symdeg_upper (outs_of nb u) (ins_of n nb u)). specialize (Hdeg u Hu). lia.
  Qed.
  Definition good_split : Prop := vt_deg2 vt <= vt_core vt.
  Hypothesis Hsp : good_split.

  Lemma sdeg_le r u : nd r u -> exists d, vt_sdeg vt r = Some d /\ match d with LessEqTwo => deg_of n nb u <= 2 | Three => deg_of n nb u <= 3 | GreaterEqFour => True end.
  Proof.
    intros Hr. unfold vt_sdeg. unfold good_split in Hsp. destruct (Nat.ltb_spec r (vt_deg3 vt)) as [A1|A1]. { eexists; split; [reflexivity|]. exact I. }
    pose proof (v_d23 _ _ _ HV) as D23.
    destruct (Nat.ltb_spec r (vt_deg2 vt)) as [A2|A2]. { eexists; split; [reflexivity|]. apply (proj2 (v_d3 _ _ _ HV r u Hr)). lia. }
    destruct (Nat.ltb_spec r (vt_core vt)) as [A3|A3]. { eexists; split; [reflexivity|]. apply (proj2 (v_d2 _ _ _ HV r u Hr)). lia. }
    rewrite (v_degs _ _ _ HV r u A3 Hr). cbn [bind]. eexists; split; [reflexivity|].
    destruct (deg_of n nb u =? 3) eqn:D1; [apply Nat.eqb_eq in D1; lia|]. apply Nat.eqb_neq in D1. destruct (Nat.ltb_spec 3 (deg_of n nb u)); auto. lia.
  Qed.

  Lemma report_ok pred g' : permutated_filtered lsort n links ord ranks pred = Some g' -> degree_report n (link_iter g') (vt_sdeg vt).
  Proof.
    intros E. destruct (filtered_ok pred) as (g'' & E' & _ & _ & _ & HA & _ & HL). assert (g'' = g') by congruence. subst g''. split.
    - intros v Hv. destruct (nd_ex v Hv) as (u & Hu & _). destruct (sdeg_le v u Hu) as (d & -> & _). discriminate.
    - intros r r' w Hr Ha. destruct (nd_ex r Hr) as (u & Hu & Hun). destruct (HA r u Hu w r' Ha) as (u' & Hu' & Har & _). destruct (nd_lt r' u' Hu') as [_ Hun'].
      assert (HO : length (out_other (link_iter g') r r') <= deg_of n nb u' - 1).
      { unfold out_other. destruct (HL r' u' Hu') as (l & -> & P).
        assert (Rk : forall x, x < n -> nth x ranks 0 = r <-> x = u). { intros x Hx. destruct (nd_rank x Hx) as (rx & Erx & Hrx & _). unfold no_rank in Erx. rewrite (nth_error_nth _ _ _ Erx). split; [intros ->; eapply nd_fun; eauto|intros ->; eapply nd_inj; eauto]. }
        assert (C1 : length (filter (fun a => negb (fst a =? r)) l) <= cnt (fun x => negb (x =? u)) (outs_of nb u')).
        { assert (E1 : length (filter (fun a => negb (fst a =? r)) l) = cnt (fun x => negb (x =? r)) (map fst l)). { unfold cnt. clear. induction l as [|a l IH]; auto. cbn [map filter]. destruct (fst a =? r); cbn [negb]; auto. cbn [length]. auto. }
          rewrite E1, (cnt_perm _ _ _ (Permutation_map fst P)), map_map. cbn [fst]. unfold outs_of.
          assert (Hin : forall a, In a (nb u') -> fst a < n). { intros [x wx] Hx. apply (proj2 (He u' Hun') x wx Hx). }
          clear -Rk Hin. induction (nb u') as [|a l IH]; auto. cbn [filter map]. specialize (IH ltac:(intros; apply Hin; right; auto)). pose proof (Hin a (or_introl eq_refl)) as Ha. pose proof (Rk (fst a) Ha) as Ra.
          destruct (pred r' _); cbn [map]; rewrite ?cnt_cons; [|lia].
          destruct (Nat.eqb_spec (nth (fst a) ranks 0) r) as [Q1|Q1], (Nat.eqb_spec (fst a) u) as [Q2|Q2]; cbn [negb]; try lia; tauto. }
        assert (C2 : 1 <= cnt (fun x => x =? u) (ins_of n nb u')).
        { assert (Hi : In u (ins_of n nb u')). { apply ins_spec; auto. split; auto. destruct Har as (ls & El & Hi). destruct (He u Hun) as [El2 _]. assert (ls = nb u) by congruence. subst. apply in_map_iff. exists (u', w). auto. }
          unfold cnt. destruct (filter (fun x => x =? u) (ins_of n nb u')) eqn:Ef; [|cbn; lia]. assert (Hf : In u (filter (fun x => x =? u) (ins_of n nb u'))). { apply filter_In. split; auto. apply Nat.eqb_refl. } rewrite Ef in Hf. destruct Hf. }
        pose proof (symdeg_lower (outs_of nb u') (ins_of n nb u') u) as C3. rewrite deg_of_sym by auto. lia. }
      destruct (sdeg_le r' u' Hu') as (d & -> & Hd). split; intros [= ->]; lia.
  Qed.

  (** ** the server without core phase *)
  Context {E : Type}.
  Variables skip2 skip3 : bool.
  Variable pinit : E -> nat -> option E.
  Variable pget : E -> nat -> option (E * option N).
  Variable EI : E -> Prop.
  Variable ET : nat -> E -> Prop.
  Variable h : nat -> nat -> option N.
  Hypothesis HP : pot_contract n (fun t => t < n) pinit pget EI ET h.

  Definition hr (t v : nat) : option N := match nth_error ord t, nth_error ord v with Some t', Some v' => h t' v' | _, _ => None end.
  Definition ETr (t : nat) (e : E) : Prop := exists u, nd t u /\ ET u e.
  Lemma perm_pot : pot_contract n (fun t => t < n) (pp_init (vt_order vt) pinit) (pp_get (vt_order vt) pget) EI ETr hr.
  Proof.
    split.
    - intros e t Hei Ht. destruct (nd_ex t Ht) as (u & Hu & Hun). unfold pp_init, no_node. rewrite Hu. cbn [bind].
      destruct (pc_init _ _ _ _ _ _ _ HP e u Hei Hun) as (e' & E1 & E2). exists e'. split; auto. exists u. auto.
    - intros e t v (u & Hu & Het) Hv. destruct (nd_ex v Hv) as (x & Hx & Hxn). unfold pp_get, no_node. rewrite Hx. cbn [bind].
      destruct (pc_get _ _ _ _ _ _ _ HP e u x Het Hxn) as (e' & E1 & E2). exists e'. unfold hr. rewrite Hu, Hx. split; auto. exists u. auto.
    - intros e t (u & Hu & Het). eapply (pc_keep _ _ _ _ _ _ _ HP); eauto.
  Qed.

  Hypothesis HL : forall t, t < n -> lower_bounds (garc links) t (h t).
  Variables (main comp : fograph N).
  Hypothesis Emain : permutated_filtered lsort n links ord ranks (fun _ _ => true) = Some main.

  Lemma main_ok : wf main /\ num_nodes main = n /\ wf_links n (link_iter main) /\
    (forall r u, nd r u -> forall w r', garc (link_iter main) r r' w -> exists u', nd r' u' /\ garc links u u' w) /\
    (forall r u, nd r u -> forall w u', garc links u u' w -> exists r', nd r' u' /\ garc (link_iter main) r r' w).
  Proof.
    destruct (filtered_ok (fun _ _ => true)) as (g' & E1 & E0 & E2 & E3 & E4 & E5 & _). assert (g' = main) by congruence. subst g'. split; auto. split; auto. split; auto. split.
    - intros r u Hr w r' Ha. destruct (E4 r u Hr w r' Ha) as (u' & A & B & _). eauto.
    - intros r u Hr w u' Ha. destruct (E5 r u Hr w u' Ha) as (r' & A & B). eauto.
  Qed.
  Lemma lower_r t : t < n -> lower_bounds (garc (link_iter main)) t (hr t).
  Proof.
    intros Ht. destruct main_ok as (Wf & Nn & _ & A1 & A2). destruct (nd_ex t Ht) as (u & Hu & Hun). destruct (HL u Hun) as [B1 B2]. split.
    - intros v l W Hl. unfold hr. rewrite Hu. destruct (Nat.lt_ge_cases v n) as [Hv|Hv].
      + destruct (nd_ex v Hv) as (x & Hx & Hxn). rewrite Hx. apply B1; auto. eapply (walk_to (garc links) _ nd); eauto using nd_fun, nd_inj.
      + exfalso. inversion W; subst; [lia|]. destruct H as (ls & El & _). pose proof (link_iter_lt main v ls Wf El). lia.
    - intros v p. unfold hr. rewrite Hu. destruct (nth_error ord v); [apply B2|discriminate].
  Qed.

  Definition S_of (sv : server unit E) : vserver E := mkVS main comp vt sv.
  Lemma plain_distance_ok sv s t : SvOK n EI sv -> s < n -> t < n ->
    exists sv' r, vs_distance false skip2 skip3 pinit pget (S_of sv) s t = Some (S_of sv', r) /\ SvOK n EI sv' /\ exact_answer (garc links) s t r /\
      (forall x, r = Some x -> exists q, vs_node_path (S_of sv') s t = Some q /\ npath (garc links) s q t x /\ NoDup q).
  Proof.
    intros OK Hs Ht. destruct main_ok as (_ & Nn & WF & A1 & A2). unfold vs_distance.
    destruct (nd_rank s Hs) as (rs & Ers & Hrs & Lrs). destruct (nd_rank t Ht) as (rt & Ert & Hrt & Lrt).
    destruct (Nat.eqb_spec s t) as [->|Nst].
    - exists sv, (Some 0%N). split; auto. split; auto. split. { cbn. split; [reflexivity|]. split; [constructor|]. lia. }
      intros x [= <-]. exists [t]. split; [|split; [constructor|constructor; auto; constructor]].
      unfold vs_node_path. cbn [S_of vs_vt vs_sv]. rewrite Ert. cbn [bind]. unfold sv_node_path, node_path.
      assert (EB : forall k pr, back_nodes (P := unit) k pr rt rt = Some [rt]) by (intros [|k] pr; cbn [back_nodes]; rewrite Nat.eqb_refl; auto).
      rewrite EB. cbn [bind rev app mapM]. unfold no_node. rewrite Hrt. auto.
    - cbn [S_of vs_vt vs_sv vs_main negb]. rewrite Ers, Ert. cbn [bind]. rewrite Nn.
      destruct (sk_distance_ok n (link_iter main) (vt_sdeg vt) skip2 skip3 _ _ EI ETr hr WF perm_pot lower_r (report_ok _ _ Emain) sv rs rt INF OK Lrs Lrt) as (sv' & r & E1 & OK' & C & Y).
      unfold sk_distance in E1. rewrite E1. cbn [bind]. exists sv', r. split; auto. split; auto.
      pose proof (capped_exact _ _ _ _ C) as EX. split. { eapply (exact_to (garc links) _ nd); eauto using nd_fun, nd_inj. }
      intros x ->. destruct (Y x eq_refl) as (p & y & P1 & P2 & P3 & P4). assert (y = x). { destruct EX as (_ & _ & M). specialize (M y (npath_walk _ _ _ _ _ P2)). lia. } subst y.
      destruct (npath_to (garc links) _ nd A1 A2 nd_fun nd_inj rs s p rt t x Hrs Hrt P2) as (q & F & Pq). exists q. split; [|split; auto].
      + unfold vs_node_path. cbn [S_of vs_vt vs_sv]. rewrite Ers, Ert. cbn [bind]. unfold S_of. cbn [vs_sv]. rewrite P1. cbn [bind].
        unfold no_node. clear -F. induction F as [|a b p q H F IH]; auto. cbn [mapM]. rewrite H, IH. auto.
      + eapply NoDup_F2; eauto. apply nd_inj.
  Qed.

  Lemma plain_history_ok sv qs : SvOK n EI sv -> Forall (fun q => fst q < n /\ snd q < n) qs ->
    exists sv', vs_history false skip2 skip3 pinit pget (S_of sv) qs = Some (S_of sv') /\ SvOK n EI sv'.
  Proof.
    intros OK F. revert sv OK. induction F as [|q qs [Hq1 Hq2] F IH]; intros sv OK. { exists sv. auto. }
    destruct (plain_distance_ok sv (fst q) (snd q) OK Hq1 Hq2) as (sv1 & r & E1 & OK1 & _). destruct (IH sv1 OK1) as (sv2 & E2 & OK2).
    exists sv2. split; auto. unfold vs_history in *. cbn [foldM]. rewrite E1. cbn [bind]. exact E2.
  Qed.
End Server.

(** ** separation, along chains of neighbours *)
Section Chains.
  Context {W : Type}.
  Variables (n : nat) (nb : nat -> list (nat * W)) (vt : vtopo).
  Hypothesis HV : vt_good n nb vt.
  Hypothesis Hsp : vt_deg2 vt <= vt_core vt.
  Notation ord := (no_order (vt_order vt)).

  Lemma core_ty r u : nth_error ord r = Some u -> exists ty, node_type vt r = Some ty /\ in_core ty = (r <? vt_core vt).
  Proof using HV Hsp.
    intros Hu. pose proof (v_d23 _ _ _ HV). unfold node_type.
    destruct (Nat.ltb_spec r (vt_deg3 vt)) as [A1|A1]. { eexists; split; [reflexivity|]. cbn. symmetry. apply Nat.ltb_lt. lia. }
    destruct (Nat.ltb_spec r (vt_deg2 vt)) as [A2|A2]. { eexists; split; [reflexivity|]. cbn. symmetry. apply Nat.ltb_lt. lia. }
    destruct (Nat.ltb_spec r (vt_core vt)) as [A3|A3]. { eexists; split; [reflexivity|]. reflexivity. }
    rewrite (v_degs _ _ _ HV r u A3 Hu). cbn [bind]. eexists; split; reflexivity.
  Qed.
  Lemma bridge_spec r u : nth_error ord r = Some u -> exists ob, bridge_node vt r = Some ob /\ (r < vt_core vt -> ob = None) /\ (forall b, ob = Some b -> b < vt_core vt) /\
    (vt_core vt <= r -> forall r' u', nth_error ord r' = Some u' -> adj n nb u u' -> (r' < vt_core vt -> ob = Some r') /\ (vt_core vt <= r' -> bridge_node vt r' = Some ob)).
  Proof using HV Hsp.
    intros Hu. destruct (core_ty r u Hu) as (ty & E & Ec). unfold bridge_node. rewrite E. cbn [bind]. rewrite Ec.
    destruct (Nat.ltb_spec r (vt_core vt)) as [A|A]. { exists None. split; auto. split; auto. split; [discriminate|]. lia. }
    destruct (v_bcc _ _ _ HV r u A Hu) as (c & ob & E1 & E2 & E3 & E4). unfold csub. destruct (Nat.leb_spec (vt_core vt) r) as [_|]; [|lia]. cbn [bind]. rewrite E1. cbn [bind].
    exists ob. split; auto. split; [lia|]. split; auto. intros _ r' u' Hu' Ha. destruct (E4 r' u' Hu' Ha) as [F1 F2]. split; auto. intros A'.
    destruct (core_ty r' u' Hu') as (ty' & E' & Ec'). rewrite E'. cbn [bind]. rewrite Ec'. destruct (Nat.ltb_spec r' (vt_core vt)) as [|_]; [lia|]. destruct (Nat.leb_spec (vt_core vt) r') as [_|]; [|lia]. cbn [bind]. rewrite (F2 A'). auto.
  Qed.
End Chains.
