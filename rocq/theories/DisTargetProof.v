(** The bounded search of CatchDisconnectedTarget. *)
From Verif Require Import Base SpecBits SpecGraph SpecReach BitVec FastClearProof Graph GraphProof GraphRevProof GraphSpecProof DisTarget.

Section Dfs.
  Variable n s : nat.
  Variable links : nat -> option (list (nat * unit)).
  Variable nb : nat -> list (nat * unit).
  Variable R : nat -> Prop.
  Variable G : Prop.
  Hypothesis Hnb : forall u, u < n -> links u = Some (nb u) /\ forall v x, In (v, x) (nb u) -> v < n.
  Hypothesis HR : forall u v x, u < n -> R u -> In (v, x) (nb u) -> R v.
  Hypothesis G1 : R s -> G.
  Hypothesis G2 : forall l, NoDup l -> length l = 201 -> (forall x, In x l -> x < n /\ R x) -> G.

  Definition EOK (S : nat -> bool) (c : nat) (E : list nat) : Prop :=
    NoDup E /\ length E = c /\ forall x, In x E -> x < n /\ S x = true /\ R x.

  Definition step_ok (S : nat -> bool) (c : nat) (r : bool) (tgt : list nat) (st' : fcbv * nat * bool) : Prop :=
    let '(vis', c', r') := st' in
    exists S' E', FInv n vis' S' /\ EOK S' c' E' /\ c <= c' <= 200 /\ (r' = true -> G) /\ (r = true -> r' = true) /\
      (forall x, S x = true -> S' x = true) /\ (forall x, In x tgt -> S' x = true) /\
      (forall x, S' x = true -> S x = true \/ r' = true \/ (x <> s /\ x < n /\ forall y z, In (y, z) (nb x) -> S' y = true)).

  Lemma EOK_mono S S' c E : (forall x, S x = true -> S' x = true) -> EOK S c E -> EOK S' c E.
  Proof. intros M (A & B & C). split; auto. split; auto. intros x Hx. destruct (C x Hx) as (C1 & C2 & C3). auto. Qed.

  Lemma dfs_ok fuel : forall vis c r S E node, FInv n vis S -> node < n -> R node -> c <= 200 -> 201 <= fuel + c -> EOK S c E -> (r = true -> G) ->
    exists st', cd_dfs fuel links s (vis, c, r) node = Some st' /\ step_ok S c r [node] st'.
  Proof using Hnb HR G1 G2.
    induction fuel as [|fuel IH]; intros vis c r S E node F Hn Rn Hc Hf HE Hr; [lia|].
    cbn [cd_dfs]. rewrite (fc_get_inv n vis S node F Hn). cbn [bind]. destruct (S node) eqn:ES.
    { eexists; split; [reflexivity|]. exists S, E. split; auto. split; auto. split; [lia|]. split; auto. split; auto. split; auto. split; [intros x [<-|[]]; auto|auto]. }
    destruct (fc_set_inv n vis S node F Hn) as (vis1 & E1 & F1). rewrite E1. cbn [bind]. set (S1 := fun j => (j =? node) || S j) in *.
    assert (forall x, S x = true -> S1 x = true) as M1 by (intros x Hx; unfold S1; rewrite Hx; apply orb_true_r).
    assert (S1 node = true) as N1 by (unfold S1; rewrite Nat.eqb_refl; auto).
    assert (forall x, S1 x = true -> x = node \/ S x = true) as D1.
    { intros x Hx. unfold S1 in Hx. apply orb_true_iff in Hx. destruct Hx as [Hx|Hx]; auto. apply Nat.eqb_eq in Hx. auto. }
    destruct (node =? s) eqn:Es.
    { apply Nat.eqb_eq in Es. subst node. eexists; split; [reflexivity|]. exists S1, E. split; auto. split; [eapply EOK_mono; eauto|]. split; [lia|].
      split; [auto|]. split; [auto|]. split; [auto|]. split; [intros x [<-|[]]; auto|]. auto. }
    apply Nat.eqb_neq in Es. destruct (c <? 200) eqn:Ec.
    - apply Nat.ltb_lt in Ec. destruct (Hnb node Hn) as (L & HB). rewrite L. cbn [bind].
      assert (EOK S1 (c + 1) (node :: E)) as HE1.
      { destruct HE as (A & B & C). split; [constructor; auto; intros Hi; destruct (C _ Hi) as (_ & C2 & _); congruence|]. split; [cbn; lia|].
        intros x [<-|Hx]; auto. destruct (C x Hx) as (C1 & C2 & C3). auto. }
      assert (forall ls, (forall y z, In (y, z) ls -> In (y, z) (nb node)) -> forall vis c' r S E, FInv n vis S -> c + 1 <= c' <= 200 -> EOK S c' E -> (r = true -> G) ->
        exists st', foldM (fun st a => cd_dfs fuel links s st (fst a)) ls (vis, c', r) = Some st' /\ step_ok S c' r (map fst ls) st') as FO.
      { induction ls as [|(y, z) ls IHl]; intros Hsub v2 c2 r2 S2 E2 F2 C2 HE2 Hr2.
        - eexists; split; [reflexivity|]. exists S2, E2. split; auto. split; auto. split; [lia|]. cbn [map In]. tauto.
        - cbn [foldM fst]. assert (In (y, z) (nb node)) as Hy by (apply Hsub; left; auto).
          destruct (IH v2 c2 r2 S2 E2 y F2 (HB _ _ Hy) (HR _ _ _ Hn Rn Hy) ltac:(lia) ltac:(lia) HE2 Hr2) as (((v3, c3), r3) & E3 & S3 & E3' & F3 & HE3 & C3 & Hr3 & Hr3' & M3 & T3 & D3).
          rewrite E3. cbn [bind].
          destruct (IHl ltac:(intros; apply Hsub; right; auto) v3 c3 r3 S3 E3' F3 ltac:(lia) HE3 Hr3) as (((v4, c4), r4) & E4 & S4 & E4' & F4 & HE4 & C4 & Hr4 & Hr4' & M4 & T4 & D4).
          exists (v4, c4, r4). split; auto. exists S4, E4'. split; auto. split; auto. split; [lia|]. split; auto. split; auto. split; auto.
          split; [intros x [<-|Hx]; auto; apply M4, T3; left; auto|].
          intros x Hx. destruct (D4 x Hx) as [Hx3|[H|H]]; auto. destruct (D3 x Hx3) as [H|[H|(H1 & H2 & H3)]]; auto. right. right. split; auto. split; auto. intros; eauto. }
      destruct (FO (nb node) ltac:(auto) vis1 (c + 1) r S1 (node :: E) F1 ltac:(lia) HE1 Hr) as (((v2, c2), r2) & E2 & S2 & E2' & F2 & HE2 & C2 & Hr2 & Hr2' & M2 & T2 & D2).
      exists (v2, c2, r2). split; auto. exists S2, E2'. split; auto. split; auto. split; [lia|]. split; auto. split; auto. split; auto.
      split; [intros x [<-|[]]; auto|]. intros x Hx. destruct (D2 x Hx) as [H|[H|H]]; auto. destruct (D1 x H) as [->|H']; auto.
      right. right. split; auto. split; auto. intros y z Hy. apply T2. apply (in_map fst) in Hy. auto.
    - apply Nat.ltb_ge in Ec. eexists; split; [reflexivity|]. exists S1, E. split; auto. split; [eapply EOK_mono; eauto|]. split; [lia|].
      split; [|split; [auto|split; [auto|split; [intros x [<-|[]]; auto|auto]]]].
      intros _. destruct HE as (A & B & C). apply (G2 (node :: E)).
      + constructor; auto. intros Hi. destruct (C _ Hi) as (_ & C2 & _). congruence.
      + cbn. lia.
      + intros x [<-|Hx]; auto. destruct (C x Hx) as (C1 & C2 & C3). auto.
  Qed.
End Dfs.

Section Check.
  Context {W : Type}.
  Variable adj : list (list (nat * W)).
  Variable g : fograph W.
  Hypothesis HV : valid_adj adj.
  Hypothesis HF : fits_u32 adj.
  Hypothesis Hg : from_adjacency_lists adj = Some g.

  Notation n := (length adj).
  Definition inb (v : nat) : list (nat * unit) :=
    flat_map (fun u => map (fun a : nat * unit => (u, snd a)) (filter (fun a => fst a =? v) (map (fun a => (fst a, tt)) (nth u adj [])))) (seq 0 n).

  Definition cd_ok (c : cdt) : Prop :=
    (forall v, v < n -> link_iter (cd_rev c) v = Some (inb v)) /\ exists S, FInv n (cd_vis c) S.

  Lemma inb_in v u x : In (u, x) (inb v) <-> u < n /\ has_arc adj u v.
  Proof using HV.
    unfold inb. rewrite in_flat_map. split.
    - intros (u' & Hu' & H). apply in_seq in Hu'. apply in_map_iff in H. destruct H as ((v', y) & E & H). inversion E; subst. apply filter_In in H. destruct H as (H & Ev).
      cbn in Ev. apply Nat.eqb_eq in Ev. subst. apply in_map_iff in H. destruct H as ((v'', w) & E' & H). inversion E'; subst. split; [lia|]. exists w. auto.
    - intros (Hu & w & H). exists u. split; [apply in_seq; lia|]. apply in_map_iff. exists (v, tt). split; [destruct x; auto|]. apply filter_In. split; [|apply Nat.eqb_refl].
      apply in_map_iff. exists (v, w). auto.
  Qed.

  Lemma cd_new_ok : exists c, cd_new (num_nodes g) (num_arcs g) (link_iter g) = Some c /\ cd_ok c.
  Proof using HV HF Hg.
    destruct (adj_graph adj HV HF) as (g0 & E & Wf & Nn & Na & En & El). rewrite Hg in E. inversion E; subst g0.
    unfold cd_new. rewrite Nn, Na.
    destruct (reversed_ok tt n (length (concat adj)) (fun u => l <- link_iter g u ;; Some (map (fun a => (fst a, tt)) l)) (fun u => map (fun a => (fst a, tt)) (nth u adj []))) as (g' & E' & _ & _ & _ & L').
    - intros u Hu. destruct (En u Hu) as (Eu & Hb). rewrite Eu. cbn [bind]. split; auto. intros v x Hi. apply in_map_iff in Hi. destruct Hi as ((v', w) & Ev & Hi). inversion Ev; subst. eapply Hb; eauto.
    - rewrite El. unfold all_arcs. generalize (seq 0 n). induction l as [|u l IH]; auto. cbn [map concat]. rewrite !app_length, IH, !map_length. auto.
    - apply HF.
    - apply HF.
    - rewrite E'. cbn [bind]. eexists; split; [reflexivity|]. split; cbn [cd_rev cd_vis]; auto. exists (fun _ => false). apply fc_new_inv.
  Qed.

  Lemma leads_lt u t : leads_to adj u t -> t < n -> u < n.
  Proof. induction 1 as [|u v t (w & H) _ IH]; auto. intros Ht. destruct (Nat.lt_ge_cases u n); auto. rewrite nth_overflow in H by auto. destruct H. Qed.

  Lemma check_ok c s t : cd_ok c -> t < n ->
    exists c' b, check_target c s t = Some (c', b) /\ cd_ok c' /\
      (leads_to adj s t -> b = true) /\ (b = true -> leads_to adj s t \/ reached_from_many adj t 201).
  Proof using HV HF Hg.
    intros (HL & S & F) Ht. unfold check_target. destruct (fc_clear_inv n _ S F) as (v0 & E0 & F0). rewrite E0. cbn [bind].
    destruct (dfs_ok n s (link_iter (cd_rev c)) inb (fun x => leads_to adj x t) (leads_to adj s t \/ reached_from_many adj t 201)) with (fuel := 201) (vis := v0) (c := 0) (r := false) (S := fun _ : nat => false) (E := @nil nat) (node := t)
      as (((v1, c1), r1) & E1 & S1 & L1 & F1 & _ & _ & Hr1 & _ & _ & T1 & D1); auto.
    - intros u Hu. split; [auto|]. intros v x Hi. apply inb_in in Hi. tauto.
    - intros u v x Hu Ru Hi. apply inb_in in Hi. destruct Hi as (_ & Ha). econstructor; eauto.
    - intros l ND Ll Hl. right. exists l. auto.
    - constructor.
    - lia.
    - split; [constructor|]. split; auto. intros x [].
    - discriminate.
    - rewrite E1. cbn [bind]. exists (mkCdt (cd_rev c) v1), r1. split; auto. split; [split; cbn; eauto|]. split; auto.
      intros Hst. destruct r1; auto. exfalso.
      assert (forall x, leads_to adj x t -> S1 x = true) as CL.
      { intros x Hx. induction Hx as [|u v t (w & Ha) Hx IH]; [apply T1; left; auto|].
        assert (S1 v = true) as Sv by (apply IH; auto). destruct (D1 v Sv) as [H|[H|(_ & _ & H)]]; try discriminate.
        apply (H u tt). apply inb_in. split; [|exists w; auto]. eapply leads_lt with (t := t); auto. econstructor; eauto. exists w; auto. }
      pose proof (CL s Hst) as Hs. destruct (D1 s Hs) as [H|[H|(H & _)]]; try discriminate. congruence.
  Qed.

  Lemma walk_leads (arc : nat -> nat -> N -> Prop) s t l : (forall u v w, arc u v w -> has_arc adj u v) -> walk arc s t l -> leads_to adj s t.
  Proof. intros H. induction 1; [constructor|econstructor; eauto]. Qed.

  (** any inner server with an invariant *)
  Section Wrap.
    Context {Sv Q : Type}.
    Variable inner : Sv -> Q -> option (Sv * option N).
    Variable from to : Q -> nat.
    Variable I : Sv -> Prop.
    Variable good : Q -> Prop.
    Variable ans : Q -> option N -> Prop.
    Hypothesis Hgood : forall q, good q -> to q < n.
    Hypothesis Hin : forall sv q, I sv -> good q -> exists sv' r, inner sv q = Some (sv', r) /\ I sv' /\ ans q r.
    Hypothesis Hun : forall q, good q -> ~ leads_to adj (from q) (to q) -> ans q None.

    Lemma wrap_ok c sv q : cd_ok c -> I sv -> good q ->
      exists st' r, cd_query inner from to (c, sv) q = Some (st', r) /\ cd_ok (fst st') /\ I (snd st') /\ ans q r.
    Proof using HV HF Hg Hgood Hin Hun.
      intros HC HI Hq. unfold cd_query. destruct (check_ok c (from q) (to q) HC (Hgood q Hq)) as (c' & b & E1 & C1 & B1 & _). rewrite E1. cbn [bind].
      destruct b.
      - destruct (Hin sv q HI Hq) as (sv' & r & E2 & I2 & A2). rewrite E2. cbn [bind]. exists (c', sv'), r. auto.
      - exists (c', sv), None. split; auto. split; auto. split; auto. apply Hun; auto. intros H. apply B1 in H. discriminate.
    Qed.
    Lemma wrap_history qs : forall c sv, cd_ok c -> I sv -> (forall q, In q qs -> good q) ->
      exists st', cd_history inner from to (c, sv) qs = Some st' /\ cd_ok (fst st') /\ I (snd st').
    Proof using HV HF Hg Hgood Hin Hun.
      unfold cd_history. induction qs as [|q qs IH]; intros c sv HC HI Hq; cbn [foldM]; [eauto|].
      destruct (wrap_ok c sv q HC HI (Hq q (or_introl eq_refl))) as ((c1, sv1) & r & E & C1 & I1 & _). rewrite E. cbn [bind].
      apply IH; auto. intros; apply Hq; right; auto.
    Qed.
  End Wrap.
End Check.
