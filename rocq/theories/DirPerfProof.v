(** Proofs about the perfect customization of directed CCHs. *)
From Verif Require Import Base SpecGraph BitVec GraphProof Graph CCH CCHTheory CCHContractProof CCHBuildProof CCHCustProof DirCCH DirCCHProof DirPerf.

Lemma foldM_keeps {A S} (f : S -> A -> option S) (I : S -> Prop) : forall l s, (forall s a, In a l -> I s -> exists s', f s a = Some s' /\ I s') -> I s -> exists s', foldM f l s = Some s' /\ I s'.
Proof.
  induction l as [|a l IH]; intros s H Hs; cbn [foldM]; [eauto|]. destruct (H s a (or_introl eq_refl) Hs) as (s1 & E & H1). rewrite E. cbn [bind]. apply IH; auto. intros; apply H; auto. right; auto.
Qed.
Lemma dp_ids_ok nodes fo hd x : arrays nodes fo hd -> x < length nodes -> dp_ids fo hd x = Some (ids nodes x).
Proof.
  intros HA Hx. unfold dp_ids. rewrite (arrays_range nodes fo hd x HA Hx). cbn [bind]. destruct HA as (_ & _ & ->). rewrite nbh_slice by auto. cbn [bind]. rewrite off_S by auto.
  replace (off nodes x + length (nbh nodes x) - off nodes x) with (length (nbh nodes x)) by lia. reflexivity.
Qed.
Lemma dpw_put b b' s l m : dpw b (dp_put b' s l m) = if Bool.eqb b b' then l else dpw b s.
Proof. destruct b, b'; reflexivity. Qed.
Lemma dpm_put b b' s l m : dpm b (dp_put b' s l m) = if Bool.eqb b b' then m else dpm b s.
Proof. destruct b, b'; reflexivity. Qed.

Section DP.
  Variables fn bn : list (list nat).
  Variable d : dcch.
  Hypothesis HD : dcch_ok fn bn d.
  Notation n := (length fn).
  Variables up0 dn0 : list N.
  Hypothesis Lu : length up0 = length (concat fn).
  Hypothesis Ld : length dn0 = length (concat bn).
  Hypothesis Mu : wmax up0.
  Hypothesis Md : wmax dn0.
  Definition w0 (b : bool) : list N := if b then up0 else dn0.
  Definition nds (b : bool) : list (list nat) := if b then fn else bn.
  (** the arc [e] of direction [b] goes from [x] to [y] *)
  Definition goes (b : bool) (e x y : nat) : Prop := if b then edge fn e x y else edge bn e y x.
  Definition arc0 (x y : nat) (w : N) : Prop := exists b e, goes b e x y /\ nth_error (w0 b) e = Some w.
  Lemma goes_lt b e x y : goes b e x y -> e < length (w0 b).
  Proof using Lu Ld. destruct b; cbn; intros H; apply edge_lt in H; lia. Qed.
  Lemma w0_max b e w : nth_error (w0 b) e = Some w -> (w <= INF)%N.
  Proof using Lu Ld Mu Md. intros H. apply nth_error_nth with (d := 0%N) in H. subst. destruct b; cbn; [apply Mu|apply Md]. Qed.

  Record Inv (s : dps) : Prop := {
    iv_w : forall b, length (dpw b s) = length (w0 b);
    iv_m : forall b, length (dpm b s) = length (w0 b);
    iv_c : forall b e w f v, nth_error (dpw b s) e = Some w -> nth_error (dpm b s) e = Some f -> nth_error (w0 b) e = Some v -> (w <= v)%N /\ (f = true <-> (w < v)%N);
    iv_walk : forall b e x y w, goes b e x y -> nth_error (dpw b s) e = Some w -> (w < INF)%N -> walk arc0 x y w }.
  Lemma iv_max s b e w : Inv s -> nth_error (dpw b s) e = Some w -> (w <= INF)%N.
  Proof using Lu Ld Mu Md.
    intros I H. pose proof (nth_error_Some_lt _ _ _ H) as L. rewrite (iv_w _ I) in L.
    destruct (nth_error (w0 b) e) as [v|] eqn:Ev; [|apply nth_error_None in Ev; lia]. destruct (nth_error (dpm b s) e) as [f|] eqn:Ef; [|apply nth_error_None in Ef; rewrite (iv_m _ I) in Ef; lia].
    destruct (iv_c _ I _ _ _ _ _ H Ef Ev) as [X _]. apply w0_max in Ev. lia.
  Qed.
  Lemma relax_inv b te a sd sc s x y z : Inv s -> goes b te x y -> (goes b a x z /\ goes sd sc z y) \/ (goes sd sc x z /\ goes b a z y) ->
    exists s', dp_relax b te a sd sc s = Some s' /\ Inv s'.
  Proof using Lu Ld Mu Md.
    intros I Ht Hac. assert (Ga : exists x' y', goes b a x' y') by (destruct Hac as [[]|[]]; eauto). assert (Gs : exists x' y', goes sd sc x' y') by (destruct Hac as [[]|[]]; eauto).
    destruct Ga as (xa & ya & Ga), Gs as (xs & ys & Gs). pose proof (goes_lt _ _ _ _ Ga) as La. pose proof (goes_lt _ _ _ _ Gs) as Ls. pose proof (goes_lt _ _ _ _ Ht) as Lt.
    assert (X : forall b e, e < length (w0 b) -> exists w, nth_error (dpw b s) e = Some w). { intros b0 e He. destruct (nth_error (dpw b0 s) e) eqn:E; [eauto|]. apply nth_error_None in E. rewrite (iv_w _ I) in E. lia. }
    destruct (X b a La) as (wa & Ea), (X sd sc Ls) as (wb & Eb), (X b te Lt) as (wt & Et). clear X.
    pose proof (iv_max _ _ _ _ I Ea) as Ma. pose proof (iv_max _ _ _ _ I Eb) as Mb. pose proof (iv_max _ _ _ _ I Et) as Mt.
    unfold dp_relax. rewrite Ea. cbn [bind]. rewrite Eb. cbn [bind]. rewrite cadd_ok by (unfold INF, U32 in *; lia). cbn [bind]. rewrite Et. cbn [bind].
    destruct (N.ltb_spec (wa + wb) wt) as [L|L]; [|eauto]. rewrite set_at_lt by (rewrite (iv_w _ I); auto). cbn [bind]. rewrite set_at_lt by (rewrite (iv_m _ I); auto). cbn [bind].
    eexists. split; [reflexivity|]. constructor.
    - intros b'. rewrite dpw_put. destruct (Bool.eqb_spec b' b) as [->|]; rewrite ?upd_length; apply (iv_w _ I).
    - intros b'. rewrite dpm_put. destruct (Bool.eqb_spec b' b) as [->|]; rewrite ?upd_length; apply (iv_m _ I).
    - intros b' e w f v. rewrite dpw_put, dpm_put. destruct (Bool.eqb_spec b' b) as [->|]; [|apply (iv_c _ I)]. destruct (Nat.eq_dec te e) as [<-|Ne].
      + rewrite !nth_error_upd_eq by (rewrite ?(iv_w _ I), ?(iv_m _ I); auto). intros [= <-] [= <-] Ev. destruct (nth_error (dpm b s) te) as [f|] eqn:Ef; [|apply nth_error_None in Ef; rewrite (iv_m _ I) in Ef; lia].
        destruct (iv_c _ I _ _ _ _ _ Et Ef Ev) as [Y _]. split; [lia|]. split; intros; [lia|auto].
      + rewrite !nth_error_upd_neq by auto. apply (iv_c _ I).
    - intros b' e x' y' w. rewrite dpw_put. destruct (Bool.eqb_spec b' b) as [->|]; [|apply (iv_walk _ I)]. destruct (Nat.eq_dec te e) as [<-|Ne].
      + rewrite nth_error_upd_eq by (rewrite (iv_w _ I); auto). intros G [= <-] Lw. assert (x' = x /\ y' = y) as [-> ->].
        { revert G Ht. unfold goes. destruct b; intros G Ht; destruct (edge_unique _ _ _ _ _ _ G Ht); auto. }
        destruct Hac as [[H1 H2]|[H1 H2]].
        * apply walk_app with (v := z); [eapply (iv_walk _ I); eauto; lia|eapply (iv_walk _ I); eauto; lia].
        * rewrite N.add_comm. apply walk_app with (v := z); [eapply (iv_walk _ I); eauto; lia|eapply (iv_walk _ I); eauto; lia].
      + rewrite nth_error_upd_neq by auto. apply (iv_walk _ I).
  Qed.

  Definition wsok (b : bool) (cur : nat) (ws : list (option nat)) : Prop := length ws = n /\ forall t e, nth_error ws t = Some (Some e) -> edge (nds b) e cur t.
  Lemma up_lt b x v : In v (nbh (nds b) x) -> v < n.
  Proof using HD Lu Ld. destruct b; cbn; intros H; [apply (dk_fup _ _ _ HD) in H|apply (dk_bup _ _ _ HD) in H; rewrite (dk_len _ _ _ HD) in H]; lia. Qed.
  Lemma edge_head b e x v : edge (nds b) e x v -> v < n.
  Proof using HD Lu Ld. intros H. apply edge_In in H. eapply up_lt; eauto. Qed.
  Lemma arcs_ok b x : x < n -> dp_arcs d b x = Some (ids (nds b) x).
  Proof using HD Lu Ld. intros H. destruct b; cbn [dp_arcs nds]; [apply dp_ids_ok; [apply (dk_f _ _ _ HD)|auto]|apply dp_ids_ok; [apply (dk_b _ _ _ HD)|rewrite (dk_len _ _ _ HD); auto]]. Qed.
  Lemma tri_inv b sd ws cur y e s t sc : wsok b cur ws -> edge (nds b) e cur y -> edge (nds sd) sc y t -> Inv s -> exists s', dp_tri b sd ws e s (t, sc) = Some s' /\ Inv s'.
  Proof using HD Lu Ld Mu Md.
    intros [Lw Hw] He Hs I. cbn [dp_tri]. destruct (nth_error ws t) as [o|] eqn:Eo. 2: { apply nth_error_None in Eo. apply edge_head in Hs. lia. }
    cbn [bind]. destruct o as [other|]; [|eauto]. apply Hw in Eo. destruct b, sd; cbn [nds] in *.
    - apply (relax_inv true other e true sc s cur t y); auto; cbn; auto.
    - apply (relax_inv true e other false sc s cur y t); auto; cbn; auto.
    - apply (relax_inv false e other true sc s y cur t); auto; cbn; auto.
    - apply (relax_inv false other e false sc s t cur y); auto; cbn; auto.
  Qed.
  Lemma edge_inv b ws cur y e s : wsok b cur ws -> edge (nds b) e cur y -> Inv s -> exists s', dp_edge d b ws s (y, e) = Some s' /\ Inv s'.
  Proof using HD Lu Ld Mu Md.
    intros Hw He I. cbn [dp_edge]. pose proof (edge_head _ _ _ _ He) as Ly. rewrite (arcs_ok true y Ly). cbn [bind].
    destruct (foldM_keeps (dp_tri b true ws e) Inv (ids (nds true) y) s) as (s1 & E1 & I1); auto. { intros s' [t sc] Hi I'. apply ids_In in Hi. eapply tri_inv; eauto. }
    rewrite E1. cbn [bind]. rewrite (arcs_ok false y Ly). cbn [bind]. apply foldM_keeps; auto. intros s' [t sc] Hi I'. apply ids_In in Hi. eapply tri_inv; eauto.
  Qed.
  Lemma set_ok b cur l : forall ws, (forall y e, In (y, e) l -> edge (nds b) e cur y) -> wsok b cur ws -> exists ws', dp_set l ws = Some ws' /\ wsok b cur ws' /\ forall t, (forall e, ~ In (t, e) l) -> nth_error ws' t = nth_error ws t.
  Proof using HD Lu Ld.
    unfold dp_set. induction l as [|[y e] l IH]; intros ws Hl [Lw Hw]; cbn [foldM]. { exists ws. split; [reflexivity|]. split; [split; auto|auto]. }
    pose proof (Hl y e (or_introl eq_refl)) as He. pose proof (edge_head _ _ _ _ He) as Ly. rewrite set_at_lt by lia. cbn [bind].
    destruct (IH (upd ws y (Some e))) as (ws' & E & K & O). { intros; apply Hl; right; auto. }
    { split; [rewrite upd_length; auto|]. intros t e' H. destruct (Nat.eq_dec y t) as [<-|Ne]; [rewrite nth_error_upd_eq in H by lia; injection H as <-; auto|rewrite nth_error_upd_neq in H by auto; auto]. }
    exists ws'. split; [auto|]. split; [auto|]. intros t Ht. rewrite O by (intros e' H; apply (Ht e'); right; auto). apply nth_error_upd_neq. intros ->. apply (Ht e). left; reflexivity.
  Qed.
  Lemma clr_ok b cur l : forall ws, (forall y e, In (y, e) l -> edge (nds b) e cur y) -> length ws = n ->
    exists ws', dp_clr l ws = Some ws' /\ length ws' = n /\ (forall t, (exists e, In (t, e) l) -> nth_error ws' t = Some None) /\ forall t, (forall e, ~ In (t, e) l) -> nth_error ws' t = nth_error ws t.
  Proof using HD Lu Ld.
    unfold dp_clr. induction l as [|[y e] l IH]; intros ws Hl Lw; cbn [foldM]. { exists ws. split; [reflexivity|]. split; [auto|]. split; [intros t (e & [])|auto]. }
    pose proof (Hl y e (or_introl eq_refl)) as He. pose proof (edge_head _ _ _ _ He) as Ly. rewrite set_at_lt by lia. cbn [bind].
    destruct (IH (upd ws y None)) as (ws' & E & K & C & O). { intros; apply Hl; right; auto. } { rewrite upd_length; auto. }
    exists ws'. split; [auto|]. split; [auto|]. split.
    - intros t (e' & [[= <- <-]|H]); [|apply C; eauto]. destruct (in_dec Nat.eq_dec y (map fst l)) as [Hi|Hi]. { apply in_map_iff in Hi. destruct Hi as ([y' e2] & <- & Hi). apply C. eauto. }
      rewrite O by (intros e2 H; apply Hi; apply (in_map fst) in H; auto). apply nth_error_upd_eq. lia.
    - intros t Ht. rewrite O by (intros e' H; apply (Ht e'); right; auto). apply nth_error_upd_neq. intros ->. apply (Ht e). left; reflexivity.
  Qed.
  Definition empty (ws : list (option nat)) : Prop := length ws = n /\ forall t e, nth_error ws t <> Some (Some e).
  Lemma round b cur ws : empty ws -> exists ws1, dp_set (ids (nds b) cur) ws = Some ws1 /\ wsok b cur ws1 /\ exists ws2, dp_clr (ids (nds b) cur) ws1 = Some ws2 /\ empty ws2.
  Proof using HD Lu Ld.
    intros [L E]. assert (HI : forall y e, In (y, e) (ids (nds b) cur) -> edge (nds b) e cur y) by (intros y e; apply ids_In).
    destruct (set_ok b cur (ids (nds b) cur) ws HI) as (ws1 & E1 & K1 & O1). { split; auto. intros t e H. exfalso. eapply E; eauto. }
    exists ws1. split; [auto|]. split; [auto|]. destruct (clr_ok b cur (ids (nds b) cur) ws1 HI (proj1 K1)) as (ws2 & E2 & L2 & C2 & O2). exists ws2. split; [auto|]. split; [auto|].
    intros t e H. destruct (in_dec Nat.eq_dec t (map fst (ids (nds b) cur))) as [Hi|Hi].
    - apply in_map_iff in Hi. destruct Hi as ([t' e'] & <- & Hi). cbn [fst] in H. rewrite C2 in H by eauto. discriminate.
    - assert (Hn : forall e', ~ In (t, e') (ids (nds b) cur)) by (intros e' X; apply Hi; apply (in_map fst) in X; auto). rewrite O2, O1 in H by auto. eapply E; eauto.
  Qed.
  Lemma node_inv cur wa wb s : cur < n -> empty wa -> empty wb -> Inv s -> exists wa' wb' s', dp_node d (wa, wb, s) cur = Some (wa', wb', s') /\ empty wa' /\ empty wb' /\ Inv s'.
  Proof using HD Lu Ld Mu Md.
    intros Hc Ea Eb I. cbn [dp_node]. rewrite (arcs_ok true cur Hc). cbn [bind]. rewrite (arcs_ok false cur Hc). cbn [bind].
    destruct (round true cur wa Ea) as (wa1 & -> & Ka & wa2 & Ca & Ea2). destruct (round false cur wb Eb) as (wb1 & -> & Kb & wb2 & Cb & Eb2). cbn [bind].
    destruct (foldM_keeps (dp_edge d true wa1) Inv (ids (nds true) cur) s) as (s1 & E1 & I1); auto. { intros s' [y e] Hi I'. apply ids_In in Hi. eapply edge_inv; eauto. }
    rewrite E1. cbn [bind]. destruct (foldM_keeps (dp_edge d false wb1) Inv (ids (nds false) cur) s1) as (s2 & E2 & I2); auto. { intros s' [y e] Hi I'. apply ids_In in Hi. eapply edge_inv; eauto. }
    rewrite E2. cbn [bind]. rewrite Ca. cbn [bind]. rewrite Cb. cbn [bind]. exists wa2, wb2, s2. auto.
  Qed.
  Lemma dcch_n : dcch_nodes d = n.
  Proof using HD Lu Ld. unfold dcch_nodes. rewrite (proj1 (dk_f _ _ _ HD)). lia. Qed.
  Lemma empty_new : empty (repeat None n).
  Proof using. split; [apply repeat_length|]. intros t e H. rewrite nth_error_repeat in H. destruct (t <? n); discriminate. Qed.
  Lemma directed_perfect_ok : exists s, directed_perfect d up0 dn0 = Some s /\ Inv s.
  Proof using HD Lu Ld Mu Md.
    unfold directed_perfect. rewrite dcch_n.
    destruct (foldM_keeps (dp_node d) (fun st => empty (fst (fst st)) /\ empty (snd (fst st)) /\ Inv (snd st)) (rev (seq 0 n)) (repeat None n, repeat None n, mkDps up0 dn0 (repeat false (length up0)) (repeat false (length dn0)))) as ([[wa wb] s] & E & _ & _ & I).
    - intros [[wa wb] s] cur Hc (Ea & Eb & I). cbn [fst snd] in *. rewrite <- in_rev in Hc. apply in_seq in Hc. destruct (node_inv cur wa wb s) as (wa' & wb' & s' & E & H); auto; [lia|]. exists (wa', wb', s'). auto.
    - cbn [fst snd]. split; [apply empty_new|]. split; [apply empty_new|]. constructor.
      + intros []; reflexivity.
      + intros []; apply repeat_length.
      + intros b e w f v Hw Hf Hv. replace (dpw b (mkDps up0 dn0 (repeat false (length up0)) (repeat false (length dn0)))) with (w0 b) in Hw by (destruct b; reflexivity). rewrite Hv in Hw. injection Hw as <-. split; [lia|].
        assert (f = false) as ->. { destruct b; cbn in Hf; rewrite nth_error_repeat in Hf; destruct (_ <? _); congruence. } split; [discriminate|lia].
      + intros b e x y w G Hw _. replace (dpw b _) with (w0 b) in Hw by (destruct b; reflexivity). replace w with (w + 0)%N by lia. apply walk_cons with (v := y); [exists b, e; auto|constructor].
    - rewrite E. cbn [bind]. exists s. auto.
  Qed.
End DP.
