(** A directed CCH is customized to the weights of the CCH it comes from, and serves the same queries. *)
From Coq Require Import Sorted.
From Verif Require Import Base Graph GraphProof SpecGraph SpecCCH BitVec Dijkstra LoopProof CCH CCHTheory CCHPathTheory CCHContractProof CCHBuildProof CCHCustProof CCHMetricProof
  CCHQuery CCHQueryProof CCHPathProof CCHViewProof CCHServerProof DirCCH DirCCHProof.

Lemma flat_map_flat_map {A B C} (f : B -> list C) (g : A -> list B) l : flat_map f (flat_map g l) = flat_map (fun x => flat_map f (g x)) l.
Proof. induction l as [|x l IH]; cbn; auto. rewrite flat_map_app, IH. auto. Qed.

Section Sub.
  Variable nodes : list (list nat).
  Hypothesis HA : forall x, ascending_list (nbh nodes x).
  Let ND x : NoDup (nbh nodes x) := asc_NoDup _ (HA x).
  Lemma eid_sub_some pk z x e : eid nodes z x = Some e -> pk e = true -> exists e', eid (sub nodes pk) z x = Some e' /\ nth_error (kept nodes pk) e' = Some e.
  Proof using HA.
    intros E P. apply eid_edge in E. destruct (edge_sub nodes pk e z x E P) as (e' & He & K). exists e'. split; auto. apply edge_eid; auto. apply sub_nodup; auto.
  Qed.
  Lemma eid_sub_no pk z x : (forall e, eid nodes z x = Some e -> pk e = false) -> eid (sub nodes pk) z x = None.
  Proof using HA.
    intros H. destruct (eid (sub nodes pk) z x) as [e'|] eqn:E; auto. apply eid_edge in E. apply sub_edge in E. destruct E as (e & He & P & _).
    rewrite (H e) in P; [discriminate|]. apply edge_eid; auto.
  Qed.
  Lemma kept_inj pk e1 e2 e : nth_error (kept nodes pk) e1 = Some e -> nth_error (kept nodes pk) e2 = Some e -> e1 = e2.
  Proof using.
    intros H1 H2. assert (N : NoDup (kept nodes pk)) by (apply NoDup_filter, seq_NoDup). apply (proj1 (NoDup_nth_error _) N); [eapply nth_error_Some_lt; eauto|congruence].
  Qed.
  Lemma sub_kept pk e' x y e : edge (sub nodes pk) e' x y -> nth_error (kept nodes pk) e' = Some e -> edge nodes e x y /\ pk e = true.
  Proof using. intros H K. apply sub_edge in H. destruct H as (e2 & H1 & H2 & H3). rewrite K in H3. injection H3 as <-. auto. Qed.
  Lemma kept_sub pk e' e x y : nth_error (kept nodes pk) e' = Some e -> edge nodes e x y -> edge (sub nodes pk) e' x y /\ pk e = true.
  Proof using.
    intros K H. assert (P : pk e = true) by (apply nth_error_In, filter_In in K; tauto). destruct (edge_sub nodes pk e x y H P) as (e2 & H2 & K2). rewrite (kept_inj _ _ _ _ K K2). auto.
  Qed.

  Variables pkU pkD : nat -> bool.
  Definition unp_rel (u u' : unp) : Prop := (u = no_unp /\ u' = no_unp) \/
    exists e1 e2 e1' e2', u = (Some e1, Some e2) /\ u' = (Some e1', Some e2') /\ nth_error (kept nodes pkD) e1' = Some e1 /\ nth_error (kept nodes pkU) e2' = Some e2.
  Definition val_rel (r r' : N * unp) : Prop := fst r = fst r' /\ unp_rel (snd r) (snd r').
  Lemma fold_rel (f f' : nat -> list (N * unp)) : forall zs r r', val_rel r r' -> (fst r <= INF)%N ->
    (forall z, In z zs -> (f z = [] /\ f' z = []) \/ (exists c c', f z = [c] /\ f' z = [c'] /\ val_rel c c') \/ (exists c, f z = [c] /\ f' z = [] /\ (INF <= fst c)%N)) ->
    val_rel (fold_left relax1 (flat_map f zs) r) (fold_left relax1 (flat_map f' zs) r').
  Proof using HA.
    induction zs as [|z zs IH]; intros r r' HR HI Hz; cbn; auto. rewrite !fold_left_app.
    assert (Hz' : forall z', In z' zs -> (f z' = [] /\ f' z' = []) \/ (exists c c', f z' = [c] /\ f' z' = [c'] /\ val_rel c c') \/ (exists c, f z' = [c] /\ f' z' = [] /\ (INF <= fst c)%N)) by (intros; apply Hz; right; auto).
    destruct (Hz z (or_introl eq_refl)) as [[-> ->]|[(c & c' & -> & -> & HC)|(c & -> & -> & L)]]; cbn.
    - apply IH; auto.
    - unfold relax1 at 2 4. destruct HR as [R1 R2], HC as [C1 C2]. rewrite <- R1, <- C1. destruct (N.ltb_spec (fst c) (fst r)); apply IH; auto; try (split; auto); lia.
    - unfold relax1 at 2. rewrite (proj2 (N.ltb_ge _ _)) by lia. apply IH; auto.
  Qed.
  Lemma cand_rel pk1 pk2 ws1 ws2 ws1' ws2' mk x y r r' :
    (forall e1 e2 e1' e2', nth_error (kept nodes pk1) e1' = Some e1 -> nth_error (kept nodes pk2) e2' = Some e2 -> unp_rel (mk e1 e2) (mk e1' e2')) ->
    (forall z e1 e1', edge nodes e1 z x -> nth_error (kept nodes pk1) e1' = Some e1 -> nth e1' ws1' 0%N = nth e1 ws1 0%N) ->
    (forall z e2 e2', In x (nbh nodes z) -> edge nodes e2 z y -> nth_error (kept nodes pk2) e2' = Some e2 -> nth e2' ws2' 0%N = nth e2 ws2 0%N) ->
    (forall z e, edge nodes e z x -> pk1 e = false -> (INF <= nth e ws1 0)%N) -> (forall z e, edge nodes e z y -> pk2 e = false -> (INF <= nth e ws2 0)%N) ->
    val_rel r r' -> (fst r <= INF)%N ->
    val_rel (fold_left relax1 (dcand nodes nodes ws1 ws2 mk x y) r) (fold_left relax1 (dcand (sub nodes pk1) (sub nodes pk2) ws1' ws2' mk x y) r').
  Proof using HA.
    intros HM H1 H2 D1 D2 HR HI. unfold dcand, lows. rewrite !flat_map_flat_map, sub_len. apply fold_rel; auto. intros z Hz.
    destruct (eid nodes z x) as [e1|] eqn:E1.
    2: { rewrite (eid_sub_no pk1 z x) by congruence. left. auto. }
    pose proof (eid_edge _ _ _ _ E1) as I1. destruct (eid nodes z y) as [e2|] eqn:E2.
    2: { left. unfold dtri. cbn [fst snd flat_map]. rewrite E2. split; auto. destruct (eid (sub nodes pk1) z x); cbn; auto. rewrite (eid_sub_no pk2 z y) by congruence. auto. }
    pose proof (eid_edge _ _ _ _ E2) as I2. cbn [flat_map]. rewrite app_nil_r.
    assert (Ed : dtri nodes ws1 ws2 mk y (z, e1) = [((nth e2 ws2 0 + nth e1 ws1 0)%N, mk e1 e2)]) by (unfold dtri; cbn [fst snd]; rewrite E2; auto). rewrite Ed.
    destruct (pk1 e1) eqn:P1.
    2: { right; right. rewrite (eid_sub_no pk1 z x) by congruence. eexists. split; [reflexivity|]. split; [reflexivity|]. cbn. specialize (D1 z e1 I1 P1). lia. }
    destruct (eid_sub_some pk1 z x e1 E1 P1) as (e1' & -> & K1). cbn [flat_map]. rewrite app_nil_r. unfold dtri. cbn [fst snd].
    destruct (pk2 e2) eqn:P2.
    2: { right; right. rewrite (eid_sub_no pk2 z y) by congruence. eexists. split; [reflexivity|]. split; [reflexivity|]. cbn. specialize (D2 z e2 I2 P2). lia. }
    destruct (eid_sub_some pk2 z y e2 E2 P2) as (e2' & -> & K2). right; left. do 2 eexists. split; [reflexivity|]. split; [reflexivity|].
    split; cbn [fst snd]; [|auto]. rewrite (H1 z e1 e1' I1 K1), (H2 z e2 e2' (edge_In _ _ _ _ I1) I2 K2). auto.
  Qed.
End Sub.

(** ** Links of one direction *)
Section Links.
  Variable nodes : list (list nat).
  Variables fo hd : list nat.
  Hypothesis HA : arrays nodes fo hd.
  Lemma arrays_ids (ws : list N) x : length ws = length (concat nodes) -> x < length nodes -> exists ls, link_iter_ids (mkFo fo hd ws) x = Some ls /\
    forall y w e, In (y, w, e) ls <-> edge nodes e x y /\ w = nth e ws 0%N.
  Proof using HA.
    intros L Hx. destruct HA as (_ & F & EH).
    exists (map (fun p => (fst p, nth (snd p) ws 0%N, snd p)) (ids nodes x)). split.
    - unfold link_iter_ids, range. cbn [first_out head weight]. rewrite !F by lia. cbn [bind].
      rewrite EH, nbh_slice by lia. cbn [bind]. pose proof (off_le nodes (x + 1) ltac:(lia)). pose proof (off_mono nodes x (x + 1) ltac:(lia) ltac:(lia)).
      rewrite (slice_map _ _ _ 0%N) by lia. rewrite (proj2 (Nat.leb_le _ _)) by lia. cbn [bind]. rewrite off_next by auto. rewrite (combine_vals2 (fun e => nth e ws 0%N)). reflexivity.
    - intros y w e. rewrite in_map_iff. split.
      + intros ([y' e'] & Ep & Hin). cbn in Ep. injection Ep as -> <- ->. apply ids_In in Hin. auto.
      + intros [He ->]. exists (y, e). split; auto. apply ids_In; auto.
  Qed.
  Lemma arrays_larc (ws : list N) x e y w : length ws = length (concat nodes) -> larc (k_links (mkFo fo hd ws)) x e y w <-> edge nodes e x y /\ w = nth e ws 0%N.
  Proof using HA.
    intros L. unfold larc, garc_ids, k_links. split.
    - intros (ls & E & Hin). assert (Hx : x < length nodes).
      { unfold link_iter_ids, range in E. cbn [first_out] in E. destruct (nth_error fo (x + 1)) eqn:K.
        - apply nth_error_Some_lt in K. rewrite (proj1 HA) in K. lia.
        - destruct (nth_error fo x); discriminate. }
      destruct (arrays_ids ws x L Hx) as (ls' & E' & H'). rewrite E in E'. injection E' as <-. apply H'; auto.
    - intros H. pose proof (edge_tail_lt _ _ _ _ (proj1 H)) as Hx. destruct (arrays_ids ws x L Hx) as (ls' & E' & H'). exists ls'. split; auto. apply H'; auto.
  Qed.
  Lemma arrays_built {W} (ws : list W) : length ws = length (concat nodes) -> (N.of_nat (length nodes) + 1 < U32MAX)%N -> (N.of_nat (length (concat nodes)) < U32MAX)%N -> fo_new fo hd ws = Some (mkFo fo hd ws).
  Proof using HA.
    intros L F1 F2. destruct HA as (Lf & F & EH). apply fo_new_ok.
    - rewrite Lf. lia.
    - rewrite EH. auto.
    - apply F. lia.
    - rewrite Lf, Nat.add_sub, F by auto. rewrite EH. f_equal. apply off_n.
    - rewrite L, EH. auto.
  Qed.
  Lemma arrays_inverted : (forall x, NoDup (nbh nodes x)) -> (forall x v, In v (nbh nodes x) -> v < length nodes) -> (N.of_nat (length nodes) + 1 < U32MAX)%N -> (N.of_nat (length (concat nodes)) < U32MAX)%N ->
    exists inv, inverted fo hd = Some inv /\ forall v, v < length nodes -> link_iter inv v = Some (lows nodes v).
  Proof using HA.
    intros ND UP F1 F2. unfold inverted. rewrite (arrays_built (map (fun _ => tt) hd)); auto. 2: { rewrite map_length, (proj2 (proj2 HA)). auto. }
    cbn [bind]. destruct HA as (Lf & F & EH). destruct (cg_inv nodes ND UP F1 F2) as (inv & E & H). exists inv. split; auto. rewrite <- E.
    unfold num_nodes, num_arcs. cbn [first_out head]. rewrite Lf, Nat.add_sub, EH. do 3 f_equal.
    apply list_ext. intros i. destruct (Nat.le_gt_cases i (length nodes)) as [Hi|Hi].
    - rewrite F by auto. symmetry. apply (cg_fo nodes). auto.
    - rewrite !(proj2 (nth_error_None _ _)); auto; try lia. pose proof (cg_fol nodes) as K. cbn [first_out] in K. lia.
  Qed.
End Links.

(** ** Building the directed CCH *)
Section Build.
  Variable adj : list (list (nat * N)).
  Variables order ranks : list nat.
  Variable nodes : list (list nat).
  Variable c : cch.
  Hypothesis HK : cch_ok adj order ranks nodes c.
  Let n := length adj.
  Let m := length (concat nodes).
  Let HC := co_chordal _ _ _ _ _ HK.
  Let zu := prepare_zero_weights (c_fw_orig c) (repeat INF m).
  Let zd := prepare_zero_weights (c_bw_orig c) (repeat INF m).

  Lemma zero_exists : exists s0, cust_ok adj nodes zu zd s0 /\
    always_infinity c = Some (mkCust (mkFo (c_fo c) (c_head c) (s_up s0)) (mkFo (c_fo c) (c_head c) (s_dn s0)) (s_upu s0) (s_dnu s0) (c_tail c) (c_elim c) order ranks).
  Proof using HK.
    destruct (zero_small adj order ranks nodes c HK) as [S1 S2]. destruct (customize_basic_ok adj order ranks nodes c HK zu zd S1 S2) as (s0 & E & H). exists s0. split; auto.
    unfold always_infinity. assert (Em : cch_arcs c = m) by (unfold cch_arcs; rewrite (co_head _ _ _ _ _ HK); reflexivity). rewrite Em. fold zu zd. rewrite E. cbn [bind].
    unfold customized_of. pose proof H as [((U & _) & (D & _) & _) _]. rewrite !(fo_built adj order ranks nodes c HK) by auto. cbn [bind]. rewrite (co_ord _ _ _ _ _ HK), (co_rks _ _ _ _ _ HK). reflexivity.
  Qed.

  Variable s0 : cst.
  Hypothesis H0 : cust_ok adj nodes zu zd s0.
  Definition pkU (e : nat) : bool := (nth e (s_up s0) 0 <? INF)%N.
  Definition pkD (e : nat) : bool := (nth e (s_dn s0) 0 <? INF)%N.
  Let fn := sub nodes pkU.
  Let bn := sub nodes pkD.

  Lemma keep_kept {A} (l : list A) (ws : list N) dflt : length l = m -> length ws = m ->
    keep_finite l ws = map (fun e => nth e l dflt) (kept nodes (fun e => nth e ws 0 <? INF)%N).
  Proof using.
    intros L1 L2. unfold keep_finite, kept. rewrite (combine_seq_nth l ws dflt 0%N) by congruence. rewrite filter_map, map_map. cbn. rewrite L1. reflexivity.
  Qed.
  Lemma c_arrays : arrays nodes (c_fo c) (c_head c).
  Proof using HK. split; [rewrite (co_fol _ _ _ _ _ HK), (ch_len _ _ HC); auto|]. split; [|apply (co_head _ _ _ _ _ HK)]. intros x Hx. apply (co_fo _ _ _ _ _ HK). rewrite (ch_len _ _ HC) in Hx. auto. Qed.

  Record directed_of (d : dcch) : Prop := {
    do_ok : dcch_ok fn bn d;
    do_tail : tails bn (d_btail d);
    do_ord : d_order d = order;
    do_rks : d_ranks d = ranks;
    do_elim : d_elim d = c_elim c;
    do_fw : d_fw_orig d = map (fun e => nth e (c_fw_orig c) []) (kept nodes pkU);
    do_bw : d_bw_orig d = map (fun e => nth e (c_bw_orig c) []) (kept nodes pkD) }.

  Lemma to_directed_ok : always_infinity c = Some (mkCust (mkFo (c_fo c) (c_head c) (s_up s0)) (mkFo (c_fo c) (c_head c) (s_dn s0)) (s_upu s0) (s_dnu s0) (c_tail c) (c_elim c) order ranks) ->
    exists d, to_directed c = Some d /\ directed_of d.
  Proof using HK H0.
    intros E0. destruct H0 as [((U & _) & (D & _) & _) _]. pose proof (ch_len _ _ HC) as LN. destruct (co_fit _ _ _ _ _ HK) as [F1 F2].
    assert (AS : forall x, ascending_list (nbh nodes x)) by apply (ch_asc _ _ HC).
    assert (UPs : forall pk x v, In v (nbh (sub nodes pk) x) -> x < v < length (sub nodes pk)). { intros pk x v Hv. apply sub_In in Hv; auto. apply (ch_up _ _ HC) in Hv. rewrite sub_len, LN. auto. }
    destruct (finite_side_ok nodes _ _ (s_up s0) c_arrays U) as (ffo & ftl & Ef & Af & _). destruct (finite_side_ok nodes _ _ (s_dn s0) c_arrays D) as (bfo & btl & Eb & Ab & Tb).
    change (sub nodes (fun e => nth e (s_up s0) 0 <? INF)%N) with fn in *. change (sub nodes (fun e => nth e (s_dn s0) 0 <? INF)%N) with bn in *.
    assert (Gi : forall pk fo, arrays (sub nodes pk) fo (concat (sub nodes pk)) -> exists inv, inverted fo (concat (sub nodes pk)) = Some inv /\ forall v, v < length (sub nodes pk) -> link_iter inv v = Some (lows (sub nodes pk) v)).
    { intros pk fo HA. apply arrays_inverted; auto.
      - intros x. apply sub_nodup; auto. - intros x v Hv. apply UPs in Hv. lia. - rewrite sub_len, LN. auto. - pose proof (sub_le nodes pk). lia. }
    destruct (Gi pkU ffo Af) as (finv & Ei & Hi). destruct (Gi pkD bfo Ab) as (binv & Ei' & Hi'). fold fn in Ei, Hi. fold bn in Ei', Hi'.
    unfold to_directed. rewrite E0. cbn [bind k_fw k_bw]. assert (En : cch_nodes c = length nodes) by (unfold cch_nodes; rewrite (co_fol _ _ _ _ _ HK), LN; lia). rewrite En, Ef. cbn [bind]. rewrite Eb. cbn [bind].
    rewrite Ei. cbn [bind]. rewrite Ei'. cbn [bind]. eexists. split; [reflexivity|]. constructor; cbn; auto.
    - constructor; cbn; auto.
      + unfold fn, bn. rewrite !sub_len. auto.
      + intros x. apply sub_ascending; auto.
      + intros x. apply sub_ascending; auto.
      + apply UPs.
      + apply UPs.
    - apply (co_ord _ _ _ _ _ HK).
    - apply (co_rks _ _ _ _ _ HK).
    - apply keep_kept; [apply (co_fwl _ _ _ _ _ HK)|auto].
    - apply keep_kept; [apply (co_bwl _ _ _ _ _ HK)|auto].
  Qed.
End Build.

(** ** Customization *)
Lemma prep_kept orig metric m ws ks : prepare_weights orig metric (repeat INF m) = Some ws -> length orig = m -> (forall e, In e ks -> e < m) ->
  prepare_weights (map (fun e => nth e orig []) ks) metric (repeat INF (length ks)) = Some (map (fun e => nth e ws 0%N) ks).
Proof.
  intros E L Hk. unfold prepare_weights in *. apply mapM_inv in E.
  assert (Cn : forall e, nth_error (combine (repeat INF m) orig) e = option_map (fun ids => (INF, ids)) (nth_error orig e)). { rewrite <- L. clear. induction orig as [|a l IH]; intros [|e]; cbn; auto. }
  induction ks as [|e ks IH]; [reflexivity|]. cbn [map length repeat combine mapM].
  destruct (nth_error_lt orig e) as (ids & Ei). { rewrite L. apply Hk. left; auto. }
  destruct (Forall2_nth _ _ _ e (INF, ids) E) as (b & Eb & Hb). { rewrite Cn, Ei. auto. }
  rewrite (nth_error_nth _ _ _ Ei), (nth_error_nth _ _ _ Eb). rewrite Hb. cbn [bind]. rewrite IH by (intros; apply Hk; right; auto). reflexivity.
Qed.
Lemma kept_nth nodes pk (ws : list N) e' e : nth_error (kept nodes pk) e' = Some e -> nth e' (map (fun e => nth e ws 0%N) (kept nodes pk)) 0%N = nth e ws 0%N.
Proof. intros H. apply nth_error_nth. rewrite nth_error_map, H. reflexivity. Qed.
Lemma kept_max nodes pk ws : wmax ws -> wmax (map (fun e => nth e ws 0%N) (kept nodes pk)).
Proof.
  intros H e'. destruct (nth_error (kept nodes pk) e') as [e|] eqn:E. { rewrite (kept_nth _ _ _ _ _ E). apply H. }
  apply nth_error_None in E. rewrite nth_overflow by (rewrite map_length; auto). unfold INF. lia.
Qed.

Section Serve.
  Variable adj : list (list (nat * N)).
  Variables order ranks : list nat.
  Variable nodes : list (list nat).
  Variable c : cch.
  Hypothesis HK : cch_ok adj order ranks nodes c.
  Let n := length adj.
  Let m := length (concat nodes).
  Let HC := co_chordal _ _ _ _ _ HK.
  Let zu := prepare_zero_weights (c_fw_orig c) (repeat INF m).
  Let zd := prepare_zero_weights (c_bw_orig c) (repeat INF m).
  Variable s0 : cst.
  Hypothesis H0 : cust_ok adj nodes zu zd s0.
  Let pU := pkU s0.
  Let pD := pkD s0.
  Let fn := sub nodes pU.
  Let bn := sub nodes pD.
  Let lv := live nodes s0.
  Variable d : dcch.
  Hypothesis HD : directed_of order ranks nodes c s0 d.
  Let DO := do_ok _ _ _ _ _ _ HD.
  Let AS : forall x, ascending_list (nbh nodes x) := ch_asc _ _ HC.
  Let ND x : NoDup (nbh nodes x) := asc_NoDup _ (AS x).

  Lemma liveU e x y : edge nodes e x y -> pU e = true <-> lv x y.
  Proof using HK.
    intros He. pose proof (ch_up _ _ HC _ _ (edge_In _ _ _ _ He)) as L. assert (Ha : carc nodes s0 x y (nth e (s_up s0) 0%N)) by (left; split; [lia|eauto]).
    unfold pU, pkU. rewrite N.ltb_lt. split.
    - intros H. exists (nth e (s_up s0) 0%N). auto.
    - intros (w & Hw & Lw). rewrite (carc_fun _ _ _ _ _ HK _ _ _ _ _ Hw Ha) in Lw. auto.
  Qed.
  Lemma liveD e x y : edge nodes e x y -> pD e = true <-> lv y x.
  Proof using HK.
    intros He. pose proof (ch_up _ _ HC _ _ (edge_In _ _ _ _ He)) as L. assert (Ha : carc nodes s0 y x (nth e (s_dn s0) 0%N)) by (right; split; [lia|eauto]).
    unfold pD, pkD. rewrite N.ltb_lt. split.
    - intros H. exists (nth e (s_dn s0) 0%N). auto.
    - intros (w & Hw & Lw). rewrite (carc_fun _ _ _ _ _ HK _ _ _ _ _ Hw Ha) in Lw. auto.
  Qed.

  Section Metric.
    Variable madj : list (list (nat * N)).
    Hypothesis HT : same_topology adj madj.
    Hypothesis HV : valid_adj madj.
    Variables up0 dn0 : list N.
    Variable s : cst.
    Variable k : customized.
    Hypothesis HR : cust_result adj order ranks nodes c madj up0 dn0 s k.
    Let HS := cr_ok _ _ _ _ _ _ _ _ _ _ HR.
    Let up1 := map (fun e => nth e up0 0%N) (kept nodes pU).
    Let dn1 := map (fun e => nth e dn0 0%N) (kept nodes pD).
    Variable s1 : cst.
    Hypothesis H1 : ddone fn bn up1 dn1 (fun x => x < length fn) s1.
    Hypothesis M0 : wmax up0 /\ wmax dn0.

    Lemma dead_up e x y : edge nodes e x y -> pU e = false -> (INF <= nth e (s_up s) 0)%N.
    Proof using HK H0 HT HR.
      intros He P. assert (Ha : carc nodes s x y (nth e (s_up s) 0%N)). { left. split; [apply (ch_up _ _ HC _ _ (edge_In _ _ _ _ He))|eauto]. }
      rewrite (dead_infinite adj order ranks nodes c HK s0 H0 madj HT up0 dn0 s HS (cr_real _ _ _ _ _ _ _ _ _ _ HR) _ x y _ (Nat.lt_succ_diag_r _) Ha); [lia|].
      intros K. apply (liveU _ _ _ He) in K. congruence.
    Qed.
    Lemma dead_dn e x y : edge nodes e x y -> pD e = false -> (INF <= nth e (s_dn s) 0)%N.
    Proof using HK H0 HT HR.
      intros He P. assert (Ha : carc nodes s y x (nth e (s_dn s) 0%N)). { right. split; [apply (ch_up _ _ HC _ _ (edge_In _ _ _ _ He))|eauto]. }
      rewrite (dead_infinite adj order ranks nodes c HK s0 H0 madj HT up0 dn0 s HS (cr_real _ _ _ _ _ _ _ _ _ _ HR) _ y x _ (Nat.lt_succ_diag_r _) Ha); [lia|].
      intros K. apply (liveD _ _ _ He) in K. congruence.
    Qed.
    Let R := unp_rel nodes pU pD.
    Lemma dir_rel : forall b e x y, x < b -> edge nodes e x y ->
      (forall e', nth_error (kept nodes pU) e' = Some e -> nth e' (s_up s1) 0%N = nth e (s_up s) 0%N /\ R (nth e (s_upu s) no_unp) (nth e' (s_upu s1) no_unp)) /\
      (forall e', nth_error (kept nodes pD) e' = Some e -> nth e' (s_dn s1) 0%N = nth e (s_dn s) 0%N /\ R (nth e (s_dnu s) no_unp) (nth e' (s_dnu s1) no_unp)).
    Proof using HK H0 HT HR H1 HD M0.
      induction b as [|b IH]; intros e x y Hx He; [lia|]. destruct HS as [_ EQ]. destruct (EQ e x y He) as [Eu Ed].
      assert (Lz : forall z v, In v (nbh nodes z) -> z < v) by (intros z v Hv; apply (ch_up _ _ HC) in Hv; lia).
      assert (Lx : x < length fn). { unfold fn. rewrite sub_len. apply (edge_tail_lt _ _ _ _ He). }
      assert (R0 : forall w w', w = w' -> val_rel nodes pU pD (w, no_unp) (w', no_unp)) by (intros w w' ->; split; [auto|left; auto]).
      split; intros e' K.
      - destruct (kept_sub _ _ _ _ _ _ K He) as [He' _].
        pose proof (dd_f _ _ _ _ _ _ H1 e' x y Lx He') as E1.
        destruct (cand_rel nodes AS pU pD pD pU (s_dn s) (s_up s) (s_dn s1) (s_up s1) mkU x y (nth e up0 0%N, no_unp) (nth e' up1 0%N, no_unp)) as [V1 V2].
        + intros e1 e2 e1' e2' K1 K2. right. exists e1, e2, e1', e2'. auto.
        + intros z e1 e1' He1 K1. apply (proj2 (IH e1 z x ltac:(apply edge_In, Lz in He1; lia) He1)); auto.
        + intros z e2 e2' Hz He2 K2. apply (proj1 (IH e2 z y ltac:(apply Lz in Hz; lia) He2)); auto.
        + intros z e1. apply dead_dn. + intros z e1. apply dead_up.
        + apply R0. unfold up1. rewrite (kept_nth _ _ _ _ _ K). auto.
        + apply M0.
        + change (dcand nodes nodes (s_dn s) (s_up s) mkU x y) with (cand_up nodes (s_up s) (s_dn s) x y) in V1, V2. rewrite <- Eu in V1, V2.
          unfold fn, bn, pU, pD in E1. unfold pU, pD in V1, V2. rewrite <- E1 in V1, V2. cbn in V1, V2. split; auto.
      - destruct (kept_sub _ _ _ _ _ _ K He) as [He' _].
        pose proof (dd_b _ _ _ _ _ _ H1 e' x y Lx He') as E1.
        destruct (cand_rel nodes AS pU pD pU pD (s_up s) (s_dn s) (s_up s1) (s_dn s1) mkD x y (nth e dn0 0%N, no_unp) (nth e' dn1 0%N, no_unp)) as [V1 V2].
        + intros e1 e2 e1' e2' K1 K2. right. exists e2, e1, e2', e1'. auto.
        + intros z e1 e1' He1 K1. apply (proj1 (IH e1 z x ltac:(apply edge_In, Lz in He1; lia) He1)); auto.
        + intros z e2 e2' Hz He2 K2. apply (proj2 (IH e2 z y ltac:(apply Lz in Hz; lia) He2)); auto.
        + intros z e1. apply dead_up. + intros z e1. apply dead_dn.
        + apply R0. unfold dn1. rewrite (kept_nth _ _ _ _ _ K). auto.
        + apply M0.
        + change (dcand nodes nodes (s_up s) (s_dn s) mkD x y) with (cand_dn nodes (s_up s) (s_dn s) x y) in V1, V2. rewrite <- Ed in V1, V2.
          unfold fn, bn, pU, pD in E1. unfold pU, pD in V1, V2. rewrite <- E1 in V1, V2. cbn in V1, V2. split; auto.
    Qed.

    Definition kdir : customized := mkCust (mkFo (d_ffo d) (d_fhead d) (s_up s1)) (mkFo (d_bfo d) (d_bhead d) (s_dn s1)) (s_upu s1) (s_dnu s1) (d_btail d) (d_elim d) order ranks.
    Let A := carc nodes s.
    Definition larcs (x y : nat) (w : N) : Prop := carc nodes s x y w /\ live nodes s0 x y.
    Let A' := larcs.
    Let un := un_of nodes s.
    Definition dhop (x y e : nat) : Prop := (x < y /\ edge fn e x y) \/ (y < x /\ edge bn e y x).

    Lemma st1 : dst_ok fn bn s1.
    Proof using H1. apply (dd_st _ _ _ _ _ _ H1). Qed.
    Lemma dfw_larc x e' y w : larc (k_links (k_fw kdir)) x e' y w <-> x < y /\ A' x y w /\ edge fn e' x y.
    Proof using HK H0 HT HR H1 HD M0.
      destruct st1 as (L1 & L2 & W1 & _). cbn [kdir k_fw]. rewrite (arrays_larc fn _ _ (dk_f _ _ _ DO)) by auto. split.
      - intros [He ->]. pose proof He as He'. apply sub_edge in He. destruct He as (e & He & P & K). pose proof (ch_up _ _ HC _ _ (edge_In _ _ _ _ He)) as L.
        destruct (proj1 (dir_rel (S x) e x y (Nat.lt_succ_diag_r _) He) e' K) as [-> _]. split; [lia|]. split; [|auto]. split; [left; split; [lia|eauto]|]. apply (liveU e x y He). auto.
      - intros (L & [Ha Hl] & He). split; auto. destruct Ha as [(_ & e & He2 & ->)|(L' & _)]; [|lia]. apply sub_edge in He. destruct He as (e2 & He3 & P & K).
        rewrite (edge_inj _ _ _ _ _ (ND x) He2 He3). symmetry. apply (proj1 (dir_rel (S x) e2 x y (Nat.lt_succ_diag_r _) He3) e' K).
    Qed.
    Lemma dbw_larc x e' y w : larc (k_links (k_bw kdir)) x e' y w <-> x < y /\ A' y x w /\ edge bn e' x y.
    Proof using HK H0 HT HR H1 HD M0.
      destruct st1 as (_ & _ & _ & L1 & L2 & W1 & _). cbn [kdir k_bw]. rewrite (arrays_larc bn _ _ (dk_b _ _ _ DO)) by auto. split.
      - intros [He ->]. pose proof He as He'. apply sub_edge in He. destruct He as (e & He & P & K). pose proof (ch_up _ _ HC _ _ (edge_In _ _ _ _ He)) as L.
        destruct (proj2 (dir_rel (S x) e x y (Nat.lt_succ_diag_r _) He) e' K) as [-> _]. split; [lia|]. split; [|auto]. split; [right; split; [lia|eauto]|]. apply (liveD e x y He). auto.
      - intros (L & [Ha Hl] & He). split; auto. destruct Ha as [(L' & _)|(_ & e & He2 & ->)]; [lia|]. apply sub_edge in He. destruct He as (e2 & He3 & P & K).
        rewrite (edge_inj _ _ _ _ _ (ND x) He2 He3). symmetry. apply (proj2 (dir_rel (S x) e2 x y (Nat.lt_succ_diag_r _) He3) e' K).
    Qed.
    Lemma live_edge x y w : A' x y w -> exists e, dhop x y e.
    Proof using HK.
      intros [[(L & e & He & _)|(L & e & He & _)] Hl].
      - apply (liveU _ _ _ He) in Hl. destruct (edge_sub _ _ _ _ _ He Hl) as (e' & He' & _). exists e'. left. auto.
      - apply (liveD _ _ _ He) in Hl. destruct (edge_sub _ _ _ _ _ He Hl) as (e' & He' & _). exists e'. right. auto.
    Qed.
    Lemma dup_graph (fw : bool) : up_graph n (k_elim kdir) (k_links (if fw then k_fw kdir else k_bw kdir)).
    Proof using HK HR H1 HD.
      destruct st1 as (L1 & L2 & W1 & L3 & L4 & W2 & _). intros x Hx.
      assert (Hn : forall pk, length (sub nodes pk) = n) by (intros pk; rewrite sub_len; apply (ch_len _ _ HC)).
      assert (G : forall pk fo hd ws, arrays (sub nodes pk) fo hd -> length ws = length (concat (sub nodes pk)) -> wmax ws -> exists ls, k_links (mkFo fo hd ws) x = Some ls /\
        forall y w e, In (y, w, e) ls -> x < y /\ (w <= INF)%N /\ forall l, rpath (k_elim kdir) x l -> In y l).
      { intros pk fo hd ws HAr L W. destruct (arrays_ids (sub nodes pk) fo hd HAr ws x L) as (ls & E & H). { rewrite Hn. auto. } exists ls. split; [exact E|].
        intros y w e Hin. apply H in Hin. destruct Hin as [He ->]. apply edge_In, sub_In in He; auto. split; [apply (ch_up _ _ HC) in He; lia|]. split; [apply W|].
        intros l Hl. cbn [kdir k_elim] in Hl. rewrite (do_elim _ _ _ _ _ _ HD) in Hl. eapply elim_anc; eauto. }
      destruct fw; [apply (G pU _ _ _ (dk_f _ _ _ DO)); auto|apply (G pD _ _ _ (dk_b _ _ _ DO)); auto].
    Qed.
    Lemma dunp_ok : unpacking A' un.
    Proof using HK H0 HT HR M0.
      destruct (un_ok adj order ranks nodes c HK madj up0 dn0 s k HR) as [T F MI]. constructor.
      - destruct T as [T1 T2]. split. { intros x w [H _]. eapply T1; eauto. }
        intros x z y w1 w2 Lx Ly Ne [A1 V1] [A2 V2]. destruct (T2 x z y w1 w2 Lx Ly Ne A1 A2) as (w & Hw & L). exists w. split; auto. split; auto.
        apply (live_tri adj order ranks nodes c HK s0 H0 x z y); auto.
      - intros x y w w' [Ha _] [Ha' _]. eapply F; eauto.
      - intros x y w z [Ha Hl] Hu. destruct (MI x y w z Ha Hu) as (L1 & L2 & (w1 & w2 & A1 & A2 & E) & Hm). split; auto. split; auto. split.
        + assert (Lw : (w < INF)%N).
          { destruct Hu as (e1 & e2 & Hi & _). destruct (carc_case _ _ _ _ _ HK _ _ _ HS x y w _ Ha Hi) as [[E0 _]|(z' & e1' & e2' & _ & _ & _ & _ & Hlt & _)]; [discriminate|].
            destruct (init_ex nodes up0 dn0 x y w s Ha) as (wi & Hwi). specialize (Hlt wi Hwi). pose proof HS as [((_ & _) & _) _].
            assert (Bi : (wi <= INF)%N) by (destruct Hwi as [(_ & e & _ & ->)|(_ & e & _ & ->)]; apply M0). lia. }
          pose proof (finite_live adj order ranks nodes c HK s0 H0 madj HT up0 dn0 s HS (cr_real _ _ _ _ _ _ _ _ _ _ HR)) as FL.
          exists w1, w2. split; [split; [auto|apply (FL x z w1); [auto|lia]]|]. split; [split; [auto|apply (FL z y w2); [auto|lia]]|auto].
        + intros z' w1' w2' Lz [B1 _] [B2 _]. eapply Hm; eauto.
    Qed.
    Lemma dunpack_spec x v e w : A' x v w -> dhop x v e ->
      exists r, (if x <? v then unpack_edge (k_upu kdir) (k_btail kdir) e else unpack_edge (k_dnu kdir) (k_btail kdir) e) = Some r /\
      match r with None => un x v None | Some (dd, u, z) => un x v (Some z) /\ dhop x z dd /\ dhop z v u end.
    Proof using HK H0 HT HR H1 HD M0.
      intros [Ha Hl] Hh. cbn [kdir k_upu k_dnu k_btail]. destruct st1 as (_ & L2 & _ & _ & L4 & _).
      assert (G : forall us i, e < length us -> unp_of nodes s x v i -> R i (nth e us no_unp) -> exists r, unpack_edge us (d_btail d) e = Some r /\
        match r with None => un x v None | Some (dd, u, z) => un x v (Some z) /\ dhop x z dd /\ dhop z v u end).
      { intros us i Lu Hi HRu. unfold unpack_edge. rewrite (nth_error_nth' us no_unp) by lia. cbn [bind].
        destruct (carc_case _ _ _ _ _ HK _ _ _ HS x v w _ Ha Hi) as [[E _]|(z & e1 & e2 & E & B1 & B2 & _)]; subst i.
        - destruct HRu as [[_ ->]|(e1 & e2 & e1' & e2' & E & _)]; [|discriminate]. exists None. split; [reflexivity|exact Hi].
        - destruct HRu as [[E _]|(f1 & f2 & e1' & e2' & E & -> & K1 & K2)]; [discriminate|]. injection E as <- <-. cbn [bind].
          destruct (kept_sub _ _ _ _ _ _ K1 B1) as [C1 _]. destruct (kept_sub _ _ _ _ _ _ K2 B2) as [C2 _].
          rewrite (proj2 (do_tail _ _ _ _ _ _ HD) e1' z x C1). cbn [bind]. eexists. split; [reflexivity|]. split; [exists e1, e2; auto|].
          pose proof (ch_up _ _ HC _ _ (edge_In _ _ _ _ B1)). pose proof (ch_up _ _ HC _ _ (edge_In _ _ _ _ B2)). split; [right|left]; split; auto; lia. }
      destruct Hh as [[L He]|[L He]].
      - rewrite (proj2 (Nat.ltb_lt x v) L). pose proof (edge_lt _ _ _ _ He) as Le. apply sub_edge in He. destruct He as (e0 & He & P & K).
        destruct (proj1 (dir_rel (S x) e0 x v (Nat.lt_succ_diag_r _) He) e K) as [_ HRu]. apply (G _ (nth e0 (s_upu s) no_unp)); auto; [fold fn in Le; lia|left; split; [auto|eauto]].
      - rewrite (proj2 (Nat.ltb_ge x v)) by lia. pose proof (edge_lt _ _ _ _ He) as Le. apply sub_edge in He. destruct He as (e0 & He & P & K).
        destruct (proj2 (dir_rel (S v) e0 v x (Nat.lt_succ_diag_r _) He) e K) as [_ HRu]. apply (G _ (nth e0 (s_dnu s) no_unp)); auto; [fold bn in Le; lia|right; split; [auto|eauto]].
    Qed.
    Lemma dwalk u v l x y : walk (adj_arc madj) u v l -> nth_error order x = Some u -> nth_error order y = Some v -> exists l', walk A' x y l' /\ (l' <= l)%N.
    Proof using HK H0 HT HR HV.
      intros H. revert x. induction H as [u|u t v w l Ha Hw IH]; intros x Eu Ev.
      - destruct (co_order _ _ _ _ _ HK) as (_ & _ & O & _). apply O in Eu, Ev. rewrite Eu in Ev. injection Ev as <-. exists 0%N. split; [constructor|lia].
      - destruct (topo_arc adj madj HT u t w Ha) as (w9 & Ha9).
        assert (Ht : t < n). { unfold n. rewrite <- (m_nodes adj madj HT). unfold adj_arc in Ha. destruct (Nat.lt_ge_cases u (length madj)).
          - apply (HV (nth u madj []) t w); auto. apply nth_In; auto. - rewrite nth_overflow in Ha by auto. destruct Ha. }
        destruct (co_order _ _ _ _ _ HK) as (_ & Lr & _ & O). destruct (nth_error_lt ranks t) as (z & Ez). { fold n in Lr. lia. } pose proof (O _ _ Ez) as Et.
        destruct (IH z Et Ev) as (l' & Hl & L'). destruct (Nat.eq_dec x z) as [->|Ne]. { exists l'. split; [auto|lia]. }
        destruct (cr_le _ _ _ _ _ _ _ _ _ _ HR x z u t w Ne Eu Et Ha) as (w0 & Hi & Lw).
        assert (Hc : exists w1, A x z w1).
        { destruct Hi as [(L & e & He & _)|(L & e & He & _)]; eexists; [left|right]; split; eauto. }
        destruct Hc as (w1 & Hc). pose proof (carc_init adj order ranks nodes c HK up0 dn0 s HS x z w1 w0 Hc Hi) as L1.
        exists (w1 + l')%N. split; [|lia]. econstructor; eauto. split; auto. apply (live_arc adj order ranks nodes c HK s0 H0 x z u t w9); auto.
    Qed.
    Lemma directed_view : view adj order ranks madj kdir A' un dhop.
    Proof using HK H0 HT HV HR H1 HD M0.
      assert (Eel : k_elim kdir = c_elim c) by apply (do_elim _ _ _ _ _ _ HD).
      constructor.
      - apply (co_order _ _ _ _ _ HK).
      - reflexivity.
      - reflexivity.
      - unfold num_nodes. cbn. rewrite (proj1 (dk_f _ _ _ DO)), sub_len, (ch_len _ _ HC). lia.
      - rewrite Eel. apply (elim_len _ _ _ _ _ HK).
      - rewrite Eel. apply (elim_par _ _ _ _ _ HK).
      - apply (dup_graph true).
      - apply (dup_graph false).
      - intros x y w [Ha _]. destruct (carc_lt _ _ _ _ _ HK _ _ _ _ Ha) as (B1 & B2 & _). split; auto.
      - apply dunp_ok.
      - apply (un_fun adj order ranks nodes c HK).
      - intros x y w [Ha _]. apply (un_ex adj order ranks nodes c HK madj up0 dn0 s k HR x y w Ha).
      - intros x e y w H. apply dfw_larc in H. destruct H as (L & Ha & He). split; [split; auto|left; auto].
      - intros x y w [L Ha] _. destruct (live_edge x y w Ha) as (e & [[_ He]|[L' _]]); [|lia]. exists e. apply dfw_larc. auto.
      - intros x e y w H. apply dbw_larc in H. destruct H as (L & Ha & He). split; [split; auto|right; auto].
      - intros x y w [L Ha] _. destruct (live_edge y x w Ha) as (e & [[L' _]|[_ He]]); [lia|]. exists e. apply dbw_larc. auto.
      - apply dunpack_spec.
      - intros x y w u v [Ha _]. apply (un_orig adj order ranks nodes c HK madj up0 dn0 s k HR x y w u v Ha).
      - apply dwalk.
    Qed.
  End Metric.

  (** customization succeeds and relates to the initial weights it reads *)
  Lemma customize_full madj metric : same_topology adj madj -> valid_adj madj -> fits_u32 madj -> from_adjacency_lists madj = Some metric ->
    exists up0 dn0 s k, prepare_weights (c_fw_orig c) metric (repeat INF m) = Some up0 /\ prepare_weights (c_bw_orig c) metric (repeat INF m) = Some dn0 /\ wmax up0 /\ wmax dn0 /\
      customize c metric = Some k /\ cust_result adj order ranks nodes c madj up0 dn0 s k.
  Proof using HK.
    intros HT HV HF Hm.
    destruct (prepare_ok adj order ranks nodes c HK madj metric HT HV HF Hm (c_fw_orig c) (fun u v => (u, v)) (co_fwl _ _ _ _ _ HK) (co_fw _ _ _ _ _ HK)) as (up0 & E1 & L1 & S1 & H1).
    destruct (prepare_ok adj order ranks nodes c HK madj metric HT HV HF Hm (c_bw_orig c) (fun u v => (v, u)) (co_bwl _ _ _ _ _ HK) (co_bw _ _ _ _ _ HK)) as (dn0 & E2 & L2 & S2 & H2).
    cbn [fst snd] in H1, H2.
    destruct (customize_basic_ok adj order ranks nodes c HK up0 dn0) as (s & E3 & H3); [split; auto|split; auto|].
    exists up0, dn0, s. unfold customize. fold m in E1, E2.
    assert (Em : cch_arcs c = m) by (unfold cch_arcs; rewrite (co_head _ _ _ _ _ HK); reflexivity). rewrite Em, E1. cbn [bind]. rewrite E2. cbn [bind]. rewrite E3. cbn [bind].
    unfold customized_of. pose proof H3 as [((U & _) & (D & _) & _) _]. rewrite !(fo_built adj order ranks nodes c HK) by auto. cbn [bind].
    eexists. split; [reflexivity|]. split; [reflexivity|]. split; [exact S1|]. split; [exact S2|]. split; [reflexivity|]. constructor; auto.
    - rewrite (co_ord _ _ _ _ _ HK), (co_rks _ _ _ _ _ HK). reflexivity.
    - intros x y u v w Ne Eu Ev Ha.
      assert (Tc : touching adj order x y).
      { destruct (adj_arc_edge _ _ _ _ Ha) as (e & He). destruct (topo_edge madj adj _ _ _ (same_topology_sym _ _ HT) (ex_intro _ w He)) as (w' & k & _ & Hk).
        exists u, v, w'. split; auto. split; auto. left. eapply nth_error_In; eauto. }
      destruct (co_sup _ _ _ _ _ HK x y Tc Ne) as [K|K]; pose proof (proj1 (ch_up _ _ HC _ _ K)) as L; destruct (In_edge _ _ _ K) as (e & He).
      + exists (nth e up0 0%N). split; [left; eauto|]. apply (proj1 (H1 e x y u v He Eu Ev)); auto.
      + exists (nth e dn0 0%N). split; [right; eauto|]. apply (proj1 (H2 e y x v u He Ev Eu)); auto.
    - intros x y u v w [(L & e & He & ->)|(L & e & He & ->)] Eu Ev.
      + apply (proj2 (H1 e x y u v He Eu Ev)). + apply (proj2 (H2 e y x v u He Ev Eu)).
  Qed.
  Lemma kept_below pk e : In e (kept nodes pk) -> e < m.
  Proof using. clear. unfold m. intros H. apply filter_In in H. destruct H as [H _]. apply in_seq in H. lia. Qed.
  Lemma customize_directed_ok madj metric : same_topology adj madj -> valid_adj madj -> fits_u32 madj -> from_adjacency_lists madj = Some metric ->
    exists up0 dn0 s k s1, customize c metric = Some k /\ cust_result adj order ranks nodes c madj up0 dn0 s k /\ customize_directed d metric = Some (kdir s1) /\
      ddone fn bn (map (fun e => nth e up0 0%N) (kept nodes pU)) (map (fun e => nth e dn0 0%N) (kept nodes pD)) (fun x => x < length fn) s1 /\ wmax up0 /\ wmax dn0.
  Proof using HK HD.
    intros HT HV HF Hm. destruct (customize_full madj metric HT HV HF Hm) as (up0 & dn0 & s & k & P1 & P2 & M1 & M2 & Ek & HR).
    destruct (dbasic_ok fn bn d DO (map (fun e => nth e up0 0%N) (kept nodes pU)) (map (fun e => nth e dn0 0%N) (kept nodes pD))) as (s1 & E1 & Q1).
    { rewrite map_length. symmetry. apply kept_len. } { rewrite map_length. symmetry. apply kept_len. } { apply kept_max; auto. } { apply kept_max; auto. }
    exists up0, dn0, s, k, s1. split; [exact Ek|]. split; [exact HR|]. split; [|auto].
    unfold customize_directed. rewrite (do_fw _ _ _ _ _ _ HD), (do_bw _ _ _ _ _ _ HD), (proj2 (proj2 (dk_f _ _ _ DO))), (proj2 (proj2 (dk_b _ _ _ DO))).
    fold pU pD. rewrite !kept_len. rewrite (prep_kept _ _ m up0 (kept nodes pU) P1 (co_fwl _ _ _ _ _ HK) (kept_below pU)). cbn [bind].
    rewrite (prep_kept _ _ m dn0 (kept nodes pD) P2 (co_bwl _ _ _ _ _ HK) (kept_below pD)). cbn [bind]. rewrite E1. cbn [bind].
    unfold dcustomized_of. destruct (dd_st _ _ _ _ _ _ Q1) as (L1 & _ & _ & L2 & _). destruct (co_fit _ _ _ _ _ HK) as [F1 F2].
    assert (Hn : forall pk, length (sub nodes pk) = n) by (intros pk; rewrite sub_len; apply (ch_len _ _ HC)).
    assert (Hm' : forall pk, (N.of_nat (length (concat (sub nodes pk))) < U32MAX)%N) by (intros pk; pose proof (sub_le nodes pk); lia).
    rewrite (arrays_built fn _ _ (dk_f _ _ _ DO)); auto; [|unfold fn; rewrite Hn; auto|apply Hm']. cbn [bind].
    rewrite (arrays_built bn _ _ (dk_b _ _ _ DO)); auto; [|unfold bn; rewrite Hn; auto|apply Hm']. cbn [bind].
    rewrite (do_ord _ _ _ _ _ _ HD), (do_rks _ _ _ _ _ _ HD). reflexivity.
  Qed.

  (** with all weights zero, live arcs have weight zero *)
  Lemma live_attained madj up0 dn0 s k : same_topology adj madj -> (forall u v w, adj_arc madj u v w -> w = 0%N) -> cust_result adj order ranks nodes c madj up0 dn0 s k ->
    forall b x y, Nat.min x y < b -> lv x y -> carc nodes s x y 0%N.
  Proof using HK H0.
    intros HT HZ HR. pose proof (cr_ok _ _ _ _ _ _ _ _ _ _ HR) as HS. induction b as [|b IH]; intros x y Hb (w & Hw & Lw); [lia|].
    destruct (proj2 (carc_cadj _ _ _ _ _ HK s x y)) as (w' & Ha). { apply (carc_cadj _ _ _ _ _ HK s0). eauto. }
    destruct (carc_lt _ _ _ _ _ HK _ _ _ _ Hw) as (Lx & Ly & Ne).
    destruct (carc_unp nodes s0 x y (ex_intro _ w Hw)) as (i & Hi).
    destruct (carc_case _ _ _ _ _ HK _ _ _ H0 x y w i Hw Hi) as [[_ Hz]|(z & e1 & e2 & _ & He1 & He2 & E & _ & _)].
    - destruct (node_at adj order ranks nodes c HK x Lx) as (u & Eu). destruct (node_at adj order ranks nodes c HK y Ly) as (v & Ev).
      destruct (zero_init adj order ranks nodes c HK x y u v w Hz Eu Ev) as [[_ (w9 & H9)]|[-> _]]; [|lia].
      destruct (topo_arc madj adj (same_topology_sym _ _ HT) u v w9 H9) as (w8 & H8). rewrite (HZ _ _ _ H8) in H8.
      destruct (cr_le _ _ _ _ _ _ _ _ _ _ HR x y u v 0%N Ne Eu Ev H8) as (w0 & Hi0 & L0). pose proof (carc_init _ _ _ _ _ HK _ _ _ HS _ _ _ _ Ha Hi0). replace w' with 0%N in Ha by lia. auto.
    - pose proof (ch_up _ _ HC _ _ (edge_In _ _ _ _ He1)). pose proof (ch_up _ _ HC _ _ (edge_In _ _ _ _ He2)).
      assert (A1 : carc nodes s x z 0%N). { apply IH; [lia|]. exists (nth e1 (s_dn s0) 0%N). split; [right; split; [lia|eauto]|lia]. }
      assert (A2 : carc nodes s z y 0%N). { apply IH; [lia|]. exists (nth e2 (s_up s0) 0%N). split; [left; split; [lia|eauto]|lia]. }
      destruct (carc_tri _ _ _ _ _ HK _ _ _ HS) as [_ T]. destruct (T x z y _ _ ltac:(lia) ltac:(lia) Ne A1 A2) as (w1 & Hw1 & L1). replace w1 with 0%N in Hw1 by lia. auto.
  Qed.
End Serve.
