(** Distance queries on perfect customizations of directed CCHs are exact. *)
From Verif Require Import Base BitVec Graph SpecGraph SpecCCH CCH CCHTheory CCHPathTheory CCHContractProof CCHBuildProof CCHCustProof CCHMetricProof CCHQuery CCHQueryProof CCHPathProof CCHViewProof CCHServerProof CCHPotProof
  SepTree CCHPerfect CCHPerfectProof CCHRebuild CCHRebuildProof DirCCH DirCCHProof DirRel DirPerf DirPerfProof.

Definition tlf (nodes : list (list nat)) (e : nat) : nat := nth e (concat (tail_rows nodes (length nodes))) 0.
Lemma tlf_edge nodes e x y : edge nodes e x y -> tlf nodes e = x.
Proof. intros H. unfold tlf. apply nth_error_nth. apply (proj2 (tail_rows_ok nodes) e x y H). Qed.
Lemma side_arrays nodes fo hd (ws : list N) ms (us : list unp) : arrays nodes fo hd -> length ws = length (concat nodes) -> length ms = length (concat nodes) -> length us = length (concat nodes) ->
  side_in (length nodes) (off nodes) (tlf nodes) (mkFo fo hd ws) ms us.
Proof.
  intros (Lf & F & EH) L1 L2 L3. assert (On : off nodes (length nodes) = length (concat nodes)) by apply off_n. constructor; cbn [first_out head weight]; rewrite ?On; auto.
  - intros i Hi. apply off_mono; lia.
  - rewrite EH. reflexivity.
  - intros i e Hi He. destruct (range_edge nodes i e Hi He) as (y & Hy). eapply tlf_edge; eauto.
Qed.

Section DPV.
  Variable adj : list (list (nat * N)).
  Variables order ranks : list nat.
  Variable nodes : list (list nat).
  Variable c : cch.
  Hypothesis HK : cch_ok adj order ranks nodes c.
  Variable s0 : cst.
  Hypothesis H0 : cust_ok adj nodes (prepare_zero_weights (c_fw_orig c) (repeat INF (length (concat nodes)))) (prepare_zero_weights (c_bw_orig c) (repeat INF (length (concat nodes)))) s0.
  Let pU := pkU s0.
  Let pD := pkD s0.
  Let fn := sub nodes pU.
  Let bn := sub nodes pD.
  Variable d : dcch.
  Hypothesis HD : directed_of order ranks nodes c s0 d.
  Let DO := do_ok _ _ _ _ _ _ HD.
  Let HC := co_chordal _ _ _ _ _ HK.
  Variable madj : list (list (nat * N)).
  Hypothesis HT : same_topology adj madj.
  Hypothesis HV : valid_adj madj.
  Variables up0 dn0 : list N.
  Variable s : cst.
  Variable k : customized.
  Hypothesis HR : cust_result adj order ranks nodes c madj up0 dn0 s k.
  Let HS := cr_ok _ _ _ _ _ _ _ _ _ _ HR.
  Variable s1 : cst.
  Hypothesis H1 : ddone fn bn (map (fun e => nth e up0 0%N) (DirCCHProof.kept nodes pU)) (map (fun e => nth e dn0 0%N) (DirCCHProof.kept nodes pD)) (fun x => x < length fn) s1.
  Hypothesis M0 : wmax up0 /\ wmax dn0.
  Variable r : dps.
  Hypothesis HI : Inv fn bn (s_up s1) (s_dn s1) r.
  Let n := length adj.
  Let A := larcs nodes s0 s.
  Let wi := DirPerfProof.w0 (s_up s1) (s_dn s1).
  Let nd := nds fn bn.
  Let us (b : bool) := if b then s_upu s1 else s_dnu s1.
  Let gr (b : bool) := if b then mkFo (d_ffo d) (d_fhead d) (dp_up r) else mkFo (d_bfo d) (d_bhead d) (dp_dn r).
  Notation keptm := CCHRebuildProof.kept.
  Let HView := directed_view adj order ranks nodes c HK s0 H0 d HD madj HT HV up0 dn0 s k HR s1 H1 M0.

  Lemma nd_len b : length (nd b) = n.
  Proof using HK. unfold nd, nds, fn, bn. destruct b; rewrite sub_len; apply (ch_len _ _ HC). Qed.
  Lemma wi_len b : length (wi b) = length (concat (nd b)) /\ length (us b) = length (concat (nd b)).
  Proof using H1. destruct (dd_st _ _ _ _ _ _ H1) as (L1 & L2 & _ & L3 & L4 & _). destruct b; cbn; auto. Qed.
  Lemma dside b : side_in n (off (nd b)) (tlf (nd b)) (gr b) (dpm b r) (us b).
  Proof using HK HD H1 HI.
    rewrite <- (nd_len b). destruct (wi_len b) as [L1 L2]. pose proof (iv_w _ _ _ _ _ HI b) as W. pose proof (iv_m _ _ _ _ _ HI b) as M. fold wi in W, M.
    destruct b; cbn [gr dpw] in *; apply side_arrays; try congruence; [apply (dk_f _ _ _ DO)|apply (dk_b _ _ _ DO)].
  Qed.
  Lemma gr_head b e x y : edge (nd b) e x y -> nth e (head (gr b)) 0 = y.
  Proof using HK HD.
    intros He. apply nth_error_nth. apply CCHBuildProof.edge_head in He. destruct b; cbn [gr head]; [rewrite (proj2 (proj2 (dk_f _ _ _ DO)))|rewrite (proj2 (proj2 (dk_b _ _ _ DO)))]; exact He.
  Qed.
  Lemma gr_weight b : weight (gr b) = dpw b r.
  Proof using. destruct b; reflexivity. Qed.
  Lemma arcA (b : bool) e x y : edge (nd b) e x y -> x < y /\ y < n /\ if b then A x y (nth e (wi b) 0%N) else A y x (nth e (wi b) 0%N).
  Proof using HK H0 HT HR H1 HD M0.
    intros He. destruct (wi_len b) as [L1 _].
    assert (Ly : y < n). { pose proof (nd_len true) as N1. pose proof (nd_len false) as N2. cbn [nd nds] in N1, N2. apply edge_In in He. destruct b; cbn [nd nds] in He; [assert (X : y < length fn) by (apply (dk_fup _ _ _ DO) in He; apply He)|assert (X : y < length bn) by (apply (dk_bup _ _ _ DO) in He; apply He)]; lia. }
    destruct b.
    - pose proof (dfw_larc adj order ranks nodes c HK s0 H0 d HD madj HT up0 dn0 s k HR s1 H1 M0 x e y (nth e (wi true) 0%N)) as Q. cbn [kdir k_fw] in Q.
      destruct (proj1 Q) as (Q1 & Q2 & _); auto. apply (arrays_larc fn _ _ (dk_f _ _ _ DO)); auto.
    - pose proof (dbw_larc adj order ranks nodes c HK s0 H0 d HD madj HT up0 dn0 s k HR s1 H1 M0 x e y (nth e (wi false) 0%N)) as Q. cbn [kdir k_bw] in Q.
      destruct (proj1 Q) as (Q1 & Q2 & _); auto. apply (arrays_larc bn _ _ (dk_b _ _ _ DO)); auto.
  Qed.
  Lemma A_arc x y w : A x y w -> exists b e, w = nth e (wi b) 0%N /\ if b : bool then edge (nd b) e x y else edge (nd b) e y x.
  Proof using HK H0 HT HV HR H1 HD M0.
    intros Ha. pose proof (v_unp _ _ _ _ _ _ _ _ HView) as [_ FN _]. destruct (live_edge adj order ranks nodes c HK s0 s x y w Ha) as (e & [[L He]|[L He]]); [exists true, e|exists false, e]; split; auto.
    - destruct (arcA true e x y He) as (_ & _ & Hb). apply (FN _ _ _ _ Ha Hb).
    - destruct (arcA false e y x He) as (_ & _ & Hb). apply (FN _ _ _ _ Ha Hb).
  Qed.
  Lemma arc0_A x y w : arc0 fn bn (s_up s1) (s_dn s1) x y w -> A x y w.
  Proof using HK H0 HT HV HR H1 HD M0.
    intros (b & e & G & E). apply nth_error_nth with (d := 0%N) in E. subst w. destruct b; cbn [goes] in G; [apply (arcA true e x y G)|apply (arcA false e y x G)].
  Qed.
  Lemma kept_w b e x y : edge (nd b) e x y -> keptm (dpm b r) e = true -> nth e (dpw b r) 0%N = nth e (wi b) 0%N.
  Proof using HK H0 HT HV HR H1 HD M0 HI.
    intros He K. pose proof (edge_lt _ _ _ _ He) as L. destruct (wi_len b) as [L1 _]. pose proof (iv_w _ _ _ _ _ HI b) as W. pose proof (iv_m _ _ _ _ _ HI b) as M. fold wi in W, M.
    unfold keptm in K. pose proof (nth_error_nth' (dpw b r) 0%N (n := e) ltac:(lia)) as E1. pose proof (nth_error_nth' (dpm b r) true (n := e) ltac:(lia)) as E2. pose proof (nth_error_nth' (wi b) 0%N (n := e) ltac:(lia)) as E3. destruct (iv_c _ _ _ _ _ HI b e _ _ _ E1 E2 E3) as [C1 C2].
    destruct (nth e (dpm b r) true); [discriminate|]. destruct (N.lt_ge_cases (nth e (dpw b r) 0%N) (nth e (wi b) 0%N)) as [X|X]; [apply C2 in X; discriminate|lia].
  Qed.
  Lemma tight_kept (b : bool) e x y w : edge (nd b) e x y -> (if b then tight A x y w else tight A y x w) -> w = nth e (wi b) 0%N -> keptm (dpm b r) e = true.
  Proof using HK H0 HT HV HR H1 HD M0 HI.
    intros He Ht ->. pose proof (edge_lt _ _ _ _ He) as L. destruct (wi_len b) as [L1 _]. pose proof (iv_w _ _ _ _ _ HI b) as W. pose proof (iv_m _ _ _ _ _ HI b) as M. fold wi in W, M.
    unfold keptm. pose proof (nth_error_nth' (dpw b r) 0%N (n := e) ltac:(lia)) as E1. pose proof (nth_error_nth' (dpm b r) true (n := e) ltac:(lia)) as E2. pose proof (nth_error_nth' (wi b) 0%N (n := e) ltac:(lia)) as E3. destruct (iv_c _ _ _ _ _ HI b e _ _ _ E1 E2 E3) as [C1 C2].
    destruct (nth e (dpm b r) true); [|reflexivity]. exfalso. pose proof (proj1 C2 eq_refl) as X.
    destruct (dd_st _ _ _ _ _ _ H1) as (_ & _ & W1 & _ & _ & W2 & _). assert (Mi : (nth e (wi b) 0 <= INF)%N) by (destruct b; cbn; [apply W1|apply W2]).
    assert (WW : if b then walk A x y (nth e (dpw b r) 0%N) else walk A y x (nth e (dpw b r) 0%N)).
    { destruct b; eapply walk_mono; try (apply arc0_A); eapply (iv_walk _ _ _ _ _ HI _ e _ _ _ _ E1); try lia. Unshelve. all: exact He. }
    destruct b; pose proof (proj2 Ht _ WW); lia.
  Qed.
  Lemma dlow b i e : i < n -> off (nd b) i <= e < off (nd b) (i + 1) -> low_unp (off fn) (off bn) i (nth e (us b) no_unp).
  Proof using HK H0 HT HV HR H1 HD M0 HI.
    intros Hi He. pose proof (nd_len b) as NLb. destruct (range_edge (nd b) i e ltac:(lia) He) as (y & Hy).
    assert (G : exists j x v w, unp_rel nodes pU pD j (nth e (us b) no_unp) /\ carc nodes s x v w /\ unp_of nodes s x v j /\ ((x = i /\ v = y) \/ (x = y /\ v = i))).
    { pose proof (arcA b e i y Hy) as (L & _ & _). destruct b; cbn [nd nds us] in *; apply sub_edge in Hy; destruct Hy as (e0 & He0 & P & K).
      - destruct (proj1 (dir_rel adj order ranks nodes c HK s0 H0 d HD madj HT up0 dn0 s k HR s1 H1 M0 (S i) e0 i y (Nat.lt_succ_diag_r _) He0) e K) as [_ R].
        exists (nth e0 (s_upu s) no_unp), i, y, (nth e0 (s_up s) 0%N). split; [exact R|]. split; [left; split; [lia|eauto]|]. split; [left; split; [lia|eauto]|auto].
      - destruct (proj2 (dir_rel adj order ranks nodes c HK s0 H0 d HD madj HT up0 dn0 s k HR s1 H1 M0 (S i) e0 i y (Nat.lt_succ_diag_r _) He0) e K) as [_ R].
        exists (nth e0 (s_dnu s) no_unp), y, i, (nth e0 (s_dn s) 0%N). split; [exact R|]. split; [right; split; [lia|eauto]|]. split; [right; split; [lia|eauto]|auto]. }
    destruct G as (j & x & v & w & HRu & Ha & Hj & Exv). destruct (carc_case _ _ _ _ _ HK _ _ _ HS x v w _ Ha Hj) as [[-> _]|(z & e1 & e2 & -> & B1 & B2 & _)].
    - destruct HRu as [[_ ->]|(q1 & q2 & ? & ? & E & _)]; [split; intros q Hq; discriminate|discriminate].
    - destruct HRu as [[E _]|(f1 & f2 & e1' & e2' & E & -> & K1 & K2)]; [discriminate|]. injection E as <- <-.
      destruct (kept_sub _ _ _ _ _ _ K1 B1) as [C1 _]. destruct (kept_sub _ _ _ _ _ _ K2 B2) as [C2 _].
      pose proof (ch_up _ _ HC _ _ (edge_In _ _ _ _ B1)). pose proof (ch_up _ _ HC _ _ (edge_In _ _ _ _ B2)). assert (Lz : z < i) by (destruct Exv as [[-> ->]|[-> ->]]; lia).
      pose proof (edge_range _ _ _ _ C1) as R1. pose proof (edge_range _ _ _ _ C2) as R2. fold bn in R1. fold fn in R2. pose proof (nd_len true) as NL1. pose proof (nd_len false) as NL2. cbn [nd nds] in NL1, NL2.
      pose proof (off_mono fn (z + 1) i ltac:(lia) ltac:(lia)). pose proof (off_mono bn (z + 1) i ltac:(lia) ltac:(lia)).
      split; intros q Hq; cbn in Hq; injection Hq as <-; lia.
  Qed.
  Let mu := new_unp (dpm true r) (dpm false r).
  Let sd (b : bool) := side_at (off (nd b)) (tlf (nd b)) (gr b) (dpm b r) (us b) mu n (off (nd b) n).
  Definition dperf : customized :=
    mkCust (mkFo (x_fo (sd true)) (x_head (sd true)) (x_wt (sd true))) (mkFo (x_fo (sd false)) (x_head (sd false)) (x_wt (sd false))) (x_unp (sd true)) (x_unp (sd false)) (x_tail (sd false)) (d_elim d) order ranks.
  Let kp := dperf.
  Lemma dperf_built : directed_perfect d (s_up s1) (s_dn s1) = Some r -> customize_directed_perfect d (kdir order ranks d s1) = Some kp.
  Proof using HK H0 HT HV HR H1 HD M0 HI.
    intros E. unfold customize_directed_perfect. cbn [kdir k_fw k_bw weight k_upu k_dnu]. rewrite E. cbn [bind].
    pose proof (rebuild_seq_ok n _ _ _ _ _ _ _ _ _ _ (dside true) (dside false) (dlow true) (dlow false)) as ER. fold mu in ER. fold (sd true) (sd false) in ER.
    change (mkFo (d_ffo d) (d_fhead d) (dp_up r)) with (gr true). change (mkFo (d_bfo d) (d_bhead d) (dp_dn r)) with (gr false).
    change (dp_um r) with (dpm true r). change (dp_dm r) with (dpm false r). change (s_upu s1) with (us true). change (s_dnu s1) with (us false). rewrite ER. cbn [bind fst snd].
    destruct (co_fit _ _ _ _ _ HK) as [F1 F2]. assert (Fb : forall b, (N.of_nat (off (nd b) n) < U32MAX)%N).
    { intros b. rewrite <- (nd_len b), off_n. pose proof (sub_le nodes pU). pose proof (sub_le nodes pD). destruct b; cbn [nd nds]; unfold fn, bn; lia. }
    assert (FB : forall b, fo_new (x_fo (sd b)) (x_head (sd b)) (x_wt (sd b)) = Some (mkFo (x_fo (sd b)) (x_head (sd b)) (x_wt (sd b)))).
    { intros b. apply (rebuilt_fo n _ _ _ _ _ mu (dside b)); [unfold n; lia|apply Fb]. }
    rewrite !FB. cbn [bind].
    rewrite (do_ord _ _ _ _ _ _ HD), (do_rks _ _ _ _ _ _ HD). reflexivity.
  Qed.
  Let kg (b : bool) := if b then k_fw kp else k_bw kp.
  Lemma kg_eq b : kg b = mkFo (x_fo (sd b)) (x_head (sd b)) (x_wt (sd b)).
  Proof using. destruct b; reflexivity. Qed.
  Lemma dp_larc b x e' y w : larc (k_links (kg b)) x e' y w <-> exists e, edge (nd b) e x y /\ keptm (dpm b r) e = true /\ e' = cnt (dpm b r) e /\ w = nth e (wi b) 0%N.
  Proof using HK H0 HT HV HR H1 HD M0 HI.
    unfold larc, garc_ids, k_links. rewrite kg_eq. pose proof (nd_len b) as NL. split.
    - intros (ls & E & Hin). assert (Hx : x < n).
      { unfold link_iter_ids, range in E. cbn [first_out] in E. destruct (nth_error (x_fo (sd b)) (x + 1)) eqn:K.
        - apply nth_error_Some_lt in K. unfold sd, side_at in K. cbn [x_fo] in K. rewrite map_length, seq_length in K. lia.
        - destruct (nth_error (x_fo (sd b)) x); discriminate. }
      destruct (rebuilt_links n _ _ _ _ _ mu (dside b) x Hx) as (ls' & E' & H'). fold (sd b) in E'. rewrite E in E'. injection E' as <-.
      apply H' in Hin. destruct Hin as (e & He & K & -> & Ey & Ew). destruct (range_edge (nd b) x e ltac:(lia) He) as (y' & Hy'). rewrite (gr_head _ _ _ _ Hy') in Ey. subst y'.
      exists e. split; auto. split; auto. split; auto. rewrite Ew, gr_weight. eapply kept_w; eauto.
    - intros (e & He & K & -> & ->). destruct (arcA b e x y He) as (L1 & L2 & _).
      destruct (rebuilt_links n _ _ _ _ _ mu (dside b) x ltac:(lia)) as (ls' & E' & H'). fold (sd b) in E'. exists ls'. split; auto.
      apply H'. exists e. split; [apply (edge_range _ _ _ _ He)|]. split; auto. split; auto. rewrite (gr_head _ _ _ _ He). split; auto. rewrite gr_weight. symmetry. eapply kept_w; eauto.
  Qed.
  Lemma dp_up_graph b : up_graph n (k_elim kp) (k_links (kg b)).
  Proof using HK H0 HT HV HR H1 HD M0 HI.
    intros x Hx. destruct (rebuilt_links n _ _ _ _ _ mu (dside b) x Hx) as (ls' & E' & H'). fold (sd b) in E'. exists ls'. assert (E2 : k_links (kg b) x = Some ls') by (unfold k_links; rewrite kg_eq; exact E'). split; [exact E2|]. intros y w e' Hin.
    assert (Ha : larc (k_links (kg b)) x e' y w) by (exists ls'; auto).
    apply dp_larc in Ha. destruct Ha as (e & He & _ & _ & ->). destruct (arcA b e x y He) as (L1 & L2 & _). split; [auto|].
    destruct (dd_st _ _ _ _ _ _ H1) as (_ & _ & W1 & _ & _ & W2 & _). split; [destruct b; cbn; [apply W1|apply W2]|].
    intros l Hl. cbn [kp dperf k_elim] in Hl. rewrite (do_elim _ _ _ _ _ _ HD) in Hl. apply edge_In in He.
    assert (Hi : In y (nbh nodes x)) by (destruct b; apply sub_In in He; auto; intros q; apply (ch_asc _ _ HC)). eapply elim_anc; eauto.
  Qed.
  Let un := un_of nodes s.
  (** the kept arcs that are shortest walks; only these are ever unpacked *)
  Definition hopk (x y e' : nat) : Prop := exists w, tight A x y w /\
    ((x < y /\ exists e, edge fn e x y /\ keptm (dpm true r) e = true /\ e' = cnt (dpm true r) e) \/
     (y < x /\ exists e, edge bn e y x /\ keptm (dpm false r) e = true /\ e' = cnt (dpm false r) e)).
  Lemma hopk_tight x y w e : tight A x y w -> dhop nodes s0 x y e -> exists e', hopk x y e' /\ if x <? y then e' = new_id (dpm true r) e else e' = new_id (dpm false r) e.
  Proof using HK H0 HT HV HR H1 HD M0 HI.
    intros Ht Hh. pose proof (v_unp _ _ _ _ _ _ _ _ HView) as [_ FN _]. destruct Hh as [[L He]|[L He]].
    - destruct (arcA true e x y He) as (_ & _ & Hb). pose proof (tight_kept true e x y w He Ht (FN _ _ _ _ (proj1 Ht) Hb)) as K. rewrite (proj2 (Nat.ltb_lt x y) L). unfold new_id. rewrite K.
      exists (cnt (dpm true r) e). split; auto. exists w. split; auto. left. split; auto. exists e. auto.
    - destruct (arcA false e y x He) as (_ & _ & Hb). pose proof (tight_kept false e y x w He Ht (FN _ _ _ _ (proj1 Ht) Hb)) as K. rewrite (proj2 (Nat.ltb_ge x y)) by lia. unfold new_id. rewrite K.
      exists (cnt (dpm false r) e). split; auto. exists w. split; auto. right. split; auto. exists e. auto.
  Qed.
  Lemma dp_spec x v e' w : A x v w -> hopk x v e' ->
    exists q, (if x <? v then unpack_edge (k_upu kp) (k_btail kp) e' else unpack_edge (k_dnu kp) (k_btail kp) e') = Some q /\
    match q with None => un x v None | Some (dd, u, z) => un x v (Some z) /\ hopk x z dd /\ hopk z v u end.
  Proof using HK H0 HT HV HR H1 HD M0 HI.
    intros Ha (w' & Ht & Hh). pose proof (v_unp _ _ _ _ _ _ _ _ HView) as [_ FN MI]. rewrite <- (FN _ _ _ _ Ha (proj1 Ht)) in Ht. clear w'.
    assert (OM : forall b, off (nd b) n = length (concat (nd b))) by (intros b; rewrite <- (nd_len b); apply off_n).
    assert (G : forall (b : bool) e, e < length (concat (nd b)) -> keptm (dpm b r) e = true ->
      (exists q, unpack_edge (us b) (d_btail d) e = Some q /\ match q with None => un x v None | Some (dd, u, z) => un x v (Some z) /\ dhop nodes s0 x z dd /\ dhop nodes s0 z v u end) ->
      exists q, unpack_edge (x_unp (sd b)) (k_btail kp) (cnt (dpm b r) e) = Some q /\ match q with None => un x v None | Some (dd, u, z) => un x v (Some z) /\ hopk x z dd /\ hopk z v u end).
    { intros b e Le K (q & Eq & Hq). unfold unpack_edge in *. unfold sd. rewrite (rebuilt_unp n _ _ _ _ _ mu (dside b)) by (rewrite ?OM; auto). cbn [bind].
      destruct (wi_len b) as [_ L2]. rewrite (nth_error_nth' (us b) no_unp) in Eq by lia. cbn [bind] in Eq. destruct (nth e (us b) no_unp) as [[dn|] up].
      - destruct up as [up|]; [|discriminate]. cbn [bind] in Eq. destruct (nth_error (d_btail d) dn) as [z|] eqn:Ez; [|discriminate]. cbn [bind] in Eq. injection Eq as <-. destruct Hq as (Hu & D1 & D2).
        destruct (MI x v w z Ha Hu) as (Lx & Lv & (w1 & w2 & A1 & A2 & E) & _).
        assert (T1 : tight A x z w1). { split; auto. intros l Hl. pose proof (proj2 Ht _ (walk_app _ _ _ _ _ _ Hl (walk_arc _ _ _ _ A2))). lia. }
        assert (T2 : tight A z v w2). { split; auto. intros l Hl. pose proof (proj2 Ht _ (walk_app _ _ _ _ _ _ (walk_arc _ _ _ _ A1) Hl)). lia. }
        destruct (hopk_tight x z w1 dn T1 D1) as (e1 & K1 & E1). destruct (hopk_tight z v w2 up T2 D2) as (e2 & K2 & E2).
        rewrite (proj2 (Nat.ltb_ge x z)) in E1 by lia. rewrite (proj2 (Nat.ltb_lt z v)) in E2 by lia. subst e1 e2.
        unfold mu, new_unp. cbn [fst snd option_map bind].
        assert (Et : nth_error (k_btail kp) (new_id (dpm false r) dn) = Some z).
        { destruct D1 as [[L _]|[_ He]]; [lia|]. destruct (arcA false dn z x He) as (_ & _ & Hb). pose proof (tight_kept false dn z x w1 He T1 (FN _ _ _ _ A1 Hb)) as Kd. unfold new_id. rewrite Kd.
          change (k_btail kp) with (x_tail (sd false)). unfold sd. rewrite (rebuilt_tail n _ _ _ _ _ mu (dside false)); [|rewrite OM; apply (edge_lt _ _ _ _ He)|exact Kd]. f_equal. eapply tlf_edge. exact He. }
        rewrite Et. cbn [bind]. eexists. split; [reflexivity|]. split; [exact Hu|]. split; [exact K1|exact K2].
      - injection Eq as <-. unfold mu, new_unp. cbn [fst snd option_map]. exists None. split; [reflexivity|exact Hq]. }
    pose proof (dunpack_spec adj order ranks nodes c HK s0 H0 d HD madj HT up0 dn0 s k HR s1 H1 M0 x v) as DS.
    destruct Hh as [(L & e & He & K & ->)|(L & e & He & K & ->)].
    - specialize (DS e w Ha ltac:(left; auto)). rewrite (proj2 (Nat.ltb_lt x v) L) in *. apply (G true); auto. apply (edge_lt _ _ _ _ He).
    - specialize (DS e w Ha ltac:(right; auto)). rewrite (proj2 (Nat.ltb_ge x v)) in * by lia. apply (G false); auto. apply (edge_lt _ _ _ _ He).
  Qed.
  Lemma dp_fl x e y w : larc (k_links (k_fw kp)) x e y w -> upa A x y w /\ (tight A x y w -> hopk x y e).
  Proof using HK H0 HT HV HR H1 HD M0 HI.
    intros Ha. apply (dp_larc true) in Ha. destruct Ha as (e0 & He & K & -> & ->). destruct (arcA true e0 x y He) as (L & _ & Hb). split; [split; auto|]. intros Ht. eexists. split; [exact Ht|]. left. split; auto. exists e0. auto.
  Qed.
  Lemma dp_bl x e y w : larc (k_links (k_bw kp)) x e y w -> upa (flip_arc A) x y w /\ (tight (flip_arc A) x y w -> hopk y x e).
  Proof using HK H0 HT HV HR H1 HD M0 HI.
    intros Ha. apply (dp_larc false) in Ha. destruct Ha as (e0 & He & K & -> & ->). destruct (arcA false e0 x y He) as (L & _ & Hb). split; [split; auto|]. intros Ht. exists (nth e0 (wi false) 0%N).
    split. { split; [exact Hb|]. intros l Hl. apply Ht. apply walk_flip. auto. } right. split; auto. exists e0. auto.
  Qed.
  Lemma dp_fu x y w : upa A x y w -> tight A x y w -> uarc (k_links (k_fw kp)) x y w.
  Proof using HK H0 HT HV HR H1 HD M0 HI.
    intros [L Ha] Ht. destruct (A_arc x y w Ha) as ([|] & e & Ew & He); [|destruct (arcA _ _ _ _ He); lia].
    exists (cnt (dpm true r) e). apply (dp_larc true). exists e. split; auto. split; [|auto]. eapply (tight_kept true); eauto.
  Qed.
  Lemma dp_bu x y w : upa (flip_arc A) x y w -> tight (flip_arc A) x y w -> uarc (k_links (k_bw kp)) x y w.
  Proof using HK H0 HT HV HR H1 HD M0 HI.
    intros [L Ha] Ht. destruct (A_arc y x w Ha) as ([|] & e & Ew & He); [destruct (arcA _ _ _ _ He); lia|].
    exists (cnt (dpm false r) e). apply (dp_larc false). exists e. split; auto. split; [|auto]. eapply (tight_kept false e x y w); eauto. split; auto. intros l Hl. apply Ht. apply walk_flip. auto.
  Qed.

  (** the server, as in CCHViewProof *)
  Let elim_len : length (k_elim kp) = n := v_eliml _ _ _ _ _ _ _ _ HView.
  Let elim_par : forall x p, nth_error (k_elim kp) x = Some (Some p) -> x < p < n := v_elim _ _ _ _ _ _ _ _ HView.
  Lemma dp_distance_ok sv from to : q_cust sv = kp -> sv_ok adj sv -> from < n -> to < n ->
    exists sv' r, cs_distance sv from to = Some (sv', r) /\ q_cust sv' = kp /\ sv_ok adj sv' /\ exact_answer (adj_arc madj) from to r /\
      forall d, r = Some d -> exists p, path_ready adj order ranks A un hopk sv' from to p /\ npath (adj_arc madj) from p to d /\ NoDup p.
  Proof using HK H0 HT HV HR H1 HD M0 HI.
    intros Ek (S1 & S2 & S3 & S4 & S5 & S6) Hf Ht.
    destruct (vrank_of adj order ranks madj _ _ _ _ HView from Hf) as (x & Ex & Hx & Ox). destruct (vrank_of adj order ranks madj _ _ _ _ HView to Ht) as (y & Ey & Hy & Oy).
    assert (Er : k_ranks kp = ranks) by reflexivity.
    pose proof (dp_up_graph true) as FU. pose proof (dp_up_graph false) as BU. cbn [kg] in FU, BU. fold n in S1, S2, S3, S4, S5, S6.
    unfold cs_distance. rewrite Ek, Er, Ex, Ey. cbn [bind].
    destruct (cq_run_ok n (k_elim kp) elim_len elim_par _ _ FU BU x y Hx Hy (q_fd sv) (q_bd sv) (q_fp sv) (q_bp sv) S1 S2 S3 S4 S5 S6) as ([[[f b] tent] meet] & E & Q).
    rewrite E. cbn [bind]. eexists. eexists. split; [reflexivity|]. split; [reflexivity|].
    split. { destruct (query_all n (k_elim kp) elim_len elim_par _ _ FU BU x y Hx Hy _ _ _ _ Q) as (A1 & A2 & A3 & A4 & A5 & A6). unfold sv_ok. cbn. auto 7. }
    destruct (query_exact n (k_elim kp) elim_len elim_par _ _ FU BU x y Hx Hy _ _ _ _ Q) as (X1 & X2 & X3).
    assert (AM : forall l, walk A x y l -> (tent <= l)%N).
    { apply tight_meets. { apply (un_tri (v_unp _ _ _ _ _ _ _ _ HView)). } intros z a b' Wa Wb. apply X2. exists z, a, b'. split; [|split; [|reflexivity]].
      - revert Wa. apply walk_mono. intros p q w [Q1 Q2]. apply dp_fu; auto.
      - revert Wb. apply walk_mono. intros p q w [Q1 Q2]. apply dp_bu; auto. }
    assert (WM : forall l, walk (adj_arc madj) from to l -> (tent <= l)%N).
    { intros l Hl. destruct (v_walk _ _ _ _ _ _ _ _ HView _ _ _ _ _ Hl Ox Oy) as (l' & Hl' & Ll). pose proof (AM _ Hl'). lia. }
    destruct (N.eqb_spec tent INF) as [->|Ne].
    - split; [exact WM|]. intros dx Hdx; discriminate.
    - assert (Lt : (tent < INF)%N) by lia.
      destruct (query_path n (k_elim kp) elim_len elim_par _ _ FU BU x y Hx Hy A un hopk (v_unp _ _ _ _ _ _ _ _ HView) (v_une _ _ _ _ _ _ _ _ HView)
        ltac:(intros ? ? ? ? _ Hl; apply dp_fl; auto) dp_fu ltac:(intros ? ? ? ? _ Hl; apply dp_bl; auto) dp_bu _ _ _ _ Q Lt AM)
        as (Lf & Fb & C1 & C2 & ND & Hq & NP).
      specialize (NP (fun p q w => forall u v, nth_error order p = Some u -> nth_error order q = Some v -> adj_arc madj u v w) ltac:(intros p q w Ha Hu Hw u v Eu Ev; eapply (v_orig _ _ _ _ _ _ _ _ HView); eauto)).
      destruct (v_order _ _ _ _ _ _ _ _ HView) as (O1 & _ & O2 & _).
      assert (MM : forall l, (forall q, In q l -> q < n) -> exists p, mapM (fun x => nth_error order x) l = Some p).
      { clear -O1. induction l as [|a l IH]; intros H; [exists []; reflexivity|]. cbn. destruct (nth_error_lt order a) as (v & ->). { specialize (H a (or_introl eq_refl)). unfold n in H. lia. }
        destruct IH as (p & ->); [intros; apply H; right; auto|]. eexists; reflexivity. }
      destruct (MM _ Hq) as (p & Ep).
      assert (NP' : npath (adj_arc madj) from p to tent).
      { revert NP Ep Ox Oy. clear. generalize (Lf ++ Fb ++ [y]) as l. intros l NP. revert p from. induction NP as [u|u v t w l' l Ha Hp IH]; intros p from Ep Ox Oy.
        - cbn in Ep. rewrite Ox in Ep. cbn in Ep. injection Ep as <-. rewrite Ox in Oy. injection Oy as <-. constructor.
        - cbn in Ep. rewrite Ox in Ep. cbn [bind] in Ep. destruct (mapM (fun x => nth_error order x) l) as [q|] eqn:El; [|discriminate]. cbn in Ep. injection Ep as <-.
          assert (Hv : exists z, nth_error order v = Some z). { destruct (npath_cons_hd _ _ _ _ _ Hp) as (l0 & ->). cbn in El. destruct (nth_error order v); [eauto|discriminate]. }
          destruct Hv as (z & Ez). econstructor; [apply Ha; eauto|]. apply IH; auto. }
      split; [split; [auto|]; split; [eapply npath_walk; eauto|exact WM]|].
      intros dx Hdx. injection Hdx as <-. exists p. split; [|split; [exact NP'|]].
      + exists x, y, Lf, Fb. cbn [q_fp q_bp q_meet]. auto 8.
      + revert ND Ep. clear -O2. generalize (Lf ++ Fb ++ [y]) as l. intros l. revert p. induction l as [|a l IH]; intros p ND Ep; cbn in Ep. { injection Ep as <-. constructor. }
        destruct (nth_error order a) as [u|] eqn:Ea; [|discriminate]. cbn [bind] in Ep. destruct (mapM (fun x => nth_error order x) l) as [q|] eqn:El; [|discriminate]. cbn in Ep. injection Ep as <-.
        inversion ND; subst. constructor; [|apply IH; auto]. intros Hin. apply H1. destruct (mapM_in _ _ _ El u Hin) as (a' & Ha' & Ea'). apply O2 in Ea, Ea'. congruence.
  Qed.

  Lemma dp_path_ok sv from to p : q_cust sv = kp -> sv_ok adj sv -> path_ready adj order ranks A un hopk sv from to p ->
    exists sv', cs_path sv from to = Some (sv', p) /\ q_cust sv' = kp /\ sv_ok adj sv' /\ path_ready adj order ranks A un hopk sv' from to p.
  Proof using HK H0 HT HV HR H1 HD M0 HI.
    intros Ek (S1 & S2 & S3 & S4 & S5 & S6) (x & y & Lf & Fb & Ex & Ey & C1 & C2 & ND & Hq & Ep).
    assert (Er : k_ranks kp = ranks) by reflexivity.
    assert (Eo : k_order kp = order) by reflexivity.
    pose proof elim_len as Eel. fold n in S1, S2, S3, S4, S5, S6.
    assert (Ln : length (Lf ++ Fb ++ [y]) <= n).
    { apply Nat.le_trans with (length (seq 0 n)); [|rewrite seq_length; lia]. apply NoDup_incl_length; auto. intros q Hi. apply in_seq. specialize (Hq q Hi). lia. }
    rewrite !app_length in Ln. cbn [length] in Ln.
    unfold cs_path. rewrite Ek, Er, Ex, Ey, Eel, Eo. cbn [bind].
    destruct (flip_ok A un hopk n x y (q_fp sv) (q_meet sv) Lf (q_bp sv) Fb (N.of_nat (n + 1)) S4 C1 C2 ND Hq ltac:(lia)) as (bp1 & E1 & L1 & P1).
    rewrite E1. cbn [bind].
    assert (ND' : NoDup ((Lf ++ Fb) ++ [y])) by (rewrite <- app_assoc; auto).
    assert (Hq' : forall q, In q ((Lf ++ Fb) ++ [y]) -> q < n) by (rewrite <- app_assoc; auto).
    destruct (unpack_ok A un hopk (v_unp _ _ _ _ _ _ _ _ HView) (v_unf _ _ _ _ _ _ _ _ HView) kp n dp_spec x y bp1 (Lf ++ Fb) (N.of_nat (2 * n + 1)) L1 P1 ND' Hq' ltac:(rewrite app_length; lia)) as (bp2 & E2 & L2 & P2).
    rewrite E2. cbn [bind]. rewrite (follow_ok A un hopk x y bp2 (Lf ++ Fb) (N.of_nat (n + 1)) P2 ltac:(rewrite app_length; lia)). cbn [bind].
    rewrite <- app_assoc, Ep. cbn [bind]. eexists. split; [reflexivity|]. split; [reflexivity|]. split. { unfold sv_ok. cbn. auto 7. }
    exists x, y, Lf, Fb. cbn [q_fp q_bp q_meet]. split; [auto|]. split; [auto|]. split; [auto|]. split; [|auto].
    destruct (pchain_hd A un hopk _ _ _ _ C2) as (r9 & Eh). eapply ochain_pchain, ochain_split; eauto.
  Qed.
  Lemma dp_paths_ok j : forall sv from to p, q_cust sv = kp -> sv_ok adj sv -> path_ready adj order ranks A un hopk sv from to p ->
    exists sv', cs_paths sv from to j = Some sv' /\ q_cust sv' = kp /\ sv_ok adj sv' /\ path_ready adj order ranks A un hopk sv' from to p.
  Proof using HK H0 HT HV HR H1 HD M0 HI.
    induction j as [|j IH]; intros sv from to p Ek HSv HP; [exists sv; auto|]. cbn [cs_paths].
    destruct (dp_path_ok sv from to p Ek HSv HP) as (sv' & E & Ek' & HSv' & HP'). rewrite E. cbn [bind]. apply IH; auto.
  Qed.
  Lemma dp_new : sv_ok adj (cs_new kp).
  Proof using HK H0 HT HV HR H1 HD M0 HI.
    assert (NN : num_nodes (k_fw kp) = length adj). { unfold num_nodes, kp, dperf, sd, side_at. cbn [k_fw first_out x_fo]. rewrite map_length, seq_length. fold n. lia. }
    unfold sv_ok, cs_new. cbn [q_fd q_bd q_fp q_bp]. rewrite NN.
    repeat split; try apply repeat_length; intros x Hx; rewrite nth_error_repeat, (proj2 (Nat.ltb_lt _ _) Hx); reflexivity.
  Qed.
  Lemma dp_history : forall ops, (forall op, In op ops -> exists from to j, op = OpQuery from to j /\ from < length adj /\ to < length adj) ->
    forall sv, q_cust sv = kp -> sv_ok adj sv -> exists sv', cs_history sv ops = Some sv' /\ q_cust sv' = kp /\ sv_ok adj sv'.
  Proof using HK H0 HT HV HR H1 HD M0 HI.
    induction ops as [|op ops IH]; intros Hops sv Ek Hsv; [exists sv; auto|].
    assert (Hops' : forall op, In op ops -> exists from to j, op = OpQuery from to j /\ from < length adj /\ to < length adj) by (intros o Ho; apply Hops; right; auto).
    destruct (Hops op (or_introl eq_refl)) as (from & to & j & -> & Hf & Ht). unfold cs_history. cbn [foldM cs_do].
    destruct (dp_distance_ok sv from to Ek Hsv Hf Ht) as (sv1 & q & E1 & Ek1 & S1 & _ & P1). rewrite E1. cbn [bind]. destruct q as [dist|].
    - destruct (P1 dist eq_refl) as (p & HP & _ & _). destruct (dp_paths_ok j sv1 from to p Ek1 S1 HP) as (sv2 & E2 & Ek2 & S2 & _). rewrite E2. cbn [bind]. apply (IH Hops' sv2); auto.
    - cbn [bind]. apply (IH Hops' sv1); auto.
  Qed.
End DPV.
