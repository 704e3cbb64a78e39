(** The bidirectional server and its potentials. *)
From Verif Require Import Base SpecPQ SpecGraph IndexHeap IndexHeapProof TsVec TsVecProof Graph Dijkstra LoopProof DijkstraRef DijkstraProof DijServer DijServerProof DijHistProof Bidir BidirProof.

(** What a bidirectional potential with a direction chooser must satisfy. *)
Record bipot_contract {E C} (n : nat) (fwl bwl : nat -> option (list (nat * N))) (bp : bipot E) (ch : chooser C) (T : nat -> nat -> Prop)
  (EI : E -> Prop) (ET : nat -> nat -> E -> Prop) (pf pb : nat -> nat -> nat -> option N) : Prop := {
  bc_init : forall e s t, EI e -> T s t -> exists e', bp_init bp e s t = Some e' /\ ET s t e';
  bc_keep : forall e s t, T s t -> ET s t e -> EI e;
  bc_f : forall s t, T s t -> side_ok n fwl bwl s t (pf s t) (pb s t) (ET s t) (bp_prune_fw bp) (bp_fw bp);
  bc_b : forall s t, T s t -> side_ok n bwl fwl t s (pb s t) (pf s t) (ET s t) (bp_prune_bw bp) (bp_bw bp);
  bc_ch : forall s t, T s t -> choice_ok (garc fwl) s t (pf s t) (pb s t) (ET s t) (bp_stop bp) ch }.

Section Server.
  Context {E C : Type}.
  Variable n : nat.
  Variable fwl bwl : nat -> option (list (nat * N)).
  Variable bp : bipot E.
  Variable ch : chooser C.
  Variable T : nat -> nat -> Prop.
  Variable EI : E -> Prop.
  Variable ET : nat -> nat -> E -> Prop.
  Variable pf pb : nat -> nat -> nat -> option N.
  Hypothesis BC : bipot_contract n fwl bwl bp ch T EI ET pf pb.

  Definition BsOK (sv : bserver E) : Prop := Ready n (bs_fw sv) /\ Ready n (bs_bw sv) /\ EI (bs_pot sv).
  Lemma bs_new_ok e : EI e -> BsOK (bs_new n e).
  Proof. intros H. split; [apply new_Ready|]. split; auto. apply new_Ready. Qed.

  (** the query may also run on links that differ at nodes that are never reached *)
  Lemma settle_agree {E0} (links links' : nat -> option (list (nat * N))) pi s0 prune pot other maxd d st (e : E0 * N * nat) :
    R n d st -> GInv n fst def_pl all_edges (snb links) sslk pi s0 0%N n [] st -> (forall u l, walk (garc links) s0 u l -> links' u = links u) ->
    bd_settle links' prune pot other maxd d e = bd_settle links prune pot other maxd d e.
  Proof using Type.
    clear. intros HR G HA. pose proof HR as [_ _ _ RH RQ]. unfold bd_settle, settle.
    destruct (hpop_spec state st_idx st_ltb st_order n (d_queue d) RH) as [[EP ED]|(q & [k u] & EP & Iq & [Hm _] & Aq)]; rewrite EP; cbn [bind]; auto.
    cbn [st_idx snd] in Hm. rewrite RQ in Hm. unfold st_idx in Hm; cbn [snd] in Hm. destruct (aQ st u) as [k0|] eqn:Hq; cbn in Hm; [|discriminate].
    destruct (g_key _ _ _ _ _ _ _ _ _ _ _ _ G u k0 Hq) as [HL _]. pose proof (g_acc _ _ _ _ _ _ _ _ _ _ _ _ G u HL) as HR'. apply reach_walk in HR' as (l & W & _).
    rewrite (HA u l W). auto.
  Qed.

  Lemma bd_query_agree fwl' bwl' sv s t c : BsOK sv -> T s t ->
    (forall u l, walk (garc fwl) s u l -> fwl' u = fwl u) -> (forall u l, walk (garc bwl) t u l -> bwl' u = bwl u) ->
    exists sv' r, bd_distance_cap n fwl' bwl' bp ch sv s t c = Some (sv', r) /\ BsOK sv' /\ capped_answer (garc fwl) s t c r /\
      forall x, r = Some x -> exists p y, bd_node_path sv' s t = Some p /\ npath (garc fwl) s p t y /\ (y <= x)%N.
  Proof.
    intros (HF & HB & HE) HT AF AB. pose proof (bc_f _ _ _ _ _ _ _ _ _ _ BC s t HT) as SOf. pose proof (bc_b _ _ _ _ _ _ _ _ _ _ BC s t HT) as SOb.
    pose proof (bc_ch _ _ _ _ _ _ _ _ _ _ BC s t HT) as CO. pose proof (sd_s1 _ _ _ _ _ _ _ _ _ _ SOf) as Hs. pose proof (sd_s1 _ _ _ _ _ _ _ _ _ _ SOb) as Ht.
    pose proof (sd_wf1 _ _ _ _ _ _ _ _ _ _ SOf) as WF. assert (I0 : (0 < INF)%N) by (unfold INF; lia).
    unfold bd_distance_cap. destruct (init_refines n (bs_fw sv) s 0%N HF Hs) as (df & pr1 & E1 & R1). rewrite E1. cbn [bind].
    destruct (init_refines n (bs_bw sv) t 0%N HB Ht) as (db & pr2 & E2 & R2). rewrite E2. cbn [bind].
    destruct (bc_init _ _ _ _ _ _ _ _ _ _ BC (bs_pot sv) s t HE HT) as (e & E3 & T3). rewrite E3. cbn [bind].
    (* the shortest walk, if any *)
    assert (DI : exists L k xs f g, ((L < INF)%N -> path_data (garc fwl) s t k xs f g L) /\ forall l, walk (garc fwl) s t l -> (l < INF)%N -> (L <= l)%N).
    { destruct (plain_history n fwl WF [] (Forall_nil _)) as (sv0 & Eh).
      destruct (plain_query n fwl WF [] sv0 s t (Forall_nil _) Eh Hs) as (_ & r & _ & X & _). destruct r as [d|].
      - destruct X as [_ X]. destruct (pd_of_walk _ _ _ _ X) as (k & xs & f & g & PD). exists d, k, xs, f, g. split; auto. intros l Hl _. apply X. auto.
      - exists INF, 0, (fun _ => 0), (fun _ => 0%N), (fun _ => 0%N). split; [lia|]. intros l Hl HI. specialize (X l Hl). lia. }
    destruct DI as (L & k & xs & f & g & HPD & HMIN).
    set (stf := initA (P := unit) s 0%N pr1) in *. set (stb := initA (P := unit) t 0%N pr2) in *.
    assert (LB2 : forall v, (aD stb v <= INF)%N). { intros v. subst stb. cbn. unfold fupd. destruct (v =? t); unfold INF; lia. }
    assert (LB1 : forall v, (aD stf v <= INF)%N). { intros v. subst stf. cbn. unfold fupd. destruct (v =? s); unfold INF; lia. }
    pose proof (GInv_init (pl:=def_pl) (side_total_ok n fwl bwl s t _ _ _ _ _ c db stb SOf R2 LB2) Hs I0 pr1) as G1.
    pose proof (GInv_init (pl:=def_pl) (side_total_ok n bwl fwl t s _ _ _ _ _ c df stf SOb R1 LB1) Ht I0 pr2) as G2.
    pose proof (M_init (pl:=def_pl) (side_total_ok n fwl bwl s t _ _ _ _ _ c db stb SOf R2 LB2) Hs I0 pr1) as M1.
    pose proof (M_init (pl:=def_pl) (side_total_ok n bwl fwl t s _ _ _ _ _ c df stf SOb R1 LB1) Ht I0 pr2) as M2.
    destruct (loopN_ghost (bd_step fwl' bwl' bp ch s t c) (BI n fwl bwl ch s t (pf s t) (pb s t) (ET s t) c k xs f g L) (BQ n fwl bwl s t (pf s t) (pb s t) (ET s t) c L)
      (fun gs => M n (fst gs) + M n (snd gs))%N (bd_fuel n) (stf, stb) (df, db, (e, INF, bs_meet sv), ch_init ch)) as ([[[df' db'] [[e' tent'] m']] r] & E4 & (stf' & stb' & Rf & Rb & GF & GB & HE' & Q1 & Q2)).
    - intros gs x HBI.
      assert (EQ : bd_step fwl' bwl' bp ch s t c x = bd_step fwl bwl bp ch s t c x).
      { destruct gs as [sf sb], x as [[[df0 db0] [[e0 tent0] m0]] c0]. destruct HBI as (RF & RB & GF & GB & _). unfold bd_step.
        destruct (if ch_may_stop ch c0 then _ else _) as [[]|]; cbn [bind]; auto. destruct (ch_choose ch c0 _ _) as [c' []].
        - rewrite (settle_agree fwl fwl' _ _ _ _ _ _ _ _ _ RF GF AF). auto.
        - rewrite (settle_agree bwl bwl' _ _ _ _ _ _ _ _ _ RB GB AB). auto. }
      rewrite EQ. eapply loop_step; eauto.
    - split; auto. split; auto. split; auto. split; auto. destruct (Nat.eq_dec s t) as [Est|Hne].
      + right. repeat split; auto. exists pr1, pr2. split; reflexivity.
      + left. split; auto. split. 2: { rewrite (co_init _ _ _ _ _ _ _ _ CO). discriminate. }
        split; auto; try lia.
        * intros v. cbn. unfold fupd. destruct (Nat.eqb_spec v s), (Nat.eqb_spec v t); subst; try congruence; unfold INF; lia.
        * intros HL. pose proof (HPD ltac:(lia)) as [P0 Pk F0 Gk _ _ _ _]. exists 0, k. split; [lia|]. cbn. rewrite P0, Pk, !fupd_eq, F0, Gk.
          repeat split; auto; discriminate.
    - cbn [fst snd]. unfold bd_fuel. subst stf stb. lia.
    - rewrite E4. cbn [bind]. exists (mkBS df' db' m' e'), r. split; auto. split. { split; [|split]; cbn. { eapply R_Ready; eauto. } { eapply R_Ready; eauto. } eapply bc_keep; eauto. }
      split. { split. { intros x Hx. destruct (Q1 x Hx) as (A1 & A2 & _). auto. } intros l Hl HI Hc. specialize (HMIN l Hl HI). destruct (Q2 ltac:(lia) ltac:(lia)) as (x & -> & Hx). exists x. split; auto. lia. }
      intros x Hx. destruct (Q1 x Hx) as (A1 & A2 & A3).
      assert (LB2' : forall v, (aD stb' v <= INF)%N) by (intros v; pose proof (g_le _ _ _ _ _ _ _ _ _ _ _ _ GB v); lia).
      assert (LB1' : forall v, (aD stf' v <= INF)%N) by (intros v; pose proof (g_le _ _ _ _ _ _ _ _ _ _ _ _ GF v); lia).
      destruct (paths_ok (pl:=def_pl) (side_total_ok n fwl bwl s t _ _ _ _ _ c db' stb' SOf Rb LB2') Hs I0 df' stf' m' Rf GF ltac:(lia)) as (p1 & q1 & y1 & P1 & _ & L1 & RP1 & _).
      destruct (paths_ok (pl:=def_pl) (side_total_ok n bwl fwl t s _ _ _ _ _ c df' stf' SOb Rf LB1') Ht I0 db' stb' m' Rb GB ltac:(lia)) as (p2 & q2 & y2 & P2 & _ & L2 & RP2 & _).
      unfold bd_node_path, node_path in *. cbn [bs_fw bs_bw bs_meet] in *.
      destruct (back_nodes (length (d_pred df')) (d_pred df') s m') as [a|]; [|discriminate]. cbn [bind] in *. injection P1 as P1.
      destruct (back_nodes (length (d_pred db')) (d_pred db') t m') as [b|]; [|discriminate]. cbn [bind] in *. injection P2 as P2.
      assert (N1 : npath (garc fwl) s p1 m' y1).
      { eapply rp_npath; [|exact RP1]. intros u d l v d' (Hu & ar & Ha & _ & <- & <- & _). exists (snd ar). split; auto. apply snb_in; auto. }
      assert (N2 : npath (garc bwl) t p2 m' y2).
      { eapply rp_npath; [|exact RP2]. intros u d l v d' (Hu & ar & Ha & _ & <- & <- & _). exists (snd ar). split; auto. apply snb_in; auto. }
      apply npath_rev in N2. apply (npath_mono _ (garc fwl)) in N2. 2: { intros u v w H. apply (sd_flip _ _ _ _ _ _ _ _ _ _ SOb). exact H. }
      rewrite <- P2, rev_involutive in N2. destruct (npath_hd _ _ _ _ _ N2) as (b' & ->). cbn [tl].
      exists (rev a ++ b'), (y1 + y2)%N. split; auto. split; [|lia]. eapply npath_app; eauto. rewrite P1. auto.
  Qed.

  Lemma bd_query_ok sv s t c : BsOK sv -> T s t ->
    exists sv' r, bd_distance_cap n fwl bwl bp ch sv s t c = Some (sv', r) /\ BsOK sv' /\ capped_answer (garc fwl) s t c r /\
      forall x, r = Some x -> exists p y, bd_node_path sv' s t = Some p /\ npath (garc fwl) s p t y /\ (y <= x)%N.
  Proof. intros H1 H2. apply bd_query_agree; auto. Qed.

  Lemma bd_history_ok e qs : EI e -> Forall (fun q => T (fst (fst q)) (snd (fst q))) qs ->
    exists sv, bd_history n fwl bwl bp ch (bs_new n e) qs = Some sv /\ BsOK sv.
  Proof.
    intros He. generalize (bs_new_ok e He). generalize (bs_new n e). unfold bd_history. induction qs as [|[[s t] c] qs IH]; intros sv Hsv Hqs. { exists sv. auto. }
    inversion Hqs as [|? ? H1 H2]; subst. cbn [fst snd] in H1. cbn [foldM]. destruct (bd_query_ok sv s t c Hsv H1) as (sv' & r & E1 & OK & _).
    rewrite E1. cbn [bind]. apply IH; auto.
  Qed.

  (** Exact answers and paths after any history; the answer does not depend on the history. *)
  Lemma bd_exact e qs sv s t : EI e -> Forall (fun q => T (fst (fst q)) (snd (fst q))) qs -> bd_history n fwl bwl bp ch (bs_new n e) qs = Some sv -> T s t ->
    exists sv' r, bd_distance n fwl bwl bp ch sv s t = Some (sv', r) /\ exact_answer (garc fwl) s t r /\
      forall x, r = Some x -> exists p, bd_node_path sv' s t = Some p /\ npath (garc fwl) s p t x /\ bd_edge_path sv' s t = Some (length p - 1).
  Proof.
    intros He Hqs Eh HT. destruct (bd_history_ok e qs He Hqs) as (sv1 & E1 & OK). rewrite Eh in E1. injection E1 as <-.
    destruct (bd_query_ok sv s t INF OK HT) as (sv' & r & E1 & OK' & CA & PA). exists sv', r. split; auto. pose proof (capped_exact _ _ _ _ CA) as EX. split; auto.
    intros x ->. destruct (PA x eq_refl) as (p & y & P1 & P2 & P3). exists p. split; auto.
    assert (y = x). { destruct EX as (_ & _ & X). specialize (X _ (npath_walk _ _ _ _ _ P2)). lia. } subst y. split; auto.
    unfold bd_edge_path. rewrite P1. cbn [bind]. destruct (npath_hd _ _ _ _ _ P2) as (q & ->). auto.
  Qed.
  Lemma bd_capped e qs sv s t c : EI e -> Forall (fun q => T (fst (fst q)) (snd (fst q))) qs -> bd_history n fwl bwl bp ch (bs_new n e) qs = Some sv -> T s t ->
    exists sv' r, bd_distance_cap n fwl bwl bp ch sv s t c = Some (sv', r) /\ capped_answer (garc fwl) s t c r.
  Proof.
    intros He Hqs Eh HT. destruct (bd_history_ok e qs He Hqs) as (sv1 & E1 & OK). rewrite Eh in E1. injection E1 as <-.
    destruct (bd_query_ok sv s t c OK HT) as (sv' & r & E1 & OK' & CA & PA). eauto.
  Qed.
End Server.

(** * Zero potential *)
Section Zero.
  Variable n : nat.
  Variable fwl bwl : nat -> option (list (nat * N)).
  Hypothesis WF1 : wf_links n fwl.
  Hypothesis WF2 : wf_links n bwl.
  Hypothesis FL : forall u v w, garc bwl v u w <-> garc fwl u v w.
  Definition both_lt (s t : nat) : Prop := s < n /\ t < n.
  Definition zpi (_ _ _ : nat) : option N := Some 0%N.

  Lemma zero_side l1 l2 s t : wf_links n l1 -> wf_links n l2 -> (forall u v w, garc l2 v u w <-> garc l1 u v w) -> s < n -> t < n ->
    side_ok n l1 l2 s t (zpi s t) (zpi s t) (fun _ : unit => True) (fun e _ _ _ _ => Some (e, false)) (fun e _ => Some (e, Some 0%N)).
  Proof.
    intros W1 W2 F Hs Ht. assert (SM : small_pot (zpi s t)) by (intros v p [= <-]; unfold INF; lia). split; auto.
    - intros e v _ _. exists e. auto.
    - intros. unfold zpi. split; discriminate.
    - intros e v x rm mu _ _ _ _ _. exists e, false. split; auto. split; auto. discriminate.
  Qed.

  Lemma zero_key kf : key_ok (zpi 0 0) kf -> forall k, kf = Some k -> (k < INF)%N.
  Proof. intros H k Hk. destruct (H k Hk) as [->|(v & p & a & [= <-] & Ha & ->)]; unfold INF in *; lia. Qed.

  Lemma zero_choice {C} (ch : chooser C) s t :
    (forall c c' dir k1 k2, ch_may_stop ch c = true -> ch_choose ch c (Some k1) (Some k2) = (c', dir) -> dir = true \/ ch_may_stop ch c' = true) ->
    (forall c kf kb c' dir, ch_may_stop ch c = false -> kb <> None -> ch_choose ch c kf kb = (c', dir) -> dir = false /\ ch_may_stop ch c' = true) ->
    ch_may_stop ch (ch_init ch) = true ->
    choice_ok (garc fwl) s t (zpi s t) (zpi s t) (fun _ : unit => True) (bp_stop zero_bipot) ch.
  Proof.
    intros H1 H2 H3. split; auto.
    - intros e kf kb mu _ Hmu KF KB. cbn. destruct kf as [k1|]; [|exists true; split; auto; discriminate]. destruct kb as [k2|]; [|exists true; split; auto; discriminate].
      pose proof (zero_key _ KF k1 eq_refl). pose proof (zero_key _ KB k2 eq_refl). rewrite cadd_ok by (unfold INF, U32 in *; lia). cbn [bind].
      eexists; split; [reflexivity|]. intros Hb k1' k2' [= <-] [= <-] u v l1 l2 l3 p q _ _ _ _ _ [= <-] [= <-] A1 A2. apply N.leb_le in Hb. lia.
    - intros e kf kb mu c c' dir _ Hmu KF KB Hne Hm Es Ec. cbn in Es. destruct kf as [k1|]; [|discriminate]. destruct kb as [k2|]; [|discriminate].
      pose proof (zero_key _ KF k1 eq_refl). pose proof (zero_key _ KB k2 eq_refl). rewrite cadd_ok in Es by (unfold INF, U32 in *; lia). cbn [bind] in Es. injection Es as Es.
      assert (TF : ~ term (garc fwl) s t (zpi s t t) (Some k1) mu). { intros (k & y & p & [= <-] & [= <-] & -> & _ & _ & Hle). apply N.leb_gt in Es. lia. }
      assert (TB : ~ term (garc fwl) s t (zpi s t s) (Some k2) mu). { intros (k & y & p & [= <-] & [= <-] & -> & _ & _ & Hle). apply N.leb_gt in Es. lia. }
      destruct (H1 c c' dir k1 k2 Hm Ec) as [->|Hc]. { split; [discriminate|]. split; auto. intros _. split; auto. discriminate. }
      destruct dir; split; try discriminate; split; auto. congruence.
  Qed.

  Lemma zero_bipot_contract {C} (ch : chooser C) :
    (forall c c' dir k1 k2, ch_may_stop ch c = true -> ch_choose ch c (Some k1) (Some k2) = (c', dir) -> dir = true \/ ch_may_stop ch c' = true) ->
    (forall c kf kb c' dir, ch_may_stop ch c = false -> kb <> None -> ch_choose ch c kf kb = (c', dir) -> dir = false /\ ch_may_stop ch c' = true) ->
    ch_may_stop ch (ch_init ch) = true ->
    bipot_contract n fwl bwl zero_bipot ch both_lt (fun _ => True) (fun _ _ _ => True) zpi zpi.
  Proof.
    intros H1 H2 H3. split; auto.
    - intros e s t _ _. exists e. auto.
    - intros s t [Hs Ht]. apply zero_side; auto.
    - intros s t [Hs Ht]. apply (zero_side bwl fwl t s); auto. intros u v w. split; intros H; apply FL; auto.
    - intros s t [Hs Ht]. apply zero_choice; auto.
  Qed.
  Lemma zero_min_key : bipot_contract n fwl bwl zero_bipot min_key_dir both_lt (fun _ => True) (fun _ _ _ => True) zpi zpi.
  Proof. apply zero_bipot_contract; cbn; auto. discriminate. Qed.
  Lemma zero_alternating : bipot_contract n fwl bwl zero_bipot alternating_dirs both_lt (fun _ => True) (fun _ _ _ => True) zpi zpi.
  Proof.
    apply zero_bipot_contract; cbn; auto.
    - intros c c' dir k1 k2 Hc [= <- <-]. auto.
    - intros c kf kb c' dir Hc Hk [= <- <-]. destruct c; [|discriminate]. cbn. destruct kb; [|congruence]. destruct kf; auto.
  Qed.
End Zero.
