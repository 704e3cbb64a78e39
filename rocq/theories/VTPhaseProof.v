(** The three phases of a topocore query with core phase (model VTopo.v): searches that resume from one node inside a
    closed part of the graph. *)
From Verif Require Import Base SpecPQ SpecGraph Graph NodeOrder IndexHeap IndexHeapProof TsVec TsVecProof Dijkstra DijkstraRef DijkstraProof DijServer DijServerProof LoopProof DijOrderProof PLF TopoDij TopoDijProof SpecTopo TopoServerProof VTopo.

(** reinit_queue *)
Lemma reinit_ok {P} n (d : dij P) st v : R n d st -> v < n ->
  exists d', topo_reinit d v = Some d' /\ R n d' (mkA (aD st) (aD st) (aP st) (fupd (fun _ => None) v (Some (aD st v)))).
Proof.
  intros HR Hv. unfold topo_reinit, hclear. pose proof (R_get n d st v HR Hv) as G. destruct HR as [RD RL RP RH RQ].
  destruct (hclear_spec state st_idx st_ltb n (d_queue d) RH) as (P' & EP & I' & A'). rewrite EP; cbn [bind]. rewrite G. cbn [bind].
  destruct (hpush_spec state st_idx st_ltb st_order n (mkHeap P' []) (aD st v, v) I') as (q & Eq & Iq & Aq); auto.
  rewrite Eq; cbn [bind]. eexists. split; [reflexivity|]. split; cbn [d_dist d_pred d_queue aD aP aQ]; auto.
  intros w. rewrite Aq. unfold put, fupd, st_idx; cbn [snd]. rewrite A'. destruct (Nat.eqb_spec w v) as [->|]; auto.
Qed.

(** paths that continue at the node where another one ends *)
Lemma npath_app arc a p b l : npath arc a p b l -> forall p' c l', npath arc b p' c l' -> npath arc a (p ++ tl p') c (l + l').
Proof.
  induction 1 as [u|u v t w l p Ha H IH]; intros p' c l' H'.
  - rewrite N.add_0_l. destruct H'; cbn [tl app]; [constructor|econstructor; eauto].
  - cbn [app]. rewrite <- N.add_assoc. econstructor; eauto.
Qed.
Lemma chain_hd {P} s (Pr : nat -> nat * P) v p q : DijkstraProof.chain s Pr v p q -> exists p', p = s :: p' /\ length p' = length q.
Proof.
  induction 1 as [|v u l p q Hv Hp H (p' & -> & IH)]. { exists []. auto. }
  exists (p' ++ [v]). split; auto. rewrite !app_length. cbn. lia.
Qed.
Lemma chain_app {P} s (Pr : nat -> nat * P) u p q : DijkstraProof.chain s Pr u p q ->
  forall v p' q', DijkstraProof.chain u Pr v p' q' -> (forall y, In y p' -> y = s -> y = u) -> DijkstraProof.chain s Pr v (p ++ tl p') (q ++ q').
Proof.
  intros H v p' q' H'. induction H' as [|v w l p' q' Hv Hp H' IH]; intros HN. { cbn [tl]. rewrite !app_nil_r. auto. }
  destruct (chain_hd _ _ _ _ _ H') as (p2 & -> & _). cbn [tl app] in *. rewrite !app_assoc.
  apply (DijkstraProof.chain_step _ _ v w l); auto. { intros ->. apply Hv. apply HN; auto. right. apply in_or_app. right. left. auto. }
  apply IH. intros y Hy. apply HN. destruct Hy; [left; auto|right; apply in_or_app; auto].
Qed.
Lemma chain_ext {P} s (Pr Pr' : nat -> nat * P) v p q : DijkstraProof.chain s Pr v p q -> (forall y, In y p -> y <> s -> Pr' y = Pr y) -> DijkstraProof.chain s Pr' v p q.
Proof.
  induction 1 as [|v u l p q Hv Hp H IH]; intros HE. { constructor. }
  apply (DijkstraProof.chain_step _ _ v u l); auto. { rewrite HE; auto. apply in_or_app. right. left. auto. }
  apply IH. intros y Hy. apply HE. apply in_or_app. auto.
Qed.

Section Phase.
  Context {E : Type}.
  Variable n : nat.
  Variable links : nat -> option (list (nat * N)).
  Variable sdeg : nat -> option symdeg.
  Variables skip2 skip3 : bool.
  Variable pinit : E -> nat -> option E.
  Variable pget : E -> nat -> option (E * option N).
  Variable EI : E -> Prop.
  Variable ET : nat -> E -> Prop.
  Variable h : nat -> nat -> option N.
  Hypothesis WF : wf_links n links.
  Hypothesis HP : pot_contract n (fun t => t < n) pinit pget EI ET h.
  Hypothesis HD : degree_report n links sdeg.
  Variable t : nat.
  Hypothesis Hpi : forall v p, h t v = Some p -> (p + INF < U32)%N.
  Variables (s : nat) (d0 : N).
  Hypothesis Hs : s < n.
  Hypothesis Hd0 : (d0 < INF)%N.
  Variable V : nat -> bool.
  Variables (fD : nat -> N) (fP : nat -> nat * unit) (Cl : nat -> Prop) (ps : nat * unit).
  Hypothesis HVs : V s = true.
  Hypothesis HVc : forall u v w, garc links u v w -> V u = true -> V v = true.
  Let L1 := snb_links n links WF.
  Let L2 := snb_hd n links WF.
  Let L3 := snb_lk n links WF.
  Let L4 := sslk_mono n links.
  Let L5 := sslk_ext n links.

  Set Default Proof Using "All".
  Let oth u v : v < n -> others fst u (snb links v) = out_other links u v.
  Proof. intros Hv. unfold others, out_other. rewrite (L1 v Hv). reflexivity. Qed.
  Let D1 := proj1 HD.
  Let D2 : forall u a, u < n -> In a (snb links u) -> skip2 = true -> sdeg (fst a) = Some LessEqTwo -> length (others fst u (snb links (fst a))) <= 1.
  Proof. intros u (v, w) Hu Ha _ Hd. cbn [fst] in *. rewrite oth by (apply (L2 u (v, w) Hu Ha)). apply (proj2 HD u v w Hu); auto. exists (snb links u). split; auto. Qed.
  Let D3 : forall u a, u < n -> In a (snb links u) -> skip3 = true -> sdeg (fst a) = Some Three -> length (others fst u (snb links (fst a))) <= 2.
  Proof. intros u (v, w) Hu Ha _ Hd. cbn [fst] in *. rewrite oth by (apply (L2 u (v, w) Hu Ha)). apply (proj2 HD u v w Hu); auto. exists (snb links u). split; auto. Qed.
  Let HS := skip_search_ok n links fst def_lk def_pl sdeg skip2 skip3 pinit pget (snb links) sslk (fun t => t < n) EI ET h L1 L2 L3 L4 L5 HP D1 D2 D3 s t d0 Hpi.
  Let HVc' : forall u a, u < n -> V u = true -> In a (snb links u) -> V (fst a) = true.
  Proof. intros u a Hu Hv Ha. apply (HVc u (fst a) (snd a)); auto. apply snb_in; auto. Qed.

  Definition PI : ast unit -> Prop := TopoInv n fst def_pl sdeg skip2 (snb links) sslk (h t) s d0 Cl ps [].

  Lemma p_start pr : pr s = ps -> PI (startA s d0 pr).
  Proof. apply (TopoInv_start n links fst def_lk def_pl sdeg skip2 skip3 pget (snb links) sslk (h t) s d0 _ HS Hs Hd0 D1 D2 D3 V fD fP Cl ps HVs HVc'). Qed.

  Lemma p_skip x tp cap d e st0 : RV n V fD fP d st0 -> PI st0 -> ET t e -> x < n -> (label_of V fD fP st0 x <= INF)%N -> (tp + INF < U32)%N ->
    exists d' e' st', skip_loop n links fst def_lk def_pl sdeg skip2 skip3 pget x tp cap d e = Some (d', e') /\ RV n V fD fP d' st' /\ PI st' /\ ET t e' /\
      forall v k, aQ st' v = Some k -> (label_of V fD fP st' x + tp <= k \/ cap < k)%N.
  Proof. apply (skip_loop_ok n links fst def_lk def_pl sdeg skip2 skip3 pget (snb links) sslk (h t) s d0 _ HS Hs Hd0 D1 D2 D3 V fD fP Cl ps HVs HVc'). Qed.

  (** the loops of the component searches *)
  Definition cloop (x : nat) (p : N) (d : dij unit) (e : E) : option (dij unit * E) :=
    loopN (dij_fuel n) (fun '(d, e) =>
      '(d', e', o) <- topo_settle n links fst def_lk def_pl sdeg skip2 skip3 no_cb pget d e ;;
      match o with
      | None => Some (inr (d', e'))
      | Some _ =>
          match hpeek (d_queue d') with
          | Some (k, _) => y <- ts_get N INF (d_dist d') x ;; b <- cadd y p ;; if (b <=? k)%N then Some (inr (d', e')) else Some (inl (d', e'))
          | None => Some (inr (d', e'))
          end
      end) (d, e).
  Lemma p_loop x p d e st0 : RV n V fD fP d st0 -> PI st0 -> ET t e -> x < n -> (label_of V fD fP st0 x <= INF)%N -> (p + INF < U32)%N ->
    exists d' e' st', cloop x p d e = Some (d', e') /\ RV n V fD fP d' st' /\ PI st' /\ ET t e' /\
      forall v k, aQ st' v = Some k -> (label_of V fD fP st' x + p <= k)%N.
  Proof.
    intros HR HT HJ Hx Hlt Hp. unfold cloop. set (step := fun _ : dij unit * E => _).
    set (I := fun st '(d, e) => RV n V fD fP d st /\ PI st /\ ET t e).
    set (Q := fun '(d', e') => exists st', RV n V fD fP d' st' /\ PI st' /\ ET t e' /\ forall v k, aQ st' v = Some k -> (label_of V fD fP st' x + p <= k)%N).
    assert (HL : forall st, PI st -> (label_of V fD fP st x <= INF)%N).
    { intros st T. unfold label_of in *. cbn [merge aD] in *. destruct (V x); auto. apply (t_D _ _ _ _ _ _ _ _ _ _ _ _ _ _ T x). }
    destruct (loopN_ghost step I Q (fun st => M n st) (dij_fuel n) st0 (d, e)) as ((d' & e') & E1 & st' & H).
    - intros st (d1 & e1) (R1 & T1 & J1). unfold step.
      destruct (topo_settle_ok n links fst def_lk def_pl sdeg skip2 skip3 pget (snb links) sslk (h t) s d0 _ HS Hs Hd0 D1 D2 D3 V fD fP Cl ps HVs HVc' d1 e1 st R1 T1 J1) as [(HQ & d2 & E2 & R2)|(u & d2 & e2 & st2 & E2 & R2 & T2 & J2 & M2)]; rewrite E2; cbn [bind].
      + eexists; split; [reflexivity|]. exists st. split; auto. split; auto. split; auto. intros v k. rewrite HQ. discriminate.
      + pose proof (V_peek n links fst def_lk def_pl sdeg skip2 skip3 pget (snb links) sslk (h t) s d0 _ HS Hs Hd0 D1 D2 D3 V fD fP Cl ps HVs HVc' d2 st2 R2) as PK. destruct (hpeek (d_queue d2)) as [(k & w)|].
        * rewrite (V_get n links fst def_lk def_pl sdeg skip2 skip3 pget (snb links) sslk (h t) s d0 _ HS Hs Hd0 D1 D2 D3 V fD fP Cl ps HVs HVc' d2 st2 x R2 Hx). cbn [bind]. change (if V x then aD st2 x else fD x) with (label_of V fD fP st2 x). pose proof (HL st2 T2). rewrite cadd_ok by lia. cbn [bind].
          destruct (label_of V fD fP st2 x + p <=? k)%N eqn:Ec.
          -- eexists; split; [reflexivity|]. exists st2. split; auto. split; auto. split; auto. intros v k' Hk'. destruct PK as [_ PK]. specialize (PK v k' Hk'). lia.
          -- eexists; split; [reflexivity|]. exists st2. cbn. auto.
        * eexists; split; [reflexivity|]. exists st2. cbn. split; auto. split; auto. split; auto. intros v k Hk. rewrite PK in Hk. discriminate.
    - cbn. auto.
    - cbn. pose proof (M_bound n links fst def_lk def_pl sdeg skip2 skip3 pget (snb links) sslk (h t) s d0 _ HS Hs Hd0 D1 D2 D3 V fD fP Cl ps HVs HVc' _ _ HT). unfold dij_fuel. lia.
    - exists d', e', st'. auto.
  Qed.

  Lemma p_exact x tp cap st : (forall v, Cl v) -> PI st -> V x = true -> feasible_pot (garc links) t (h t) -> h t x = Some tp ->
    (forall v k, aQ st v = Some k -> (label_of V fD fP st x + tp <= k \/ cap < k)%N) ->
    forall l, walk (garc links) s x l -> (d0 + l < INF)%N -> (d0 + l + tp <= cap)%N -> (aD st x <= d0 + l)%N.
  Proof.
    intros HCl T HVx HF Htp HK l W Hl Hc.
    apply (topo_exact n links fst def_lk def_pl sdeg skip2 skip3 pget (snb links) sslk (h t) s d0 _ HS Hs Hd0 D1 D2 D3 V fD fP Cl ps HVs HVc' x tp cap st HCl T); auto.
    - apply admissible_static. intros u l' W' _. destruct (feasible_walk _ _ _ HF u x l' tp W' Htp) as (p & Hp & Hle). exists p. split; auto. intros q Hq. assert (q = tp) by congruence. subst. auto.
    - intros v k Hq. specialize (HK v k Hq). unfold label_of in HK. cbn [merge aD] in HK. rewrite HVx in HK. auto.
    - apply walk_reach; auto.
  Qed.

  Lemma p_D st v : PI st -> (d0 <= aD st v <= INF)%N.
  Proof. intros T. apply (t_D _ _ _ _ _ _ _ _ _ _ _ _ _ _ T). Qed.
  Lemma p_s st : PI st -> aD st s = d0 /\ aP st s = ps.
  Proof. intros T. split; [apply (t_s _ _ _ _ _ _ _ _ _ _ _ _ _ _ T)|apply (t_sp _ _ _ _ _ _ _ _ _ _ _ _ _ _ T)]. Qed.
  Lemma p_walk st v : PI st -> (aD st v < INF)%N -> exists l, walk (garc links) s v l /\ aD st v = (d0 + l)%N.
  Proof. intros T H. apply (reach_walk n links). apply (t_reach _ _ _ _ _ _ _ _ _ _ _ _ _ _ T v H). Qed.
  Lemma p_V st v : PI st -> (aD st v < INF)%N -> V v = true.
  Proof. intros T H. apply (t_V n links fst def_lk def_pl sdeg skip2 skip3 pget (snb links) sslk (h t) s d0 _ HS Hs Hd0 D1 D2 D3 V fD fP Cl ps HVs HVc' _ st v T H). Qed.
  Lemma p_path st v : PI st -> (aD st v < INF)%N -> exists p q l, DijkstraProof.chain s (aP (merge V fD fP st)) v p q /\ npath (garc links) s p v l /\ (d0 + l <= aD st v)%N /\ (forall y, In y p -> V y = true /\ y < n).
  Proof.
    intros T H. destruct (topo_chain n links fst def_lk def_pl sdeg skip2 skip3 pget (snb links) sslk (h t) s d0 _ HS Hs Hd0 D1 D2 D3 V fD fP Cl ps HVs HVc' st v T H) as (p & q & x & C1 & C2 & C3 & C4).
    assert (X : exists l, npath (garc links) s p v l /\ x = (d0 + l)%N).
    { clear -C3. induction C3 as [|v d l y d' p q H (l0 & IH1 & IH2) (Hu & a & Ha & _ & <- & <- & _)].
      - exists 0%N. split; [constructor|lia].
      - exists (l0 + snd a)%N. split; [|unfold sslk in *; lia]. apply (npath_app _ s p v l0 IH1 [v; fst a]). rewrite <- (N.add_0_r (snd a)). econstructor; [apply snb_in; exact Ha|constructor]. }
    destruct X as (l & X1 & X2). exists p, q, l. split; auto. split; auto. split; auto. lia.
  Qed.
  (** back to the source *)
  Lemma p_requeue st (Cl' := fun _ : nat => False) : PI st -> TopoInv n fst def_pl sdeg skip2 (snb links) sslk (h t) s d0 Cl' ps []
    (mkA (aD st) (aD st) (aP st) (fupd (fun _ => None) s (Some d0))).
  Proof.
    intros T. destruct T. split; cbn [aD aA aP aQ]; auto.
    - intros v Hv. split; [apply t_out; auto|]. rewrite fupd_neq by lia. auto.
    - intros v k. unfold fupd. destruct (Nat.eqb_spec v s) as [->|]; [|discriminate]. intros [= <-]. split; [lia|]. auto.
    - intros v. unfold fupd. destruct (Nat.eqb_spec v s) as [->|]; [auto|congruence].
  Qed.
  Lemma p_back (d : dij unit) st v p q : R n d st -> DijkstraProof.chain s (aP st) v p q -> (forall y, In y p -> y < n) -> node_path d s v = Some p /\ NoDup p.
  Proof.
    intros HR C LT.
    pose proof (chain_nodup n links fst def_lk def_pl all_edges no_cb pget (snb links) sslk (h t) s d0 _ HS Hs Hd0 _ _ _ _ C) as ND.
    destruct (chain_hd _ _ _ _ _ C) as (p' & Ep & Len).
    assert (Hlen : length p <= n). { rewrite <- (seq_length n 0). apply NoDup_incl_length; auto. intros y Hy. apply in_seq. specialize (LT y Hy). lia. }
    destruct (back_chain n links fst def_lk def_pl all_edges no_cb pget (snb links) sslk (h t) s d0 _ HS Hs Hd0 d st v p q HR C LT (length (d_pred d))) as [E1 E2]. { rewrite (r_plen n d _ HR). rewrite Ep in Hlen. cbn in Hlen. lia. }
    unfold node_path. rewrite E1. cbn [bind]. rewrite rev_involutive. auto.
  Qed.
  Definition phase_facts := conj p_start (conj p_skip (conj p_loop (conj p_exact (conj p_D (conj p_s (conj p_walk (conj p_V (conj p_path (conj p_requeue p_back))))))))).
End Phase.

Lemma walk_imp (a b : nat -> nat -> N -> Prop) : (forall u v w, a u v w -> b u v w) -> forall u v l, walk a u v l -> walk b u v l.
Proof. intros H u v l W. induction W; econstructor; eauto. Qed.
Lemma npath_imp (a b : nat -> nat -> N -> Prop) : (forall u v w, a u v w -> b u v w) -> forall u p v l, npath a u p v l -> npath b u p v l.
Proof. intros H u p v l W. induction W; econstructor; eauto. Qed.
Lemma feasible_imp (a b : nat -> nat -> N -> Prop) t h : (forall u v w, a u v w -> b u v w) -> feasible_pot b t h -> feasible_pot a t h.
Proof. intros H [F1 F2]. split; eauto. Qed.

(** * A query between nodes with different bridges *)
Section Core.
  Context {E : Type}.
  Variable n : nat.
  Variables main comp : fograph N.
  Variable vt : vtopo.
  Variables skip2 skip3 : bool.
  Variable pinit : E -> nat -> option E.
  Variable pget : E -> nat -> option (E * option N).
  Variable EI : E -> Prop.
  Variable ET : nat -> E -> Prop.
  Variable h : nat -> nat -> option N.
  Notation ml := (link_iter main).
  Notation cl := (link_iter comp).
  Notation pi' := (pp_init (vt_order vt) pinit).
  Notation pg' := (pp_get (vt_order vt) pget).
  Hypothesis Nn : num_nodes main = n.
  Hypothesis WFm : wf_links n ml.
  Hypothesis WFc : wf_links n cl.
  Hypothesis Dm : degree_report n ml (vt_sdeg vt).
  Hypothesis Dc : degree_report n cl (vt_sdeg vt).
  Hypothesis HP : pot_contract n (fun t => t < n) pi' pg' EI ET h.
  Variable arc : nat -> nat -> N -> Prop.
  Hypothesis Harc : forall u v w, arc u v w <-> garc cl u v w \/ garc ml u v w.
  Hypothesis HF : forall t, t < n -> feasible_pot arc t (h t) /\ forall v p, h t v = Some p -> (p + INF < U32)%N.
  Variable core : nat -> bool.
  Variable att : nat -> option nat.
  Hypothesis A1 : forall v, core v = true -> att v = Some v.
  Hypothesis A2 : forall u v w, garc cl u v w -> att u = att v.
  Hypothesis A3 : forall u v w, garc ml u v w -> core u = true /\ core v = true.
  Hypothesis A4 : forall v b, att v = Some b -> b < n /\ core b = true.
  Definition via (r : nat) : nat := match att r with Some b => b | None => r end.
  Hypothesis Hbr : forall r, r < n -> exists ob, bridge_node vt r = Some ob /\ match ob with Some b => b | None => r end = via r.

  Set Default Proof Using "All".
  Lemma cwalk_att u v l : walk (garc cl) u v l -> att u = att v.
  Proof. induction 1 as [|u v x w l Ha W IH]; auto. rewrite (A2 _ _ _ Ha). auto. Qed.
  Lemma via_att r : att (via r) = att r.
  Proof. unfold via. destruct (att r) as [b|] eqn:Ea; auto. destruct (A4 r b Ea) as [_ C]. apply A1; auto. Qed.
  Lemma via_lt r : r < n -> via r < n.
  Proof. unfold via. destruct (att r) as [b|] eqn:Ea; auto. destruct (A4 r b Ea); auto. Qed.

  (** every walk between different attachments runs to the bridge, through the core, and from the other bridge *)
  Lemma walk_split u t l : walk arc u t l -> (exists l', walk (garc cl) u t l' /\ (l' <= l)%N) \/
    exists b c l1 l2 l3, att u = Some b /\ att t = Some c /\ walk (garc cl) u b l1 /\ walk (garc ml) b c l2 /\ walk (garc cl) c t l3 /\ (l1 + l2 + l3 <= l)%N.
  Proof.
    induction 1 as [u|u v t w l Ha W IH]. { left. exists 0%N. split; [constructor|lia]. }
    apply Harc in Ha. destruct Ha as [Ha|Ha].
    - destruct IH as [(l' & W' & Hl)|(b & c & l1 & l2 & l3 & B1 & B2 & B3 & B4 & B5 & B6)].
      + left. exists (w + l')%N. split; [econstructor; eauto|lia].
      + right. exists b, c, (w + l1)%N, l2, l3. split. { rewrite (A2 _ _ _ Ha). auto. } split; auto. split; [econstructor; eauto|]. split; auto. split; auto. lia.
    - destruct (A3 _ _ _ Ha) as [Cu Cv]. right. destruct IH as [(l' & W' & Hl)|(b & c & l1 & l2 & l3 & B1 & B2 & B3 & B4 & B5 & B6)].
      + exists u, v, 0%N, (w + 0)%N, l'. split; auto. split. { rewrite <- (cwalk_att _ _ _ W'). auto. } split; [constructor|]. split; [econstructor; eauto; constructor|]. split; auto. lia.
      + rewrite (A1 v Cv) in B1. injection B1 as <-. exists u, c, 0%N, (w + l2)%N, l3. split; auto. split; auto. split; [constructor|]. split; [econstructor; eauto|]. split; auto. lia.
  Qed.
  Definition oeqb (a b : option nat) : bool := match a, b with Some x, Some y => x =? y | None, None => true | _, _ => false end.
  Lemma oeqb_spec a b : oeqb a b = true <-> a = b.
  Proof. destruct a as [x|], b as [y|]; cbn; try (split; congruence). rewrite Nat.eqb_eq. split; congruence. Qed.

  Definition Sv (sv : server unit E) : vserver E := mkVS main comp vt sv.
  Lemma core_query_ok sv from to s t : SvOK n EI sv -> from <> to -> no_rank (vt_order vt) from = Some s -> no_rank (vt_order vt) to = Some t -> s < n -> t < n -> att s <> att t ->
    exists sv' r, vs_distance true skip2 skip3 pinit pget (Sv sv) from to = Some (Sv sv', r) /\ SvOK n EI sv' /\ exact_answer arc s t r /\
      forall x, r = Some x -> exists p, sv_node_path sv' s t = Some p /\ npath arc s p t x /\ NoDup p.
  Proof.
    intros [HR HE] Hft Ers Ert Hs Ht Hatt.
    destruct (HF t Ht) as [FE Hpi]. assert (FEc : feasible_pot (garc cl) t (h t)) by (eapply feasible_imp; [|exact FE]; intros; apply Harc; auto).
    assert (FEm : feasible_pot (garc ml) t (h t)) by (eapply feasible_imp; [|exact FE]; intros; apply Harc; auto).
    destruct (Hbr s Hs) as (ob & Eb & Ev). destruct (Hbr t Ht) as (ob' & Eb' & Ev').
    unfold vs_distance. rewrite (proj2 (Nat.eqb_neq _ _) Hft). cbn [Sv vs_vt vs_main vs_sv vs_comp negb]. rewrite Ers, Ert. cbn [bind].
    destruct (pc_init _ _ _ _ _ _ _ HP (sv_pot sv) t HE Ht) as (e0 & E0 & P0). rewrite E0. cbn [bind].
    destruct (pc_get _ _ _ _ _ _ _ HP e0 t s P0 Hs) as (e1 & E1 & P1). rewrite E1. cbn [bind]. rewrite Eb, Eb'. cbn [bind]. rewrite Ev, Ev'.
    set (into := via s) in *. set (out := via t) in *.
    assert (Hin : into < n) by (apply via_lt; auto). assert (Hout : out < n) by (apply via_lt; auto).
    assert (Ain : att into = att s) by apply via_att. assert (Aout : att out = att t) by apply via_att.
    (* any walk must pass both bridges *)
    assert (WS : forall l, walk arc s t l -> exists l1 l2 l3, walk (garc cl) s into l1 /\ walk (garc ml) into out l2 /\ walk (garc cl) out t l3 /\ (l1 + l2 + l3 <= l)%N /\ att s = Some into /\ att t = Some out).
    { intros l W. destruct (walk_split s t l W) as [(l' & W' & _)|(b & c & l1 & l2 & l3 & B1 & B2 & B3 & B4 & B5 & B6)]. { apply cwalk_att in W'. congruence. }
      assert (into = b) by (unfold into, via; rewrite B1; auto). assert (out = c) by (unfold out, via; rewrite B2; auto). subst b c. exists l1, l2, l3. auto 8. }
    destruct (pc_get _ _ _ _ _ _ _ HP e1 t into P1 Hin) as (e2 & E2 & P2). rewrite E2. cbn [bind].
    assert (OKk : forall (d : dij unit) e st, R n d st -> ET t e -> SvOK n EI (mkSv d e)). { intros d e st H1 H2. split; cbn. { eapply R_Ready; eauto. } eapply pc_keep; eauto. }
    destruct (h t into) as [ip|] eqn:Eip.
    2:{ exists (mkSv (sv_dij sv) e2), None. split; [reflexivity|]. split. { split; auto. eapply pc_keep; eauto. } split; [|discriminate].
        cbn. intros l W. destruct (N.lt_ge_cases l INF) as [Hl|]; auto. exfalso. destruct (WS l W) as (l1 & l2 & l3 & W1 & W2 & W3 & _).
        destruct (feasible_walk _ _ _ FE out t l3 0%N) as (p3 & Q3 & _). { eapply walk_imp; [|exact W3]. intros; apply Harc; auto. } { apply FE. }
        destruct (feasible_walk _ _ _ FE into out l2 p3) as (p2 & Q2 & _); auto. { eapply walk_imp; [|exact W2]. intros; apply Harc; auto. } congruence. }
    destruct (init_refines n (sv_dij sv) s 0%N HR Hs) as (d0 & pr & Ed & R0). rewrite Ed. cbn [bind].
    set (AC := fun _ : nat => True).
    (* phase 1 *)
    set (V1 := fun v => oeqb (att v) (att s)). set (ps1 := (s, snd (pr s))).
    set (fD1 := fun _ : nat => INF). set (fP1 := aP (initA (P := unit) s 0%N pr)).
    assert (V1s : V1 s = true) by (apply oeqb_spec; auto).
    assert (V1c : forall u v w, garc cl u v w -> V1 u = true -> V1 v = true). { intros u v w Ha. unfold V1. rewrite !oeqb_spec, (A2 _ _ _ Ha). auto. }
    destruct (phase_facts n cl (vt_sdeg vt) skip2 skip3 pi' pg' EI ET h WFc HP Dc t Hpi s 0%N Hs eq_refl V1 fD1 fP1 AC ps1 V1s V1c) as (St1 & _ & Lp1 & Ex1 & Dd1 & Ss1 & Wk1 & Vv1 & Pa1 & Rq1 & Bk1).
    set (i0 := startA (P := unit) s 0%N fP1).
    assert (I0 : PI n cl (vt_sdeg vt) skip2 h t s 0%N AC ps1 i0). { apply St1. unfold fP1, ps1. cbn. unfold fupd. rewrite Nat.eqb_refl. auto. }
    assert (RV0 : RV n V1 fD1 fP1 d0 i0).
    { eapply R_ext; [exact R0| |]; [|intros v; reflexivity]. intros v Hv. cbn. destruct (V1 v) eqn:Ev1; [split; auto|]. split; auto. rewrite fupd_neq; auto. congruence. }
    destruct (Lp1 into ip d0 e2 i0 RV0 I0 P2 Hin) as (d1 & e3 & st1 & El1 & RV1 & I1 & P3 & K1). { unfold label_of. cbn. unfold fupd, fD1. destruct (V1 into); [destruct (into =? s)|]; lia. } { eapply Hpi; eauto. }
    assert (V1in : V1 into = true) by (apply oeqb_spec; auto).
    assert (EC1 : comp_loop skip2 skip3 pget (Sv sv) into ip d0 e2 = Some (d1, e3)). { unfold comp_loop. cbn [Sv vs_main vs_comp vs_vt]. rewrite Nn. exact El1. }
    rewrite EC1. cbn [bind]. rewrite (R_get n d1 _ into RV1 Hin). cbn [bind merge aD]. rewrite V1in. set (x := aD st1 into) in *.
    assert (X1 : forall l1, walk (garc cl) s into l1 -> (l1 < INF)%N -> (x <= l1)%N).
    { intros l1 W1 Hl. apply (Ex1 into ip (l1 + ip)%N st1 (fun _ => I) I1 V1in FEc Eip (fun v k Hk => or_introl (K1 v k Hk)) l1 W1); lia. }
    destruct (INF <=? x)%N eqn:EX.
    { apply N.leb_le in EX. exists (mkSv d1 e3), None. split; [reflexivity|]. split; [eapply OKk; eauto|]. split; [|discriminate].
      cbn. intros l W. destruct (N.lt_ge_cases l INF) as [Hl|]; auto. exfalso. destruct (WS l W) as (l1 & l2 & l3 & W1 & _ & _ & L & _). specialize (X1 l1 W1). lia. }
    apply N.leb_gt in EX.
    (* phase 2 *)
    set (fD2 := aD (merge V1 fD1 fP1 st1)). set (fP2 := aP (merge V1 fD1 fP1 st1)).
    set (V2 := fun v => core v || (v =? into)). set (ps2 := fP2 into).
    destruct (reinit_ok n d1 _ into RV1 Hin) as (d1' & Er1 & R1'). rewrite Er1. cbn [bind].
    assert (V2s : V2 into = true) by (unfold V2; rewrite Nat.eqb_refl, orb_true_r; auto).
    assert (V2c : forall u v w, garc ml u v w -> V2 u = true -> V2 v = true). { intros u v w Ha _. unfold V2. destruct (A3 _ _ _ Ha) as [_ ->]. auto. }
    destruct (phase_facts n ml (vt_sdeg vt) skip2 skip3 pi' pg' EI ET h WFm HP Dm t Hpi into x Hin EX V2 fD2 fP2 AC ps2 V2s V2c) as (St2 & Sk2 & _ & Ex2 & Dd2 & Ss2 & Wk2 & Vv2 & Pa2 & _ & _).
    assert (FX : fD2 into = x) by (unfold fD2; cbn; rewrite V1in; auto).
    assert (N12 : forall v, V2 v = true -> v <> into -> V1 v = false).
    { intros v Hv Hne. destruct (V1 v) eqn:EE; auto. exfalso. apply oeqb_spec in EE. unfold V2 in Hv. apply orb_true_iff in Hv. destruct Hv as [Hv|Hv]; [|apply Nat.eqb_eq in Hv; auto].
      apply A1 in Hv. apply Hne. unfold into, via. rewrite <- EE, Hv. auto. }
    set (j0 := startA (P := unit) into x fP2).
    assert (J0 : PI n ml (vt_sdeg vt) skip2 h t into x AC ps2 j0) by (apply St2; auto).
    assert (RVj : RV n V2 fD2 fP2 d1' j0).
    { eapply R_ext; [exact R1'| |].
      - intros v Hv. cbn [merge aD aP j0 startA]. destruct (V2 v) eqn:EE; [|split; reflexivity]. split; [|reflexivity]. unfold fupd. destruct (Nat.eqb_spec v into) as [->|Hne]. { rewrite V1in. auto. } rewrite (N12 v EE Hne). auto.
      - intros v. cbn [merge aQ j0 startA aD]. rewrite V1in. auto. }
    assert (LJ : (label_of V2 fD2 fP2 j0 out <= INF)%N).
    { unfold label_of. cbn [merge aD j0 startA]. destruct (V2 out). { unfold fupd. destruct (out =? into); lia. } unfold fD2. cbn. destruct (V1 out); [apply Dd1; auto|unfold fD1; lia]. }
    assert (NoV1t : V1 t = false). { destruct (V1 t) eqn:EE; auto. apply oeqb_spec in EE. congruence. }
    assert (NoV1o : V1 out = false). { destruct (V1 out) eqn:EE; auto. apply oeqb_spec in EE. congruence. }
    (* the core phase *)
    assert (C2 : exists d2 e4 cd st2, skip_run n ml fst def_lk def_pl (vt_sdeg vt) skip2 skip3 pg' d1' e3 into out INF = Some (d2, e4, cd) /\
      RV n V2 fD2 fP2 d2 st2 /\ PI n ml (vt_sdeg vt) skip2 h t into x AC ps2 st2 /\ ET t e4 /\
      (cd <> None -> (aD (merge V2 fD2 fP2 st2) out < INF)%N) /\
      (cd = None -> h t out = None \/ (aD (merge V2 fD2 fP2 st2) out >= INF)%N) /\
      (forall tp l2, h t out = Some tp -> walk (garc ml) into out l2 -> (x + l2 + tp < INF)%N -> V2 out = true -> (aD st2 out <= x + l2)%N)).
    { unfold skip_run. rewrite (R_get n d1' _ into RVj Hin). cbn [bind].
      destruct (pc_get _ _ _ _ _ _ _ HP e3 t out P3 Hout) as (e4 & E4 & P4). rewrite E4. cbn [bind].
      destruct (h t out) as [tp|] eqn:Etp.
      - destruct (Sk2 out tp INF d1' e4 j0 RVj J0 P4 Hout LJ (Hpi _ _ Etp)) as (d2 & e5 & st2 & E5 & RV2 & I2 & P5 & K2). rewrite E5. cbn [bind].
        rewrite (R_get n d2 _ out RV2 Hout). cbn [bind].
        assert (X2 : forall tp' l2, Some tp = Some tp' -> walk (garc ml) into out l2 -> (x + l2 + tp' < INF)%N -> V2 out = true -> (aD st2 out <= x + l2)%N).
        { intros tp' l2 [= <-] W Hl HV. apply (Ex2 out tp INF st2 (fun _ => I) I2 HV FEm Etp K2 l2 W); lia. }
        destruct (aD (merge V2 fD2 fP2 st2) out <? INF)%N eqn:EI'.
        + apply N.ltb_lt in EI'. unfold csubN. replace (aD (merge V2 fD2 fP2 j0) into) with x by (cbn; rewrite V2s, fupd_eq; auto).
          assert (LE : (x <= aD (merge V2 fD2 fP2 st2) out)%N). { cbn [merge aD] in *. destruct (V2 out) eqn:EV; [apply (Dd2 st2 out I2)|]. unfold fD2 in EI'. cbn in EI'. rewrite NoV1o in EI'. unfold fD1 in EI'. lia. }
          rewrite (proj2 (N.leb_le _ _) LE). cbn [bind]. eexists _, _, _, st2. split; [reflexivity|]. split; auto. split; auto. split; auto. split; auto. split; [discriminate|auto].
        + apply N.ltb_ge in EI'. eexists _, _, _, st2. split; [reflexivity|]. split; auto. split; auto. split; auto. split; [congruence|]. split; auto. intros _. right. lia.
      - eexists _, _, _, j0. split; [reflexivity|]. split; auto. split; auto. split; auto. split; [congruence|]. split; auto. discriminate. }
    destruct C2 as (d2 & e4 & cd & st2 & E4 & RV2 & I2 & P4 & CD1 & CD2 & X2). rewrite Nn, E4. cbn [bind].
    destruct (Ss1 st1 I1) as [SD1 SP1]. destruct (Ss2 st2 I2) as [SD2 SP2].
    set (fD3 := aD (merge V2 fD2 fP2 st2)) in *. set (fP3 := aP (merge V2 fD2 fP2 st2)).
    destruct cd as [c|].
    - (* phase 3 from the bridge of the target *)
      specialize (CD1 ltac:(discriminate)).
      assert (V2o : V2 out = true). { destruct (V2 out) eqn:EE; auto. unfold fD3 in CD1. cbn [merge aD] in CD1. rewrite EE in CD1. unfold fD2 in CD1. cbn in CD1. rewrite NoV1o in CD1. unfold fD1 in CD1. lia. }
      assert (To : att t = Some out).
      { unfold V2 in V2o. apply orb_true_iff in V2o. destruct V2o as [C|C]. { apply A1 in C. congruence. } apply Nat.eqb_eq in C. exfalso. apply Hatt. rewrite <- Ain, <- Aout, C. auto. }
      destruct (reinit_ok n d2 _ out RV2 Hout) as (d2' & Er2 & R2'). rewrite Er2. cbn [bind].
      set (y2 := fD3 out) in *. set (V3 := fun v => oeqb (att v) (att t)). set (ps3 := fP3 out).
      assert (V3s : V3 out = true) by (apply oeqb_spec; auto).
      assert (V3c : forall u v w, garc cl u v w -> V3 u = true -> V3 v = true). { intros u v w Ha. unfold V3. rewrite !oeqb_spec, (A2 _ _ _ Ha). auto. }
      destruct (phase_facts n cl (vt_sdeg vt) skip2 skip3 pi' pg' EI ET h WFc HP Dc t Hpi out y2 Hout CD1 V3 fD3 fP3 AC ps3 V3s V3c) as (St3 & _ & Lp3 & Ex3 & Dd3 & Ss3 & Wk3 & Vv3 & Pa3 & _ & _).
      assert (N31 : forall v, V3 v = true -> V1 v = false). { intros v Hv. destruct (V1 v) eqn:EE; auto. apply oeqb_spec in EE, Hv. congruence. }
      assert (N32 : forall v, V3 v = true -> v <> out -> V2 v = false).
      { intros v Hv Hne. destruct (V2 v) eqn:EE; auto. exfalso. apply oeqb_spec in Hv. unfold V2 in EE. apply orb_true_iff in EE. destruct EE as [C|C].
        - apply A1 in C. congruence.
        - apply Nat.eqb_eq in C. subst v. congruence. }
      set (k0 := startA (P := unit) out y2 fP3).
      assert (K0 : PI n cl (vt_sdeg vt) skip2 h t out y2 AC ps3 k0) by (apply St3; auto).
      assert (RVk : RV n V3 fD3 fP3 d2' k0).
      { eapply R_ext; [exact R2'| |].
        - intros v Hv. cbn [merge aD aP k0 startA]. destruct (V3 v) eqn:EE; [|split; reflexivity]. split; [|reflexivity]. unfold fupd. destruct (Nat.eqb_spec v out) as [->|Hne]. { reflexivity. }
          rewrite (N32 v EE Hne). unfold fD2. cbn. rewrite (N31 v EE). auto.
        - intros v. reflexivity. }
      assert (V3t : V3 t = true) by (apply oeqb_spec; auto).
      destruct (Lp3 t 0%N d2' e4 k0 RVk K0 P4 Ht) as (d3 & e5 & st3 & E5 & RV3 & I3 & P5 & K3). { unfold label_of. cbn [merge aD k0 startA]. rewrite V3t. unfold fupd. destruct (t =? out); lia. } { reflexivity. }
      assert (EC3 : comp_loop skip2 skip3 pget (Sv sv) t 0 d2' e4 = Some (d3, e5)). { unfold comp_loop. cbn [Sv vs_main vs_comp vs_vt]. rewrite Nn. exact E5. }
      rewrite EC3. cbn [bind]. rewrite (R_get n d3 _ t RV3 Ht). cbn [bind merge aD]. rewrite V3t.
      destruct (Ss3 st3 I3) as [SD3 SP3].
      assert (Y2 : y2 = aD st2 out) by (unfold y2, fD3; cbn [merge aD]; rewrite V2o; auto).
      assert (EXA : forall l, walk arc s t l -> (l < INF)%N -> (aD st3 t <= l)%N).
      { intros l W Hl. destruct (WS l W) as (l1 & l2 & l3 & W1 & W2 & W3 & L & _).
        destruct (feasible_walk _ _ _ FEc out t l3 0%N W3 (proj1 FE)) as (p3 & Q3 & L3).
        specialize (X1 l1 W1 ltac:(lia)). specialize (X2 p3 l2 Q3 W2 ltac:(lia) V2o).
        assert (Z : (aD st3 t <= y2 + l3)%N). { apply (Ex3 t 0%N (y2 + l3)%N st3 (fun _ => I) I3 V3t FEc (proj1 FE) (fun v k Hk => or_introl (K3 v k Hk)) l3 W3); lia. } lia. }
      destruct (aD st3 t <? INF)%N eqn:EY.
      + apply N.ltb_lt in EY. exists (mkSv d3 e5), (Some (aD st3 t)). split; [reflexivity|]. split; [eapply OKk; eauto|].
        destruct (Wk1 st1 into I1 EX) as (l1 & W1 & L1). destruct (Wk2 st2 out I2 ltac:(lia)) as (l2 & W2 & L2). destruct (Wk3 st3 t I3 EY) as (l3 & W3 & L3).
        assert (WA : walk arc s t (aD st3 t)).
        { replace (aD st3 t) with (l1 + (l2 + l3))%N by lia. eapply walk_app; [eapply walk_imp; [|exact W1]; intros; apply Harc; auto|]. eapply walk_app; [eapply walk_imp; [|exact W2]; intros; apply Harc; auto|]. eapply walk_imp; [|exact W3]; intros; apply Harc; auto. }
        assert (EA : exact_answer arc s t (Some (aD st3 t))). { cbn. split; auto. split; auto. intros l W. destruct (N.lt_ge_cases l INF); [apply EXA; auto|lia]. }
        split; [exact EA|]. intros z [= <-].
        destruct (Pa1 st1 into I1 EX) as (p1 & q1 & m1 & C1 & N1 & M1 & Y1). destruct (Pa2 st2 out I2 ltac:(lia)) as (p2 & q2 & m2 & C2 & N2 & M2 & Z2). destruct (Pa3 st3 t I3 EY) as (p3 & q3 & m3 & C3 & N3 & M3 & Y3).
        set (F := aP (merge V3 fD3 fP3 st3)) in *.
        assert (C1' : DijkstraProof.chain s F into p1 q1).
        { eapply chain_ext; [exact C1|]. intros y Hy _. destruct (Y1 y Hy) as [Hy1 _]. unfold F. cbn [merge aP]. destruct (V3 y) eqn:EE; [rewrite (N31 y EE) in Hy1; discriminate|].
          unfold fP3. cbn [merge aP]. destruct (V2 y) eqn:EE2; auto. destruct (Nat.eq_dec y into) as [->|Hne]; [exact SP2|]. rewrite (N12 y EE2 Hne) in Hy1. discriminate. }
        assert (C2' : DijkstraProof.chain into F out p2 q2).
        { eapply chain_ext; [exact C2|]. intros y Hy _. destruct (Z2 y Hy) as [Hy2 _]. unfold F. cbn [merge aP]. destruct (V3 y) eqn:EE; auto.
          destruct (Nat.eq_dec y out) as [->|Hne]; [exact SP3|]. rewrite (N32 y EE Hne) in Hy2. discriminate. }
        assert (CA : DijkstraProof.chain s F t ((p1 ++ tl p2) ++ tl p3) ((q1 ++ q2) ++ q3)).
        { eapply chain_app; [eapply chain_app; [exact C1'|exact C2'|]|exact C3|].
          - intros y Hy ->. destruct (Z2 s Hy) as [Hy2 _]. destruct (Nat.eq_dec s into) as [|Hne]; auto. rewrite (N12 s Hy2 Hne) in V1s. discriminate.
          - intros y Hy ->. destruct (Y3 s Hy) as [Hy3 _]. rewrite (N31 s Hy3) in V1s. discriminate. }
        assert (TI : forall (l : list nat) y, In y (tl l) -> In y l). { intros [|a l] y Hy; [destruct Hy|right; auto]. }
        destruct (Bk1 d3 (merge V3 fD3 fP3 st3) t _ _ RV3 CA) as [B1 B2].
        { intros y Hy. apply in_app_or in Hy. destruct Hy as [Hy|Hy]; [apply in_app_or in Hy; destruct Hy as [Hy|Hy]|]; [apply (Y1 y Hy)|apply (Z2 y (TI _ _ Hy))|apply (Y3 y (TI _ _ Hy))]. }
        eexists. split; [exact B1|]. split; auto.
        assert (NA : npath arc s ((p1 ++ tl p2) ++ tl p3) t (m1 + m2 + m3)).
        { eapply npath_app; [eapply npath_app|]; eapply npath_imp; [|exact N1| |exact N2| |exact N3]; intros; apply Harc; auto. }
        pose proof (EXA _ (npath_walk _ _ _ _ _ NA) ltac:(lia)). replace (aD st3 t) with (m1 + m2 + m3)%N by lia. exact NA.
      + apply N.ltb_ge in EY. exists (mkSv d3 e5), None. split; [reflexivity|]. split; [eapply OKk; eauto|]. split; [|discriminate].
        cbn. intros l W. destruct (N.lt_ge_cases l INF) as [Hl|]; auto. specialize (EXA l W Hl). lia.
    - (* the core phase has failed: back to the source, and nothing more is found *)
      specialize (CD2 eq_refl). destruct (reinit_ok n d2 _ s RV2 Hs) as (d2' & Er2 & R2'). rewrite Er2. cbn [bind].
      set (AF := fun _ : nat => False).
      destruct (phase_facts n cl (vt_sdeg vt) skip2 skip3 pi' pg' EI ET h WFc HP Dc t Hpi s 0%N Hs eq_refl V1 fD3 fP3 AF ps1 V1s V1c) as (_ & _ & Lp3 & _).
      set (k0 := mkA (aD st1) (aD st1) (aP st1) (fupd (fun _ => None) s (Some 0%N))).
      assert (K0 : PI n cl (vt_sdeg vt) skip2 h t s 0%N AF ps1 k0) by (apply Rq1; auto).
      assert (Same : forall v, V1 v = true -> fD3 v = aD st1 v /\ fP3 v = aP st1 v).
      { intros v Hv. unfold fD3, fP3. cbn [merge aD aP]. destruct (V2 v) eqn:EE.
        - destruct (Nat.eq_dec v into) as [->|Hne]; [|rewrite (N12 v EE Hne) in Hv; discriminate]. split; auto. rewrite SP2. unfold ps2, fP2. cbn. rewrite Hv. auto.
        - unfold fD2, fP2. cbn. rewrite Hv. auto. }
      assert (RVk : RV n V1 fD3 fP3 d2' k0).
      { eapply R_ext; [exact R2'| |].
        - intros v Hv. change (aD (merge V1 fD3 fP3 k0) v = fD3 v /\ aP (merge V1 fD3 fP3 k0) v = fP3 v). cbn [merge aD aP k0]. destruct (V1 v) eqn:EE; auto. destruct (Same v EE). auto.
        - intros v. change (fupd (fun _ => None) s (Some 0%N) v = fupd (fun _ => None) s (Some (fD3 s)) v). rewrite (proj1 (Same s V1s)), SD1. auto. }
      assert (FT : fD3 t = INF).
      { unfold fD3. cbn [merge aD]. destruct (V2 t) eqn:EE; [|unfold fD2; cbn; rewrite NoV1t; auto].
        assert (C : core t = true). { unfold V2 in EE. apply orb_true_iff in EE. destruct EE as [C|C]; auto. apply Nat.eqb_eq in C. congruence. }
        assert (Eo : out = t) by (unfold out, via; rewrite (A1 t C); auto). rewrite Eo in CD2. destruct CD2 as [C2|C2]; [rewrite (proj1 FE) in C2; discriminate|].
        unfold fD3 in C2. cbn [merge aD] in C2. rewrite EE in C2. pose proof (Dd2 st2 t I2). lia. }
      destruct (Lp3 t 0%N d2' e4 k0 RVk K0 P4 Ht) as (d3 & e5 & st3 & E5 & RV3 & I3 & P5 & K3). { unfold label_of. cbn [merge aD]. rewrite NoV1t, FT. lia. } { reflexivity. }
      assert (EC3 : comp_loop skip2 skip3 pget (Sv sv) t 0 d2' e4 = Some (d3, e5)). { unfold comp_loop. cbn [Sv vs_main vs_comp vs_vt]. rewrite Nn. exact E5. }
      rewrite EC3. cbn [bind]. rewrite (R_get n d3 _ t RV3 Ht). cbn [bind merge aD]. rewrite NoV1t, FT. rewrite N.ltb_irrefl.
      exists (mkSv d3 e5), None. split; [reflexivity|]. split; [eapply OKk; eauto|]. split; [|discriminate].
      cbn. intros l W. destruct (N.lt_ge_cases l INF) as [Hl|]; auto. exfalso.
      destruct (WS l W) as (l1 & l2 & l3 & W1 & W2 & W3 & L & _ & To). destruct (feasible_walk _ _ _ FEc out t l3 0%N W3 (proj1 FE)) as (p3 & Q3 & L3).
      destruct CD2 as [C2|C2]; [congruence|]. assert (V2o : V2 out = true). { unfold V2. destruct (A4 t out To) as [_ ->]. auto. }
      specialize (X1 l1 W1 ltac:(lia)). specialize (X2 p3 l2 Q3 W2 ltac:(lia) V2o). unfold fD3 in C2. cbn [merge aD] in C2. rewrite V2o in C2. lia.
  Qed.
End Core.
