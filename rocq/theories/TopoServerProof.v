(** The server over the degree skipping Dijkstra: exactness up to the cap, paths, independence of earlier queries. *)
From Verif Require Import Base SpecPQ SpecGraph SpecBits BitVec FastClearProof IndexHeap IndexHeapProof TsVec TsVecProof Graph Dijkstra LoopProof DijkstraRef DijkstraProof DijServer DijServerProof DijOrderProof DijHistProof PLF TopoDij TopoDijProof SpecTopo.

(** searches that start from scratch: every node belongs to the search *)
Definition AV (_ : nat) : bool := true.
Definition iD (_ : nat) : N := INF.
Definition iP {P} (ps : nat * P) (_ : nat) : nat * P := ps.
Definition AC (_ : nat) : Prop := True.
Lemma RV_all {P} n (d : dij P) st fD fP : RV n AV fD fP d st <-> R n d st.
Proof. unfold RV. split; intros H; (eapply R_ext; [exact H| |]); auto. Qed.

Section Server.
  Context {A P E : Type}.
  Variable n : nat.
  Variable links : nat -> option (list A).
  Variable hd : A -> nat.
  Variable lk : nat -> N -> A -> option N.
  Variable pl : A -> P.
  Variable sdeg : nat -> option symdeg.
  Variables skip2 skip3 : bool.
  Variable pinit : E -> nat -> option E.
  Variable pget : E -> nat -> option (E * option N).
  Variable nb : nat -> list A.
  Variable slk : nat -> N -> A -> N.
  Variable T : nat -> Prop.
  Variable EI : E -> Prop.
  Variable ET : nat -> E -> Prop.
  Variable h : nat -> nat -> option N.

  Hypothesis Hlinks : forall u, u < n -> links u = Some (nb u).
  Hypothesis Hhd : forall u a, u < n -> In a (nb u) -> hd a < n.
  Hypothesis Hlk : forall u a d, u < n -> In a (nb u) -> (d < INF)%N ->
    exists x, lk u d a = Some x /\ ((slk u d a < INF)%N -> x = slk u d a) /\ ((INF <= slk u d a)%N -> (INF <= x)%N).
  Hypothesis Hmono : forall u a d d', u < n -> In a (nb u) -> (d <= d')%N -> (slk u d a <= slk u d' a)%N.
  Hypothesis Hext : forall u a d, u < n -> In a (nb u) -> (d <= slk u d a)%N.
  Hypothesis HP : pot_contract n T pinit pget EI ET h.
  Hypothesis Hsd : forall v, v < n -> sdeg v <> None.
  Hypothesis Hdeg2 : forall u a, u < n -> In a (nb u) -> skip2 = true -> sdeg (hd a) = Some LessEqTwo -> length (others hd u (nb (hd a))) <= 1.
  Hypothesis Hdeg3 : forall u a, u < n -> In a (nb u) -> skip3 = true -> sdeg (hd a) = Some Three -> length (others hd u (nb (hd a))) <= 2.

  Notation gst := (gstep n hd all_edges nb slk).
  Notation gstl := (gstepl n hd pl all_edges nb slk).
  Notation dist' := (skip_distance n links hd lk pl sdeg skip2 skip3 pinit pget).
  Notation all' := (skip_one_to_all n links hd lk pl sdeg skip2 skip3).

  Let AVc u a (Hu : u < n) (_ : AV u = true) (Ha : In a (nb u)) : AV (hd a) = true := eq_refl.
  Set Default Proof Using "All".

  Lemma skip_search_ok s t d0 : (forall v p, h t v = Some p -> (p + INF < U32)%N) ->
    search_ok n links hd lk all_edges no_cb pget nb slk (h t) s d0 (fun _ _ e => ET t e).
  Proof.
    intros Hpi. split; auto.
    - intros v p Hp. specialize (Hpi v p Hp). lia.
    - intros D AA e v He Hv. apply (pc_get _ _ _ _ _ _ _ HP e t v He Hv).
    - intros D AA e v x He _ _ _ _. exists e, true. auto.
  Qed.

  Lemma skip_distance_ok sv s t d0 cap : SvOK n EI sv -> s < n -> t < n -> (d0 < INF)%N -> T t -> (forall v p, h t v = Some p -> (p + INF < U32)%N) ->
    admissible n hd all_edges nb slk (h t) s d0 t ->
    exists sv' r, dist' sv s t d0 cap = Some (sv', r) /\ SvOK n EI sv' /\
      (forall x, r = Some x -> reach gst s d0 t (d0 + x) /\ (d0 + x < INF)%N /\
         exists p q y, sv_node_path sv' s t = Some p /\ sv_edge_path sv' s t = Some q /\ reach_path P gstl s d0 t y p q /\ (y <= d0 + x)%N /\ NoDup p) /\
      (forall tp dd, h t t = Some tp -> reach gst s d0 t dd -> (dd < INF)%N -> (dd + tp <= cap)%N -> exists x, r = Some x /\ (d0 + x <= dd)%N) /\
      (h t t = None -> r = None).
  Proof.
    intros [HR HE] Hs Ht Hd0 HT Hpi Hadm. unfold skip_distance. pose proof (skip_search_ok s t d0 Hpi) as HS.
    destruct (init_refines n (sv_dij sv) s d0 HR Hs) as (d & pr & E1 & R1). rewrite E1. cbn [bind].
    destruct (pc_init _ _ _ _ _ _ _ HP (sv_pot sv) t HE HT) as (e & E2 & H2). rewrite E2. cbn [bind].
    unfold skip_run. rewrite (R_get n d _ s R1 Hs). cbn [bind].
    assert (Hds : aD (initA (P := P) s d0 pr) s = d0). { cbn. unfold fupd. rewrite Nat.eqb_refl. auto. }
    rewrite Hds.
    destruct (pc_get _ _ _ _ _ _ _ HP e t t H2 Ht) as (e1 & E3 & H3). rewrite E3. cbn [bind].
    set (ps := (s, snd (pr s))).
    assert (TI0 := TopoInv_init n links hd lk pl sdeg skip2 skip3 pget nb slk (h t) s d0 _ HS Hs Hd0 Hsd Hdeg2 Hdeg3 AV iD (iP ps) AC ps eq_refl AVc pr eq_refl).
    assert (LT0 : forall v, (label_of AV iD (iP ps) (initA (P := P) s d0 pr) v <= INF)%N). { intros v. apply (t_D _ _ _ _ _ _ _ _ _ _ _ _ _ _ TI0 v). }
    destruct (h t t) as [tp|] eqn:Etp.
    - destruct (skip_loop_ok n links hd lk pl sdeg skip2 skip3 pget nb slk (h t) s d0 _ HS Hs Hd0 Hsd Hdeg2 Hdeg3 AV iD (iP ps) AC ps eq_refl AVc t tp cap d e1 _ (proj2 (RV_all n d _ _ _) R1) TI0 H3 Ht (LT0 t) (Hpi t tp Etp))
        as (d' & e' & st' & E4 & RV4 & T4 & J4 & K4). pose proof (proj1 (RV_all n d' st' _ _) RV4) as R4.
      rewrite E4. cbn [bind]. rewrite (R_get n d' st' t R4 Ht). cbn [bind].
      assert (OK' : SvOK n EI (mkSv d' e')). { split; cbn. { eapply R_Ready; eauto. } eapply pc_keep; eauto. }
      assert (EX := topo_exact n links hd lk pl sdeg skip2 skip3 pget nb slk (h t) s d0 _ HS Hs Hd0 Hsd Hdeg2 Hdeg3 AV iD (iP ps) AC ps eq_refl AVc t tp cap st' (fun _ => I) T4 Hadm Etp K4).
      assert (BD := t_D _ _ _ _ _ _ _ _ _ _ _ _ _ _ T4 t).
      destruct (aD st' t <? INF)%N eqn:EI'.
      + apply N.ltb_lt in EI'. unfold csubN. rewrite (proj2 (N.leb_le d0 (aD st' t))) by lia. cbn [bind].
        exists (mkSv d' e'), (Some (aD st' t - d0))%N. split; auto. split; auto. split; [|split].
        * intros x [= <-]. replace (d0 + (aD st' t - d0))%N with (aD st' t) by lia. split. { apply (t_reach _ _ _ _ _ _ _ _ _ _ _ _ _ _ T4 t EI'). } split; auto.
          destruct (topo_paths_ok n links hd lk pl sdeg skip2 skip3 pget nb slk (h t) s d0 _ HS Hs Hd0 Hsd Hdeg2 Hdeg3 AV iD (iP ps) AC ps eq_refl AVc d' st' t RV4 T4 EI') as (p & q & y & P1 & P2 & P3 & P4 & P5).
          exists p, q, y. auto.
        * intros tp' dd [= <-] Hr Hdd Hc. exists (aD st' t - d0)%N. split; auto. specialize (EX dd Hr Hdd Hc). lia.
        * discriminate.
      + apply N.ltb_ge in EI'. exists (mkSv d' e'), None. split; auto. split; auto. split; [discriminate|]. split; auto.
        intros tp' dd [= <-] Hr Hdd Hc. specialize (EX dd Hr Hdd Hc). lia.
    - exists (mkSv d e1), None. split; auto. split. { split; cbn. { eapply R_Ready; eauto. } eapply pc_keep; eauto. }
      split; [discriminate|]. split; auto. discriminate.
  Qed.
End Server.

Section All.
  Context {A P E : Type}.
  Variable n : nat.
  Variable links : nat -> option (list A).
  Variable hd : A -> nat.
  Variable lk : nat -> N -> A -> option N.
  Variable pl : A -> P.
  Variable sdeg : nat -> option symdeg.
  Variables skip2 skip3 : bool.
  Variable nb : nat -> list A.
  Variable slk : nat -> N -> A -> N.
  Variable EI : E -> Prop.
  Hypothesis Hlinks : forall u, u < n -> links u = Some (nb u).
  Hypothesis Hhd : forall u a, u < n -> In a (nb u) -> hd a < n.
  Hypothesis Hlk : forall u a d, u < n -> In a (nb u) -> (d < INF)%N ->
    exists x, lk u d a = Some x /\ ((slk u d a < INF)%N -> x = slk u d a) /\ ((INF <= slk u d a)%N -> (INF <= x)%N).
  Hypothesis Hmono : forall u a d d', u < n -> In a (nb u) -> (d <= d')%N -> (slk u d a <= slk u d' a)%N.
  Hypothesis Hext : forall u a d, u < n -> In a (nb u) -> (d <= slk u d a)%N.
  Hypothesis Hsd : forall v, v < n -> sdeg v <> None.
  Hypothesis Hdeg2 : forall u a, u < n -> In a (nb u) -> skip2 = true -> sdeg (hd a) = Some LessEqTwo -> length (others hd u (nb (hd a))) <= 1.
  Hypothesis Hdeg3 : forall u a, u < n -> In a (nb u) -> skip3 = true -> sdeg (hd a) = Some Three -> length (others hd u (nb (hd a))) <= 2.
  Notation gst := (gstep n hd all_edges nb slk).
  Notation gstl := (gstepl n hd pl all_edges nb slk).
  Notation all' := (skip_one_to_all n links hd lk pl sdeg skip2 skip3).

  Let AVc u a (Hu : u < n) (_ : AV u = true) (Ha : In a (nb u)) : AV (hd a) = true := eq_refl.
  Set Default Proof Using "All".
  Let HS s : search_ok n links hd lk all_edges no_cb zero_get nb slk (fun _ => Some 0%N) s 0%N (fun _ _ (_ : unit) => True).
  Proof.
    split; auto.
    - intros v p [= <-]. unfold INF, U32. lia.
    - intros _ _ [] v _ _. exists tt. auto.
    - intros _ _ [] v x _ _ _ _ _. exists tt, true. auto.
  Qed.

  Lemma skip_all_ok sv s : SvOK n EI sv -> s < n ->
    exists sv', all' sv s = Some sv' /\ SvOK n EI sv' /\ sv_pot sv' = sv_pot sv /\
      forall v, v < n -> exists x, sv_dist_of sv' v = Some x /\ (x <= INF)%N /\ earliest gst s 0 v (if (x <? INF)%N then Some x else None) /\
        ((x < INF)%N -> exists p q, sv_node_path sv' s v = Some p /\ sv_edge_path sv' s v = Some q /\ reach_path P gstl s 0 v x p q /\ NoDup p).
  Proof.
    intros [HR HE] Hs. unfold skip_one_to_all.
    assert (H0 : (0 < INF)%N) by reflexivity.
    destruct (init_refines n (sv_dij sv) s 0%N HR Hs) as (d & pr & E1 & R1). rewrite E1. cbn [bind].
    match goal with |- context [loopN _ ?f _] => set (step := f) end.
    set (ps := (s, snd (pr s))).
    set (TI := TopoInv n hd pl sdeg skip2 nb slk (fun _ => Some 0%N) s 0%N AC ps).
    assert (TI0 := TopoInv_init n links hd lk pl sdeg skip2 skip3 zero_get nb slk _ s 0%N _ (HS s) Hs H0 Hsd Hdeg2 Hdeg3 AV iD (iP ps) AC ps eq_refl AVc pr eq_refl).
    set (I := fun st d => R n d st /\ TI [] st).
    set (Q := fun d' => exists st', R n d' st' /\ TI [] st' /\ forall v, aQ st' v = None).
    destruct (loopN_ghost step I Q (fun st => M n st) (dij_fuel n) (initA s 0%N pr) d) as (d' & E2 & st' & R2 & T2 & Q2).
    - intros st d1 (R1' & T1). unfold step.
      destruct (topo_settle_ok n links hd lk pl sdeg skip2 skip3 zero_get nb slk _ s 0%N _ (HS s) Hs H0 Hsd Hdeg2 Hdeg3 AV iD (iP ps) AC ps eq_refl AVc d1 tt st (proj2 (RV_all n _ _ _ _) R1') T1 Logic.I) as [(HQ & d2 & E2 & R2)|(u & d2 & e2 & st2 & E2 & R2 & T2 & J2 & M2)]; rewrite E2; cbn [bind]; apply (proj1 (RV_all n _ _ _ _)) in R2.
      + eexists; split; [reflexivity|]. exists st. split; auto.
      + eexists; split; [reflexivity|]. exists st2. split; auto. split; auto.
    - split; auto.
    - pose proof (M_bound n links hd lk pl sdeg skip2 skip3 zero_get nb slk _ s 0%N _ (HS s) Hs H0 Hsd Hdeg2 Hdeg3 AV iD (iP ps) AC ps eq_refl AVc _ _ TI0). unfold dij_fuel. lia.
    - rewrite E2. cbn [bind]. exists (mkSv d' (sv_pot sv)). split; auto. split. { split; auto. cbn. eapply R_Ready; eauto. } split; auto.
      intros v Hv. exists (aD st' v). assert (BD := t_D _ _ _ _ _ _ _ _ _ _ _ _ _ _ T2 v). split. { unfold sv_dist_of. cbn [sv_dij]. apply (R_get n d' st' v R2 Hv). } split. { lia. }
      assert (F : forall dd, reach gst s 0 v dd -> (dd < INF)%N -> (aD st' v <= dd)%N).
      { intros dd Hr Hdd. destruct (topo_frontier n links hd lk pl sdeg skip2 skip3 zero_get nb slk _ s 0%N _ (HS s) Hs H0 Hsd Hdeg2 Hdeg3 AV iD (iP ps) AC ps eq_refl AVc st' v dd (fun _ => Logic.I) T2 Hdd Hr) as [F|(y & dy & k & Hqy & _)]; auto.
        - intros. left. discriminate.
        - rewrite Q2 in Hqy. discriminate. }
      assert (EA : earliest gst s 0 v (if (aD st' v <? INF)%N then Some (aD st' v) else None)).
      { destruct (aD st' v <? INF)%N eqn:EL; cbn.
        - apply N.ltb_lt in EL. split; auto. split. { apply (t_reach _ _ _ _ _ _ _ _ _ _ _ _ _ _ T2 v EL). } intros dd Hr. destruct (N.lt_ge_cases dd INF); auto. lia.
        - apply N.ltb_ge in EL. intros dd Hr. destruct (N.lt_ge_cases dd INF) as [H|]; auto. specialize (F dd Hr H). lia. }
      split; auto. intros HI.
      destruct (topo_paths_ok n links hd lk pl sdeg skip2 skip3 zero_get nb slk _ s 0%N _ (HS s) Hs H0 Hsd Hdeg2 Hdeg3 AV iD (iP ps) AC ps eq_refl AVc d' st' v (proj2 (RV_all n _ _ _ _) R2) T2 HI) as (p & q & y & P1 & P2 & P3 & P4 & P5).
      exists p, q. split; auto. split; auto. split; auto.
      pose proof (rp_reach (HS s) Hs H0 _ _ _ _ P4) as RY. assert (y < INF)%N by lia. specialize (F y RY H). assert (y = aD st' v) by lia. subst y. auto.
  Qed.
End All.

(** * Static graphs *)
Section Static.
  Context {E : Type}.
  Variable n : nat.
  Variable links : nat -> option (list (nat * N)).
  Variable sdeg : nat -> option symdeg.
  Variables skip2 skip3 : bool.
  Variable pinit : E -> nat -> option E.
  Variable pget : E -> nat -> option (E * option N).
  Variable EI : E -> Prop.
  Variable ET : nat -> E -> Prop.
  Variable h : nat -> nat -> option N.
  Hypothesis WF : wf_links n links.
  Hypothesis HP : pot_contract n (fun t => t < n) pinit pget EI ET h.
  Hypothesis HL : forall t, t < n -> lower_bounds (garc links) t (h t).
  Hypothesis HD : degree_report n links sdeg.
  Notation dist := (sk_distance n links sdeg skip2 skip3 pinit pget).
  Notation all' := (sk_all n links sdeg skip2 skip3).
  Notation hist := (sk_history n links sdeg skip2 skip3 pinit pget).
  Let L1 := snb_links n links WF.
  Let L2 := snb_hd n links WF.
  Let L3 := snb_lk n links WF.
  Let L4 := sslk_mono n links.
  Let L5 := sslk_ext n links.

  Set Default Proof Using "All".
  Let oth u v : v < n -> others fst u (snb links v) = out_other links u v.
  Proof. intros Hv. unfold others, out_other. rewrite (L1 v Hv). reflexivity. Qed.
  Let D1 := proj1 HD.
  Let D2 : forall u a, u < n -> In a (snb links u) -> skip2 = true -> sdeg (fst a) = Some LessEqTwo -> length (others fst u (snb links (fst a))) <= 1.
  Proof. intros u (v, w) Hu Ha _ Hd. cbn [fst] in *. rewrite oth by (apply (L2 u (v, w) Hu Ha)). apply (proj2 HD u v w Hu); auto. exists (snb links u). split; auto. Qed.
  Let D3 : forall u a, u < n -> In a (snb links u) -> skip3 = true -> sdeg (fst a) = Some Three -> length (others fst u (snb links (fst a))) <= 2.
  Proof. intros u (v, w) Hu Ha _ Hd. cbn [fst] in *. rewrite oth by (apply (L2 u (v, w) Hu Ha)). apply (proj2 HD u v w Hu); auto. exists (snb links u). split; auto. Qed.

  Lemma lower_zero t : t < n -> h t t = Some 0%N.
  Proof. intros Ht. destruct (proj1 (HL t Ht) t 0%N) as (p & Hp & Hle). { constructor. } { reflexivity. } assert (p = 0%N) by lia. subst. auto. Qed.
  Lemma lower_adm t : t < n -> admissible_pot (garc links) t (h t).
  Proof. intros Ht u l W Hl. destruct (proj1 (HL t Ht) u l W Hl) as (p & Hp & Hle). exists p. split; auto. intros q _. lia. Qed.

  Lemma sk_distance_ok sv s t cap : SvOK n EI sv -> s < n -> t < n ->
    exists sv' r, dist sv s t cap = Some (sv', r) /\ SvOK n EI sv' /\ capped_answer (garc links) cap s t r /\
      forall x, r = Some x -> exists p y, sv_node_path sv' s t = Some p /\ npath (garc links) s p t y /\ (y <= x)%N /\ NoDup p.
  Proof.
    intros OK Hs Ht.
    destruct (skip_distance_ok n links fst def_lk def_pl sdeg skip2 skip3 pinit pget (snb links) sslk (fun t => t < n) EI ET h L1 L2 L3 L4 L5 HP D1 D2 D3 sv s t 0%N cap OK Hs Ht)
      as (sv' & r & E1 & OK' & X & Y & Z); auto. { reflexivity. } { apply (proj2 (HL t Ht)). } { apply admissible_static; auto. apply lower_adm; auto. }
    exists sv', r. split; auto. split; auto. split. split.
    - intros x Ex. destruct (X x Ex) as (Rx & Ix & _). split; [lia|]. destruct (reach_walk n links _ _ _ _ Rx) as (l & W & El). assert (l = x) by lia. subst; auto.
    - intros l W Il Cl. destruct (Y 0%N (0 + l)%N (lower_zero t Ht) (walk_reach n links WF s t l 0%N Hs W)) as (x & Ex & Lx); try lia.
      exists x. split; [auto|lia].
    - intros x Ex. destruct (X x Ex) as (_ & _ & p & q & y & P1 & P2 & P3 & P4 & P5). exists p, y. split; auto. split; auto.
      eapply rp_npath; [|exact P3]. intros u d l v d' (Hu & a & Ha & _ & <- & <- & _). exists (snd a). split; auto. apply snb_in; auto.
  Qed.

  Lemma sk_all_ok sv s : SvOK n EI sv -> s < n ->
    exists sv', all' sv s = Some sv' /\ SvOK n EI sv' /\
      forall v, v < n -> exists x, sv_dist_of sv' v = Some x /\ exact_answer (garc links) s v (if (x <? INF)%N then Some x else None) /\
        ((x < INF)%N -> exists p, sv_node_path sv' s v = Some p /\ npath (garc links) s p v x /\ NoDup p).
  Proof.
    intros OK Hs.
    destruct (skip_all_ok n links fst def_lk def_pl sdeg skip2 skip3 (snb links) sslk EI L1 L2 L3 L4 L5 D1 D2 D3 sv s OK Hs) as (sv' & E1 & OK' & _ & X).
    exists sv'. split; auto. split; auto. intros v Hv. destruct (X v Hv) as (x & X1 & X2 & X3 & X4). exists x. split; auto. split. { apply (earliest_exact n links WF); auto. }
    intros Hx. destruct (X4 Hx) as (p & q & P1 & P2 & P3 & P4). exists p. split; auto. split; auto.
    eapply rp_npath; [|exact P3]. intros u d l w d' (Hu & a & Ha & _ & <- & <- & _). exists (snd a). split; auto. apply snb_in; auto.
  Qed.

  Lemma sk_hist_ok e ops : EI e -> Forall (sk_ok n) ops -> exists sv, hist e ops = Some sv /\ SvOK n EI sv.
  Proof.
    intros He Hops. unfold sk_history.
    assert (G : forall ops sv, SvOK n EI sv -> Forall (sk_ok n) ops -> exists sv', foldM (sk_step n links sdeg skip2 skip3 pinit pget) ops sv = Some sv' /\ SvOK n EI sv').
    { clear ops Hops. induction ops as [|op ops IH]; intros sv OK Hops. { exists sv. auto. }
      inversion Hops as [|? ? H1 H2]; subst. cbn [foldM].
      assert (X : exists sv1, sk_step n links sdeg skip2 skip3 pinit pget sv op = Some sv1 /\ SvOK n EI sv1).
      { destruct op as [s t cap|s]; cbn [sk_ok sk_step] in *.
        - destruct (sk_distance_ok sv s t cap OK) as (sv1 & r & E1 & OK1 & _); try tauto. rewrite E1. cbn [bind]. eauto.
        - destruct (sk_all_ok sv s OK H1) as (sv1 & E1 & OK1 & _). eauto. }
      destruct X as (sv1 & E1 & OK1). rewrite E1. cbn [bind]. apply IH; auto. }
    apply G; auto. apply (sv_new_ok n EI tt e He).
  Qed.
End Static.

Lemma capped_exact arc s t r : capped_answer arc INF s t r -> exact_answer arc s t r.
Proof.
  intros [H1 H2]. destruct r as [x|]; cbn.
  - destruct (H1 x eq_refl) as [Hx W]. split; auto. split; auto. intros l W'. destruct (N.lt_ge_cases l INF) as [Hl|]; [|lia].
    destruct (H2 l W' Hl) as (y & [= <-] & Hy); lia.
  - intros l W. destruct (N.lt_ge_cases l INF) as [Hl|]; auto. destruct (H2 l W Hl) as (y & Ey & _); [lia|]. discriminate.
Qed.
