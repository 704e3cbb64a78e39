(** The Dijkstra server: exactness, paths, independence of earlier queries. *)
From Verif Require Import Base SpecPQ SpecGraph SpecBits BitVec FastClearProof IndexHeap IndexHeapProof TsVec TsVecProof Graph Dijkstra LoopProof DijkstraRef DijkstraProof DijServer.

Section Server.
  Context {A P E : Type}.
  Variable n : nat.
  Variable links : nat -> option (list A).
  Variable hd : A -> nat.
  Variable lk : nat -> N -> A -> option N.
  Variable pl : A -> P.
  Variable pinit : E -> nat -> option E.
  Variable pget : E -> nat -> option (E * option N).
  Variable nb : nat -> list A.
  Variable slk : nat -> N -> A -> N.
  Variable T : nat -> Prop.
  Variable EI : E -> Prop.
  Variable ET : nat -> E -> Prop.
  Variable h : nat -> nat -> option N.

  Hypothesis Hlinks : forall u, u < n -> links u = Some (nb u).
  Hypothesis Hhd : forall u a, u < n -> In a (nb u) -> hd a < n.
  Hypothesis Hlk : forall u a d, u < n -> In a (nb u) -> (d < INF)%N ->
    exists x, lk u d a = Some x /\ ((slk u d a < INF)%N -> x = slk u d a) /\ ((INF <= slk u d a)%N -> (INF <= x)%N).
  Hypothesis Hmono : forall u a d d', u < n -> In a (nb u) -> (d <= d')%N -> (slk u d a <= slk u d' a)%N.
  Hypothesis Hext : forall u a d, u < n -> In a (nb u) -> (d <= slk u d a)%N.
  Hypothesis HP : pot_contract n T pinit pget EI ET h.

  Notation gst := (gstep n hd all_edges nb slk).
  Notation gstl := (gstepl n hd pl all_edges nb slk).
  Notation dist' := (sv_distance n links hd lk pl pinit pget).

  Definition SvOK (sv : server P E) : Prop := Ready n (sv_dij sv) /\ EI (sv_pot sv).

  Definition Juni (t : nat) (D AA : nat -> N) (e : E) : Prop := ET t e /\ forall v, AA v = D v.

  Lemma Juni_pot t D AA e v : Juni t D AA e -> v < n -> exists e', pget e v = Some (e', h t v) /\ Juni t D AA e'.
  Proof. intros [H1 H2] Hv. destruct (pc_get _ _ _ _ _ _ _ HP e t v H1 Hv) as (e' & E1 & H3). exists e'. split; auto. split; auto. Qed.
  Lemma Juni_cb t D AA e v x (X : Prop) : Juni t D AA e -> v < n -> (x < D v)%N -> (D v <= INF)%N -> X ->
    exists e' b, no_cb e v x = Some (e', b) /\ Juni t (fupd D v x) (if b : bool then fupd AA v x else AA) e'.
  Proof. intros [H1 H2] _ _ _ _. exists e, true. split; auto. split; auto. intros y. unfold fupd. destruct (y =? v); auto. Qed.

  Lemma Juni_ok s t d0 : (forall v p, h t v = Some p -> (p + INF <= U32)%N) -> search_ok n links hd lk all_edges no_cb pget nb slk (h t) s d0 (Juni t).
  Proof. intros Hpi. split; auto. { apply Juni_pot. } intros D AA e v x. apply Juni_cb. Qed.
  Lemma Juni_A t D AA e : Juni t D AA e -> forall v, AA v = D v.
  Proof. intros [_ H]; auto. Qed.

  Lemma sv_new_ok p0 e : EI e -> SvOK (sv_new n p0 e).
  Proof. intros H. split; auto. apply new_Ready. Qed.

  Lemma sv_distance_ok sv s t d0 : SvOK sv -> s < n -> (d0 < INF)%N -> T t -> (forall v p, h t v = Some p -> (p + INF <= U32)%N) ->
    admissible n hd all_edges nb slk (h t) s d0 t ->
    exists sv' r, dist' sv s t d0 = Some (sv', r) /\ SvOK sv' /\ earliest gst s d0 t r /\
      forall x, r = Some x -> t < n /\ sv_dist_of sv' t = Some x /\
        exists p q, sv_node_path sv' s t = Some p /\ sv_edge_path sv' s t = Some q /\ reach_path P gstl s d0 t x p q /\ NoDup p.
  Proof.
    intros [HR HE] Hs Hd0 Ht Hpi Hadm. unfold sv_distance.
    destruct (init_refines n (sv_dij sv) s d0 HR Hs) as (d & pr & E1 & R1). rewrite E1. cbn [bind].
    destruct (pc_init _ _ _ _ _ _ _ HP (sv_pot sv) t HE Ht) as (e & E2 & H2). rewrite E2. cbn [bind].
    assert (HJ : Juni t (aD (initA (P := P) s d0 pr)) (aA (initA (P := P) s d0 pr)) e) by (split; auto).
    destruct (run_exact (pl:=pl) (Juni_ok s t d0 Hpi) Hs Hd0 (Juni_A t) d e pr t R1 HJ Hadm)
      as (d' & e' & r & st' & E3 & R3 & G3 & J3 & X3 & D3).
    rewrite E3. cbn [bind]. exists (mkSv d' e'), r. split; auto. split. { split; cbn. { eapply R_Ready; eauto. } eapply pc_keep; eauto. apply J3. }
    split; auto. intros x ->. specialize (D3 x eq_refl). destruct X3 as (XI & XR & XM).
    assert (Htn : t < n). { inversion XR as [|v dd y d'' Rv Sv]; subst; auto. destruct Sv as (Hv & a & Ha & _ & <- & _). apply (Hhd v); auto. }
    split; auto. split. { unfold sv_dist_of. cbn [sv_dij]. rewrite (ts_get_spec N INF n _ _ t (r_dist n d' st' R3)), (proj2 (Nat.ltb_lt t n) Htn), D3. auto. }
    destruct (paths_ok (Juni_ok s t d0 Hpi) Hs Hd0 d' st' t R3 G3) as (p & q & y & P1 & P2 & P3 & P4 & P5). { congruence. }
    exists p, q. split; auto. split; auto. split; auto.
    assert (y = x). { pose proof (rp_reach (Juni_ok s t d0 Hpi) Hs Hd0 _ _ _ _ P4) as RY. specialize (XM y RY). lia. } subst y. auto.
  Qed.

  (** one-to-all: every node gets its exact label; INF = unreachable *)
  Lemma sv_all_ok sv s d0 : SvOK sv -> s < n -> (d0 < INF)%N -> T n -> (forall v p, h n v = Some p -> (p + INF <= U32)%N) ->
    (forall v, v < n -> h n v <> None) ->
    exists sv' r, dist' sv s n d0 = Some (sv', r) /\ SvOK sv' /\
      forall v, v < n -> exists x, sv_dist_of sv' v = Some x /\ (x <= INF)%N /\ earliest gst s d0 v (if (x <? INF)%N then Some x else None) /\
        ((x < INF)%N -> exists p q, sv_node_path sv' s v = Some p /\ sv_edge_path sv' s v = Some q /\ reach_path P gstl s d0 v x p q /\ NoDup p).
  Proof.
    intros [HR HE] Hs Hd0 Ht Hpi Hpn. unfold sv_distance.
    destruct (init_refines n (sv_dij sv) s d0 HR Hs) as (d & pr & E1 & R1). rewrite E1. cbn [bind].
    destruct (pc_init _ _ _ _ _ _ _ HP (sv_pot sv) n HE Ht) as (e & E2 & H2). rewrite E2. cbn [bind].
    assert (HJ : Juni n (aD (initA (P := P) s d0 pr)) (aA (initA (P := P) s d0 pr)) e) by (split; auto).
    destruct (run_all (pl:=pl) (Juni_ok s n d0 Hpi) Hs Hd0 (Juni_A n) d e pr R1 HJ Hpn)
      as (d' & e' & st' & E3 & R3 & G3 & J3 & X3).
    rewrite E3. cbn [bind]. exists (mkSv d' e'), None. split; auto. split. { split; cbn. { eapply R_Ready; eauto. } eapply pc_keep; eauto. apply J3. }
    intros v Hv. exists (aD st' v). split. { unfold sv_dist_of. cbn [sv_dij]. rewrite (ts_get_spec N INF n _ _ v (r_dist n d' st' R3)), (proj2 (Nat.ltb_lt v n) Hv). auto. }
    destruct (X3 v Hv) as [X4 X5]. split; auto. split; auto. intros HI.
    destruct (paths_ok (Juni_ok s n d0 Hpi) Hs Hd0 d' st' v R3 G3 HI) as (p & q & y & P1 & P2 & P3 & P4 & P5).
    exists p, q. split; auto. split; auto. split; auto.
    assert (y = aD st' v). { pose proof (rp_reach (Juni_ok s n d0 Hpi) Hs Hd0 _ _ _ _ P4) as RY. apply N.ltb_lt in HI. rewrite HI in X4. destruct X4 as (_ & _ & XM). specialize (XM y RY). lia. } subst y. auto.
  Qed.

  (** the same query on two servers with different histories *)
  Lemma sv_distance_det sv1 sv2 s t d0 : SvOK sv1 -> SvOK sv2 -> s < n -> (d0 < INF)%N -> T t -> (forall v p, h t v = Some p -> (p + INF <= U32)%N) ->
    admissible n hd all_edges nb slk (h t) s d0 t ->
    exists sv1' sv2' r, dist' sv1 s t d0 = Some (sv1', r) /\ dist' sv2 s t d0 = Some (sv2', r) /\
      (r <> None -> sv_node_path sv1' s t = sv_node_path sv2' s t /\ sv_edge_path sv1' s t = sv_edge_path sv2' s t).
  Proof.
    intros H1 H2 Hs Hd0 Ht Hpi Hadm.
    destruct (sv_distance_ok sv1 s t d0 H1 Hs Hd0 Ht Hpi Hadm) as (sv1' & r & F1 & _ & _ & X1).
    destruct H1 as [HR1 HE1], H2 as [HR2 HE2]. unfold sv_distance in *.
    destruct (init_refines n (sv_dij sv1) s d0 HR1 Hs) as (d1 & pr1 & E1 & R1).
    destruct (init_refines n (sv_dij sv2) s d0 HR2 Hs) as (d2 & pr2 & E2 & R2). rewrite E1, E2 in *. cbn [bind] in *.
    destruct (pc_init _ _ _ _ _ _ _ HP (sv_pot sv1) t HE1 Ht) as (e1 & I1 & T1).
    destruct (pc_init _ _ _ _ _ _ _ HP (sv_pot sv2) t HE2 Ht) as (e2 & I2 & T2). rewrite I1, I2 in *. cbn [bind] in *.
    assert (J1 : Juni t (aD (initA (P := P) s d0 pr1)) (aA (initA (P := P) s d0 pr1)) e1) by (split; auto).
    assert (J2 : Juni t (aD (initA (P := P) s d0 pr2)) (aA (initA (P := P) s d0 pr2)) e2) by (split; auto).
    destruct (run_det (pl:=pl) (Juni_ok s t d0 Hpi) Hs Hd0 (Juni_A t) d1 e1 pr1 d2 e2 pr2 t R1 J1 R2 J2)
      as (d1' & e1' & d2' & e2' & r' & G1 & G2 & st1 & st2 & A1 & A2 & A3 & A4 & A5).
    rewrite G1 in F1. cbn [bind] in F1. injection F1 as <- <-. rewrite G1, G2. cbn [bind]. eexists; eexists; eexists. split; [reflexivity|]. split; [reflexivity|].
    intros Hr. unfold sv_node_path, sv_edge_path. cbn [sv_dij].
    destruct r' as [x|]; [|congruence]. destruct (X1 x eq_refl) as (Htn & Hx & p & q & _ & _ & RP & _).
    unfold sv_dist_of in Hx. cbn [sv_dij] in Hx. rewrite (ts_get_spec N INF n _ _ t (r_dist n d1' st1 A1)), (proj2 (Nat.ltb_lt t n) Htn) in Hx. injection Hx as Hx.
    apply (paths_det (pl:=pl) (Juni_ok s t d0 Hpi) Hs Hd0 (Juni_A t) d1' d2' st1 st2 t); auto.
    (* the label of t is below INF: it is the answer *)
    destruct (sv_distance_ok sv1 s t d0 (conj HR1 HE1) Hs Hd0 Ht Hpi Hadm) as (sv3 & r3 & F3 & _ & X3 & _).
    unfold sv_distance in F3. rewrite E1 in F3. cbn [bind] in F3. rewrite I1 in F3. cbn [bind] in F3. rewrite G1 in F3. cbn [bind] in F3. injection F3 as <- <-. destruct X3. lia.
  Qed.
End Server.

(** * Static graphs *)
Section Static.
  Variable n : nat.
  Variable links : nat -> option (list (nat * N)).
  Hypothesis WF : wf_links n links.

  Definition snb (u : nat) : list (nat * N) := match links u with Some l => l | None => [] end.
  Definition sslk (u : nat) (d : N) (a : nat * N) : N := (d + snd a)%N.
  Notation arc := (garc links).

  Lemma snb_links u : u < n -> links u = Some (snb u).
  Proof. intros Hu. destruct (WF u Hu) as (ls & E & _). unfold snb. rewrite E. auto. Qed.
  Lemma snb_hd u a : u < n -> In a (snb u) -> fst a < n.
  Proof. intros Hu. destruct (WF u Hu) as (ls & E & H). unfold snb. rewrite E. destruct a as [v w]. apply H. Qed.
  Lemma snb_w u a : u < n -> In a (snb u) -> (snd a <= INF)%N.
  Proof. intros Hu. destruct (WF u Hu) as (ls & E & H). unfold snb. rewrite E. destruct a as [v w]. apply H. Qed.
  Lemma snb_lk u a d : u < n -> In a (snb u) -> (d < INF)%N ->
    exists x, def_lk u d a = Some x /\ ((sslk u d a < INF)%N -> x = sslk u d a) /\ ((INF <= sslk u d a)%N -> (INF <= x)%N).
  Proof.
    intros Hu Ha Hd. pose proof (snb_w u a Hu Ha). unfold def_lk, sslk. rewrite cadd_ok by (unfold INF, U32 in *; lia). eexists; split; [reflexivity|]. auto.
  Qed.

  Lemma snb_in u a : In a (snb u) <-> arc u (fst a) (snd a).
  Proof.
    unfold snb, garc. destruct (links u) as [l|] eqn:E.
    - split. { intros H. exists l. destruct a; auto. } intros (l' & [= <-] & H). destruct a; auto.
    - split; [intros []|]. intros (l' & [=] & _).
  Qed.

  (** reach = walk *)
  Lemma reach_walk s d0 v d : reach (gstep n fst all_edges snb sslk) s d0 v d -> exists l, walk arc s v l /\ d = (d0 + l)%N.
  Proof.
    induction 1 as [|v d y d' H (l & IH & ->) (Hv & a & Ha & _ & <- & <-)]. { exists 0%N. split; [constructor|lia]. }
    exists (l + snd a)%N. split. { eapply walk_snoc; eauto. apply snb_in; auto. } unfold sslk. lia.
  Qed.
  Lemma walk_lt s v l : s < n -> walk arc s v l -> v < n.
  Proof. intros Hs H. revert Hs. induction H as [|u v t w l (ls & E & Ha) H IH]; intros Hu; auto. apply IH. destruct (WF u Hu) as (ls' & E' & X). assert (ls' = ls) by congruence. subst. apply (X v w Ha). Qed.
  Lemma walk_reach s v l d0 : s < n -> walk arc s v l -> reach (gstep n fst all_edges snb sslk) s d0 v (d0 + l)%N.
  Proof.
    intros Hs H. assert (G : forall d, reach (gstep n fst all_edges snb sslk) s d v (d + l)%N).
    { clear d0. induction H as [u|u v t w l Ha H IH]; intros d. { rewrite N.add_0_r. constructor. }
      assert (Hv : v < n). { apply (walk_lt u v (w + 0)); auto. econstructor; eauto. constructor. }
      rewrite N.add_assoc. eapply reach_app. 2: apply IH; auto.
      eapply reach_snoc; [apply reach_nil|]. split; auto. exists (v, w). split. { apply snb_in; auto. } auto. }
    apply G.
  Qed.
  Lemma earliest_exact s t r : s < n -> earliest (gstep n fst all_edges snb sslk) s 0 t r -> exact_answer arc s t r.
  Proof.
    intros Hs. destruct r as [d|]; cbn.
    - intros (HI & HR & HM). split; auto. split. { destruct (reach_walk _ _ _ _ HR) as (l & H & ->). auto. }
      intros l H. specialize (HM (0 + l)%N (walk_reach s t l 0%N Hs H)). lia.
    - intros HM l H. specialize (HM (0 + l)%N (walk_reach s t l 0%N Hs H)). lia.
  Qed.

  Lemma admissible_static t h s d0 : admissible_pot arc t h -> admissible n fst all_edges snb sslk h s d0 t.
  Proof.
    intros H x dx d R1 R2 Hd. destruct (reach_walk _ _ _ _ R2) as (l & W & ->). destruct (H x l W ltac:(lia)) as (p & Hp & Hq).
    exists p. split; auto. intros q Hq'. specialize (Hq q Hq'). lia.
  Qed.

  (** node paths *)
  Lemma rp_npath {P} (lstep : nat -> N -> P -> nat -> N -> Prop) s v x p q :
    (forall u d l v d', lstep u d l v d' -> exists w, arc u v w /\ d' = (d + w)%N) ->
    reach_path P lstep s 0 v x p q -> npath arc s p v x.
  Proof.
    intros HL. induction 1 as [|v d l y d' p q H IH Hst]. { constructor. }
    destruct (HL _ _ _ _ _ Hst) as (w & Ha & ->). eapply npath_app; eauto. rewrite <- (N.add_0_r w). econstructor; eauto. constructor.
  Qed.
End Static.

(** Contract of the zero potential *)
Lemma zero_contract n : pot_contract n (fun _ => True) zero_init zero_pot (fun _ => True) (fun _ _ => True) (fun _ _ => Some 0%N).
Proof. split; auto. - intros e t _ _. exists e. auto. - intros e t v _ _. exists e. auto. Qed.

Lemma zero_admissible arc t : admissible_pot arc t (fun _ => Some 0%N).
Proof. intros u l _ _. exists 0%N. split; auto. intros; lia. Qed.

(** * Graphs with edge ids *)
Section StaticIds.
  Variable n : nat.
  Variable links : nat -> option (list (nat * N * nat)).
  Definition wf_links_ids : Prop := forall u, u < n -> exists ls, links u = Some ls /\ forall v w e, In (v, w, e) ls -> v < n /\ (w <= INF)%N.
  Hypothesis WF : wf_links_ids.
  Definition inb (u : nat) : list (nat * N * nat) := match links u with Some l => l | None => [] end.
  Definition islk (u : nat) (d : N) (a : nat * N * nat) : N := (d + snd (fst a))%N.
  Notation earc := (garc_ids links).
  Notation arc := (fun u v w => exists e, earc u e v w).

  Lemma inb_links u : u < n -> links u = Some (inb u).
  Proof. intros Hu. destruct (WF u Hu) as (ls & E & _). unfold inb. rewrite E. auto. Qed.
  Lemma inb_hd u a : u < n -> In a (inb u) -> lp_hd a < n.
  Proof. intros Hu. destruct (WF u Hu) as (ls & E & H). unfold inb. rewrite E. destruct a as [[v w] e]. apply H. Qed.
  Lemma inb_lk u a d : u < n -> In a (inb u) -> (d < INF)%N ->
    exists x, lp_lk u d a = Some x /\ ((islk u d a < INF)%N -> x = islk u d a) /\ ((INF <= islk u d a)%N -> (INF <= x)%N).
  Proof.
    intros Hu Ha Hd. destruct (WF u Hu) as (ls & E & H). unfold inb in Ha. rewrite E in Ha. destruct a as [[v w] e]. destruct (H v w e Ha) as [_ Hw].
    unfold lp_lk, islk. cbn [fst snd]. rewrite cadd_ok by (unfold INF, U32 in *; lia). eexists; split; [reflexivity|]. auto.
  Qed.
  Lemma inb_in u a : In a (inb u) <-> earc u (snd a) (lp_hd a) (snd (fst a)).
  Proof.
    unfold inb, garc_ids. destruct a as [[v w] e]. cbn. destruct (links u) as [l|] eqn:E.
    - split. { intros H. exists l. auto. } intros (l' & [= <-] & H). auto.
    - split; [intros []|]. intros (l' & [=] & _).
  Qed.
  Lemma ireach_walk s d0 v d : reach (gstep n lp_hd all_edges inb islk) s d0 v d -> exists l, walk arc s v l /\ d = (d0 + l)%N.
  Proof.
    induction 1 as [|v d y d' H (l & IH & ->) (Hv & a & Ha & _ & <- & <-)]. { exists 0%N. split; [constructor|lia]. }
    exists (l + snd (fst a))%N. split. { eapply walk_snoc; eauto. exists (snd a). apply inb_in; auto. } unfold islk. lia.
  Qed.
  Lemma iarc_lt u v w : u < n -> arc u v w -> v < n.
  Proof. intros Hu (e & l & E & H). destruct (WF u Hu) as (ls & E' & X). rewrite E in E'. injection E' as <-. apply (X v w e H). Qed.
  Lemma iwalk_reach s v l d0 : s < n -> walk arc s v l -> reach (gstep n lp_hd all_edges inb islk) s d0 v (d0 + l)%N.
  Proof.
    intros Hs H. revert d0. induction H as [u|u v t w l Ha H IH]; intros d. { rewrite N.add_0_r. constructor. }
    pose proof (iarc_lt u v w Hs Ha). destruct Ha as (e & Ha).
    rewrite N.add_assoc. eapply reach_app. 2: apply IH; auto.
    eapply reach_snoc; [apply reach_nil|]. split; auto. exists (v, w, e). split. { apply inb_in; auto. } auto.
  Qed.
  Lemma iearliest_exact s t r : s < n -> earliest (gstep n lp_hd all_edges inb islk) s 0 t r -> exact_answer arc s t r.
  Proof.
    intros Hs. destruct r as [d|]; cbn.
    - intros (HI & HR & HM). split; auto. split. { destruct (ireach_walk _ _ _ _ HR) as (l & H & ->). auto. }
      intros l H. specialize (HM (0 + l)%N (iwalk_reach s t l 0%N Hs H)). lia.
    - intros HM l H. specialize (HM (0 + l)%N (iwalk_reach s t l 0%N Hs H)). lia.
  Qed.
  Lemma irp_epath s v x p q : reach_path nat (gstepl n lp_hd lp_pl all_edges inb islk) s 0 v x p q -> epath earc s p q v x.
  Proof.
    induction 1 as [|v d l y d' p q H IH (Hv & a & Ha & _ & <- & <- & <-)]. { constructor. }
    unfold islk. eapply epath_app; eauto. rewrite <- (N.add_0_r (snd (fst a))). econstructor. { apply inb_in; auto. } constructor.
  Qed.
  Lemma iadmissible t h s d0 : admissible_pot arc t h -> admissible n lp_hd all_edges inb islk h s d0 t.
  Proof.
    intros H x dx d R1 R2 Hd. destruct (ireach_walk _ _ _ _ R2) as (l & W & ->). destruct (H x l W ltac:(lia)) as (p & Hp & Hq).
    exists p. split; auto. intros q Hq'. specialize (Hq q Hq'). lia.
  Qed.
End StaticIds.

(** * Potentials *)
Lemma rec_contract {E} n T pinit pget EI ET h : pot_contract (E := E) n T pinit pget EI ET h ->
  pot_contract n T (rec_init pinit) (rec_get pget)
    (fun e => match snd e with None => EI (fst e) | Some t => T t /\ ET t (fst e) end) (fun t e => T t /\ snd e = Some t /\ ET t (fst e)) h.
Proof.
  intros [H1 H2 H3]. split.
  - intros (e & o) t He Ht. unfold rec_init. cbn [fst snd] in *.
    assert (X : EI e -> exists e', (x <- pinit e t ;; Some (x, Some t)) = Some e' /\ T t /\ snd e' = Some t /\ ET t (fst e')).
    { intros HE. destruct (H1 e t HE Ht) as (e' & -> & Y). exists (e', Some t). auto. }
    destruct o as [t'|]; auto. destruct (Nat.eqb_spec t' t) as [->|]. { exists (e, Some t). tauto. } apply X. eapply H3. apply He.
  - intros (e & o) t v (A & B & C) Hv. cbn [fst snd] in *. unfold rec_get. cbn [fst snd]. destruct (H2 e t v C Hv) as (e' & -> & Y). exists (e', o). cbn. auto.
  - intros (e & o) t (A & B & C). cbn [fst snd] in *. subst o. auto.
Qed.

Section Baseline.
  Variable n : nat.
  Variable rlinks : nat -> option (list (nat * N)).
  Hypothesis WF : wf_links n rlinks.

  Lemma base_run e t : Ready n e -> t < n -> exists d, base_init n rlinks e t = Some d /\ Ready n d /\
    forall v, v < n -> exists x, ts_get N INF (d_dist d) v = Some x /\ exact_answer (garc rlinks) t v (if (x <? INF)%N then Some x else None).
  Proof.
    intros HR Ht.
    destruct (sv_all_ok n rlinks fst def_lk def_pl zero_init zero_get (snb rlinks) sslk (fun _ => True) (fun _ => True) (fun _ _ => True) (fun _ _ => Some 0%N)
      (snb_links n rlinks WF) (snb_hd n rlinks WF) (snb_lk n rlinks WF) ltac:(unfold sslk; lia) ltac:(unfold sslk; lia)
      (zero_contract n) (mkSv e tt) t 0%N) as (sv' & r & E1 & [HR' _] & X); [split; auto|auto|reflexivity|exact I|unfold INF, U32; intros v p [= <-]; lia|discriminate|].
    unfold sv_distance in E1. cbn [sv_dij sv_pot] in E1. unfold zero_init in E1. unfold base_init.
    destruct (dij_init e t 0) as [d|]; [|discriminate]. cbn [bind] in *.
    destruct (run_until _ _ _ _ _ _ _ _ _ _ _) as [[[d' e'] r']|] eqn:F; [|discriminate]. cbn [bind] in *. injection E1 as <- <-. cbn [sv_dij] in *.
    exists d'. split; auto. split; auto. intros v Hv. destruct (X v Hv) as (x & Y1 & Y2 & Y3 & _). exists x. split; auto.
    apply (earliest_exact n rlinks WF) in Y3; auto.
  Qed.

  Definition base_h (t v : nat) : option N :=
    match base_init n rlinks (dij_new n tt) t with
    | Some d => match ts_get N INF (d_dist d) v with Some x => if (x <? INF)%N then Some x else None | None => None end
    | None => None
    end.
  Lemma base_h_exact t v : t < n -> v < n -> exact_answer (garc rlinks) t v (base_h t v).
  Proof.
    intros Ht Hv. destruct (base_run (dij_new n tt) t (new_Ready n tt) Ht) as (d & E1 & _ & X). unfold base_h. rewrite E1.
    destruct (X v Hv) as (x & -> & Y). auto.
  Qed.
  Lemma exact_unique arc s t r1 r2 : exact_answer arc s t r1 -> exact_answer arc s t r2 -> r1 = r2.
  Proof.
    destruct r1 as [x|], r2 as [y|]; cbn; auto.
    - intros (_ & A1 & A2) (_ & B1 & B2). specialize (A2 _ B1). specialize (B2 _ A1). f_equal. lia.
    - intros (A & A1 & A2) B. specialize (B _ A1). lia.
    - intros B (A & A1 & A2). specialize (B _ A1). lia.
  Qed.
  Lemma base_contract : pot_contract n (fun t => t < n) (base_init n rlinks) base_get (Ready n)
    (fun t d => t < n /\ Ready n d /\ forall v, v < n -> exists x, ts_get N INF (d_dist d) v = Some x /\ exact_answer (garc rlinks) t v (if (x <? INF)%N then Some x else None)) base_h.
  Proof.
    split.
    - intros e t He Ht. destruct (base_run e t He Ht) as (d & E1 & R1 & X). exists d. auto.
    - intros e t v (Ht & HR & X) Hv. destruct (X v Hv) as (x & Y1 & Y2). exists e. unfold base_get. rewrite Y1. cbn [bind].
      rewrite (exact_unique _ _ _ _ _ Y2 (base_h_exact t v Ht Hv)). auto.
    - intros e t (_ & H & _). auto.
  Qed.
  Lemma base_feasible arc t : (forall u v w, garc rlinks v u w <-> arc u v w) -> (forall u v w, arc u v w -> u < n /\ v < n) -> t < n -> admissible_pot arc t (base_h t).
  Proof.
    intros HA HL Ht u l W Hl.
    assert (Hu : u < n). { destruct W; auto. apply (HL _ _ _ H). }
    assert (W' : walk (garc rlinks) t u l). { apply walk_flip in W. eapply walk_mono; [|exact W]. intros a b w. unfold flip_arc. apply HA. }
    pose proof (base_h_exact t u Ht Hu) as X. pose proof (base_h_exact t t Ht Ht) as Y.
    destruct (base_h t u) as [p|]; cbn in X. 2: { specialize (X _ W'). lia. }
    exists p. split; auto. intros q _. destruct X as (_ & _ & X). specialize (X _ W'). lia.
  Qed.
  Lemma base_bound t v p : base_h t v = Some p -> (p + INF <= U32)%N.
  Proof. unfold base_h. destruct (base_init _ _ _ _); [|discriminate]. destruct (ts_get _ _ _ _) as [x|]; [|discriminate]. destruct (N.ltb_spec x INF); [|discriminate]. intros [= <-]. unfold INF, U32 in *. lia. Qed.
End Baseline.

(** TurnExpandedPotential *)
Section Te.
  Context {E : Type}.
  Lemma te_contract n T (pinit : E -> nat -> option E) pget EI ET h (tail : list nat) : pot_contract n T pinit pget EI ET h -> (forall e u, nth_error tail e = Some u -> u < n) ->
    pot_contract (length tail) (fun t => exists u, nth_error tail t = Some u /\ T u) (te_init pinit tail) (te_get pget tail) EI
      (fun t e => exists u, nth_error tail t = Some u /\ ET u e) (fun t v => h (nth t tail 0) (nth v tail 0)).
  Proof.
    intros [H1 H2 H3] HT. split.
    - intros e t He (u & Hu & Tu). unfold te_init. rewrite Hu. cbn [bind]. destruct (H1 e u He Tu) as (e' & -> & X). eauto.
    - intros e t v (u & Hu & X) Hv. unfold te_get. destruct (nth_error_lt tail v Hv) as (x & Hx). rewrite Hx. cbn [bind].
      rewrite (nth_error_nth _ _ 0 Hu), (nth_error_nth _ _ 0 Hx). destruct (H2 e u x X (HT _ _ Hx)) as (e' & -> & Y). eauto.
    - intros e t (u & _ & X). eauto.
  Qed.
  (** line graph arcs cost at least the weight of the edge left behind *)
  Lemma te_admissible (arc larc : nat -> nat -> N -> Prop) h (tail : list nat) t : 
    (forall e e' c, larc e e' c -> exists w, arc (nth e tail 0) (nth e' tail 0) w /\ (w <= c)%N) ->
    admissible_pot arc (nth t tail 0) h -> admissible_pot larc t (fun v => h (nth v tail 0)).
  Proof.
    intros HL H u l W Hl.
    assert (G : exists l', walk arc (nth u tail 0) (nth t tail 0) l' /\ (l' <= l)%N).
    { clear Hl H. induction W as [|u v t w l Ha W (l' & IH & Hle)]. { exists 0%N. split; [constructor|lia]. }
      destruct (HL _ _ _ Ha) as (w' & A1 & A2). exists (w' + l')%N. split; [econstructor; eauto|lia]. }
    destruct G as (l' & W' & Hle). destruct (H _ l' W' ltac:(lia)) as (p & Hp & Hq). exists p. split; auto. intros q E1. specialize (Hq q E1). lia.
  Qed.
  Lemma te_tail_ok n deg ds : length ds = n -> (forall u, u < n -> deg u = nth_error ds u) ->
    te_tail n deg = Some (flat_map (fun u => repeat u (nth u ds 0)) (seq 0 n)).
  Proof.
    intros Hl Hd. unfold te_tail.
    assert (G : forall k acc, k <= n -> foldM (fun t u => d <- deg u ;; Some (t ++ repeat u d)) (seq (n - k) k) acc = Some (acc ++ flat_map (fun u => repeat u (nth u ds 0)) (seq (n - k) k))).
    { induction k as [|k IH]; intros acc Hk. { cbn. rewrite app_nil_r. auto. }
      cbn [seq foldM flat_map]. rewrite Hd by lia. destruct (nth_error_lt ds (n - S k)) as (d & E1); [lia|]. rewrite E1. cbn [bind].
      replace (S (n - S k)) with (n - k) by lia. rewrite IH by lia. rewrite (nth_error_nth _ _ 0 E1), app_assoc. auto. }
    specialize (G n [] ltac:(lia)). rewrite Nat.sub_diag in G. auto.
  Qed.
End Te.
