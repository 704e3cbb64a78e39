(** Parallel perfect customization: every interleaving gives the result of the sequential routine. *)
From Verif Require Import Base BitVec Graph SpecGraph SpecCCH CCH CCHTheory CCHContractProof CCHBuildProof CCHCustProof CCHPathTheory NodeOrder SepTree SepTreeProof CCHPar CCHParProof CCHParTreeProof CCHPerfect CCHPerfectProof.

Lemma qtask_ind2 (P : qtask -> Prop) : (forall code subs, Forall P subs -> P (QExec code subs)) -> (forall p code subs, Forall P subs -> P (QRun p code subs)) ->
  (forall subs, Forall P subs -> P (QScope subs)) -> forall t, P t.
Proof.
  intros H1 H2 H3. fix IH 1. intros [code subs|p code subs|subs]; [apply H1|apply H2|apply H3]; induction subs; constructor; try apply IH; assumption.
Qed.

(** ** termination *)
Fixpoint qsize (t : qtask) : nat :=
  match t with
  | QExec code subs => 2 + length code + list_sum (map qsize subs)
  | QRun _ code subs => 1 + length code + list_sum (map qsize subs)
  | QScope subs => list_sum (map qsize subs)
  end.
Lemma qstep_size s t s' t' : qstep s t s' t' -> qsize t' < qsize t.
Proof.
  induction 1; cbn [qsize length]; try lia. rewrite !map_app, !list_sum_app. cbn [map list_sum fold_right]. unfold list_sum in *. cbn [fold_right]. lia.
Qed.
Lemma qsteps_size k s t s' t' : qsteps k s t s' t' -> k + qsize t' <= qsize t.
Proof. induction 1; [lia|]. apply qstep_size in H. lia. Qed.

(** ** workspaces: each worker has one *)
Fixpoint running (t : qtask) : nat :=
  match t with
  | QExec _ _ => 0
  | QRun _ _ _ => 1
  | QScope subs => list_sum (map running subs)
  end.

(** ** instructions only touch the edges they may *)
Definition pagree (R : nat -> Prop) (S1 S2 : pshared) : Prop :=
  forall d, length (g_w d S1) = length (g_w d S2) /\ length (g_m d S1) = length (g_m d S2) /\
    forall e, R e -> nth_error (g_w d S1) e = nth_error (g_w d S2) e /\ nth_error (g_m d S1) e = nth_error (g_m d S2) e.
Lemma pagree_refl R S : pagree R S S.
Proof. intros d. auto. Qed.
Lemma pagree_trans R S1 S2 S3 : pagree R S1 S2 -> pagree R S2 S3 -> pagree R S1 S3.
Proof.
  intros H H' d. destruct (H d) as (A & B & C), (H' d) as (A' & B' & C'). split; [congruence|]. split; [congruence|].
  intros e He. destruct (C e He), (C' e He). split; congruence.
Qed.
Lemma pagree_sub (R R' : nat -> Prop) S1 S2 : (forall e, R' e -> R e) -> pagree R S1 S2 -> pagree R' S1 S2.
Proof. intros H A d. destruct (A d) as (X & Y & Z). auto. Qed.

Definition ook (R : nat -> Prop) (o : opnd) : Prop := match o with Own e => R e | Oth => True end.
Definition iok (R W : nat -> Prop) (i : pinstr) : Prop :=
  match i with
  | PSet _ e => W e
  | PClr _ | PGet _ => True
  | PLd _ _ o => ook R o
  | PSt _ o | PMark _ o => ook W o
  end.
Definition rok (W : nat -> Prop) (p : pregs) : Prop :=
  (forall x e, nth_error (r_ws p) x = Some (Some e) -> W e) /\ (forall e, r_oth p = Some e -> W e).

Lemma g_w_put d S l d' : g_w d' (put_w d S l) = if Bool.eqb d d' then l else g_w d' S.
Proof. destruct d, d'; reflexivity. Qed.
Lemma g_m_put_w d S l d' : g_m d' (put_w d S l) = g_m d' S.
Proof. destruct d, d'; reflexivity. Qed.
Lemma g_m_put d S l d' : g_m d' (put_m d S l) = if Bool.eqb d d' then l else g_m d' S.
Proof. destruct d, d'; reflexivity. Qed.
Lemma g_w_put_m d S l d' : g_w d' (put_m d S l) = g_w d' S.
Proof. destruct d, d'; reflexivity. Qed.

Lemma put_w_agree R d S1 S2 e t : pagree R S1 S2 -> e < length (g_w d S1) -> pagree R (put_w d S1 (upd (g_w d S1) e t)) (put_w d S2 (upd (g_w d S2) e t)).
Proof.
  intros H He d'. rewrite !g_w_put, !g_m_put_w. destruct (H d') as (A & B & C). destruct (Bool.eqb_spec d d') as [<-|]; [|auto].
  rewrite !upd_length. split; [auto|]. split; [auto|]. intros e' He'. destruct (C e' He') as [C1 C2]. split; [|auto]. rewrite !nth_error_upd, <- A. rewrite C1. reflexivity.
Qed.
Lemma put_m_agree R d S1 S2 e t : pagree R S1 S2 -> e < length (g_m d S1) -> pagree R (put_m d S1 (upd (g_m d S1) e t)) (put_m d S2 (upd (g_m d S2) e t)).
Proof.
  intros H He d'. rewrite !g_m_put, !g_w_put_m. destruct (H d') as (A & B & C). destruct (Bool.eqb_spec d d') as [<-|]; [|auto].
  rewrite !upd_length. split; [auto|]. split; [auto|]. intros e' He'. destruct (C e' He') as [C1 C2]. split; [auto|]. rewrite !nth_error_upd, <- B. rewrite C2. reflexivity.
Qed.
Lemma put_w_out (W : nat -> Prop) d S e t : W e -> pagree (fun e => ~ W e) S (put_w d S (upd (g_w d S) e t)).
Proof.
  intros He d'. rewrite !g_w_put, !g_m_put_w. destruct (Bool.eqb_spec d d') as [<-|]; [|auto].
  rewrite !upd_length. split; [auto|]. split; [auto|]. intros e' He'. split; [|auto]. rewrite nth_error_upd_neq; auto. intros ->. auto.
Qed.
Lemma put_m_out (W : nat -> Prop) d S e t : W e -> pagree (fun e => ~ W e) S (put_m d S (upd (g_m d S) e t)).
Proof.
  intros He d'. rewrite !g_m_put, !g_w_put_m. destruct (Bool.eqb_spec d d') as [<-|]; [|auto].
  rewrite !upd_length. split; [auto|]. split; [auto|]. intros e' He'. split; [auto|]. rewrite nth_error_upd_neq; auto. intros ->. auto.
Qed.

Lemma pstep_frame (R W : nat -> Prop) S1 S2 p i S1' p' : (forall e, W e -> R e) -> pagree R S1 S2 -> iok R W i -> rok W p -> pstep (S1, p) i = Some (S1', p') ->
  exists S2', pstep (S2, p) i = Some (S2', p') /\ pagree R S1' S2' /\ pagree (fun e => ~ W e) S2 S2' /\ rok W p'.
Proof.
  intros WR HA HI [K1 K2] E. destruct i as [x e|x|x|r up o|up o|up o]; cbn [pstep iok] in E, HI |- *.
  - destruct (set_at (r_ws p) x (Some e)) as [ws|] eqn:Ew; cbn [bind] in E |- *; [|discriminate]. injection E as <- <-. exists S2. split; [reflexivity|]. split; [auto|]. split; [apply pagree_refl|].
    apply set_at_Some in Ew as [Lx ->]. split; cbn [r_ws r_oth]; [|auto]. intros x' e' H. rewrite nth_error_upd in H. destruct ((x =? x') && _) eqn:B; [injection H as <-; auto|eauto].
  - destruct (set_at (r_ws p) x None) as [ws|] eqn:Ew; cbn [bind] in E |- *; [|discriminate]. injection E as <- <-. exists S2. split; [reflexivity|]. split; [auto|]. split; [apply pagree_refl|].
    apply set_at_Some in Ew as [Lx ->]. split; cbn [r_ws r_oth]; [|auto]. intros x' e' H. rewrite nth_error_upd in H. destruct ((x =? x') && _) eqn:B; [discriminate|eauto].
  - destruct (nth_error (r_ws p) x) as [ws|] eqn:Ew; cbn [bind] in E |- *; [|discriminate]. injection E as <- <-. exists S2. split; [reflexivity|]. split; [auto|]. split; [apply pagree_refl|].
    split; cbn [r_ws r_oth]; [auto|]. intros e ->. eauto.
  - destruct (r_oth p) as [eo|] eqn:Eo. 2: { injection E as <- <-. exists S2. split; [reflexivity|]. split; [auto|]. split; [apply pagree_refl|]. split; [auto|rewrite Eo; auto]. }
    destruct (opnd_id p o) as [e|] eqn:Ei; cbn [bind] in E |- *; [|discriminate].
    assert (Re : R e). { destruct o; cbn [opnd_id ook] in Ei, HI; [injection Ei as <-; auto|]. rewrite Eo in Ei. injection Ei as <-. auto. }
    destruct (HA up) as (_ & _ & C). destruct (C e Re) as [<- _]. destruct (nth_error (g_w up S1) e) as [w|]; cbn [bind] in E |- *; [|discriminate].
    injection E as <- <-. exists S2. split; [reflexivity|]. split; [auto|]. split; [apply pagree_refl|]. destruct r; split; cbn [r_ws r_oth]; auto; congruence.
  - destruct (r_oth p) as [eo|] eqn:Eo. 2: { injection E as <- <-. exists S2. split; [reflexivity|]. split; [auto|]. split; [apply pagree_refl|]. split; [auto|rewrite Eo; auto]. }
    destruct (opnd_id p o) as [e|] eqn:Ei; cbn [bind] in E |- *; [|discriminate].
    assert (We : W e). { destruct o; cbn [opnd_id ook] in Ei, HI; [injection Ei as <-; auto|]. rewrite Eo in Ei. injection Ei as <-. auto. }
    destruct (cadd (r_a p) (r_b p)) as [t|]; cbn [bind] in E |- *; [|discriminate]. destruct (t <? r_c p)%N.
    2: { injection E as <- <-. exists S2. split; [reflexivity|]. split; [auto|]. split; [apply pagree_refl|]. split; [auto|rewrite Eo; auto]. }
    destruct (set_at (g_w up S1) e t) as [l|] eqn:Es; cbn [bind] in E; [|discriminate]. destruct (HA up) as (A & _ & _).
    destruct (set_at_agree _ _ _ _ _ A Es) as (-> & -> & Le). cbn [bind]. injection E as <- <-. eexists. split; [reflexivity|].
    split; [apply put_w_agree; auto|]. split; [apply put_w_out; auto|]. split; [auto|rewrite Eo; auto].
  - destruct (r_oth p) as [eo|] eqn:Eo. 2: { injection E as <- <-. exists S2. split; [reflexivity|]. split; [auto|]. split; [apply pagree_refl|]. split; [auto|rewrite Eo; auto]. }
    destruct (opnd_id p o) as [e|] eqn:Ei; cbn [bind] in E |- *; [|discriminate].
    assert (We : W e). { destruct o; cbn [opnd_id ook] in Ei, HI; [injection Ei as <-; auto|]. rewrite Eo in Ei. injection Ei as <-. auto. }
    destruct (cadd (r_a p) (r_b p)) as [t|]; cbn [bind] in E |- *; [|discriminate]. destruct (t <? r_c p)%N.
    2: { injection E as <- <-. exists S2. split; [reflexivity|]. split; [auto|]. split; [apply pagree_refl|]. split; [auto|rewrite Eo; auto]. }
    destruct (set_at (g_m up S1) e true) as [l|] eqn:Es; cbn [bind] in E; [|discriminate]. destruct (HA up) as (_ & A & _).
    destruct (set_at_agree _ _ _ _ _ A Es) as (-> & -> & Le). cbn [bind]. injection E as <- <-. eexists. split; [reflexivity|].
    split; [apply put_m_agree; auto|]. split; [apply put_m_out; auto|]. split; [auto|rewrite Eo; auto].
Qed.

Section PerfPar.
  Variable adj : list (list (nat * N)).
  Variables order ranks : list nat.
  Variable nodes : list (list nat).
  Variable c : cch.
  Hypothesis HK : cch_ok adj order ranks nodes c.
  Variables iup idn : list N.
  Variable s : cst.
  Hypothesis HO : cust_ok adj nodes iup idn s.
  Notation n := (length adj).
  Notation m := (length (concat nodes)).
  Notation NL := (nodes_len adj order ranks nodes c HK).
  Notation ci := (cell_ini nodes s).
  Notation cf := (cell_fin nodes s).
  Notation uf := (upper_fin nodes s).

  (** what the routine for the nodes u .. u+k-1 reads *)
  Definition rset (u k e : nat) : Prop := in_cell nodes u k e \/ exists x v t, u <= x < u + k /\ In v (nbh nodes x) /\ edge nodes e v t.

  Lemma code_iok u : forall k code, u + k <= n -> pnodes_code c u k = Some code -> Forall (iok (rset u k) (in_cell nodes u k)) code.
  Proof using HK HO.
    intros k code Hk E. unfold pnodes_code in E. destruct (mapM (pnode_code c) (rev (seq u k))) as [l|] eqn:M; cbn [bind] in E; [|discriminate]. injection E as <-.
    assert (G : forall xs l, (forall x, In x xs -> u <= x < u + k) -> mapM (pnode_code c) xs = Some l -> Forall (iok (rset u k) (in_cell nodes u k)) (concat l)).
    2: { apply (G _ _) in M; auto. intros x Hx. apply in_rev in Hx. apply in_seq in Hx. lia. }
    clear M l. induction xs as [|x xs IH]; intros l Hxs M; cbn [mapM] in M; [injection M as <-; constructor|].
    destruct (pnode_code c x) as [cx|] eqn:Ex; cbn [bind] in M; [|discriminate]. destruct (mapM (pnode_code c) xs) as [l'|] eqn:M'; cbn [bind] in M; [|discriminate]. injection M as <-.
    cbn [concat]. apply Forall_app. split. 2: { apply IH; auto. intros; apply Hxs; right; auto. }
    pose proof (Hxs x (or_introl eq_refl)) as Hx. clear IH M'.
    assert (OW : forall v e, edge nodes e x v -> in_cell nodes u k e). { intros v e He. apply (edge_in_cell adj order ranks nodes c HK iup idn s HO u k e x v Hk He). auto. }
    unfold pnode_code in Ex. rewrite (cch_ids_ok adj order ranks nodes c HK iup idn s HO x) in Ex by lia. cbn [bind] in Ex.
    destruct (mapM _ (ids nodes x)) as [tri|] eqn:Mt; cbn [bind] in Ex; [|discriminate]. injection Ex as <-.
    apply Forall_app. split; [|apply Forall_app; split].
    - apply Forall_forall. intros i Hi. apply in_map_iff in Hi as ([v e] & <- & Hi). apply ids_In in Hi. cbn. eauto.
    - assert (T : forall l tri, (forall v e, In (v, e) l -> edge nodes e x v) -> mapM (fun ve => up <- cch_ids c (fst ve) ;; Some (flat_map (tri_code (snd ve)) up)) l = Some tri -> Forall (iok (rset u k) (in_cell nodes u k)) (concat tri)).
      2: { apply (T _ _) in Mt; auto. intros v e. apply ids_In. }
      clear Mt tri. induction l as [|[v e] l IH]; intros tri Hl M; cbn [mapM] in M; [injection M as <-; constructor|].
      pose proof (Hl v e (or_introl eq_refl)) as He. pose proof (edge_In _ _ _ _ He) as Hv. pose proof (ch_up _ _ (co_chordal _ _ _ _ _ HK) _ _ Hv) as Lv.
      cbn [fst snd] in M. rewrite (cch_ids_ok adj order ranks nodes c HK iup idn s HO v) in M by lia. cbn [bind] in M.
      match type of M with (bind ?a _) = _ => destruct a as [tr|] eqn:Mr; cbn [bind] in M; [|discriminate] end. injection M as <-. cbn [concat]. apply Forall_app. split.
      2: { apply IH; auto. intros; apply Hl; right; auto. }
      apply Forall_forall. intros i Hi. apply in_flat_map in Hi as ([t sc] & Hsc & Hi). apply ids_In in Hsc.
      assert (RS : rset u k sc) by (right; exists x, v, t; auto). assert (WE : in_cell nodes u k e) by eauto. assert (RE : rset u k e) by (left; auto).
      cbn [tri_code rel_code app In] in Hi. repeat (destruct Hi as [<-|Hi]; [cbn; auto|]). destruct Hi.
    - apply Forall_forall. intros i Hi. apply in_map_iff in Hi as ([v e] & <- & Hi). cbn. auto.
  Qed.

  Lemma agree_wt (R : nat -> Prop) S S' d e : pagree R S S' -> R e -> wt d S' e = wt d S e /\ fl d S' e = fl d S e.
  Proof using. intros A He. destruct (A d) as (_ & _ & C). destruct (C e He) as [C1 C2]. unfold wt, fl. split; apply nth_of_error; auto. Qed.
  Lemma agree_glens R S S' : pagree R S S' -> glens nodes S -> glens nodes S'.
  Proof using. intros A L d. destruct (A d) as (A1 & A2 & _), (L d). split; congruence. Qed.
  Lemma ci_agree o k S S' : o + k <= n -> pagree (in_cell nodes o k) S S' -> ci o k S -> ci o k S'.
  Proof using HK HO.
    intros Hk A H x e y d Hx He. destruct (agree_wt _ S S' d e A) as [X Y]. { apply (edge_in_cell adj order ranks nodes c HK iup idn s HO o k e x y Hk He). auto. }
    eapply (ini_same adj order ranks nodes c HK iup idn s HO); eauto.
  Qed.
  Lemma cf_agree o k S S' : o + k <= n -> pagree (in_cell nodes o k) S S' -> cf o k S -> cf o k S'.
  Proof using HK HO.
    intros Hk A H x e y d Hx He. destruct (agree_wt _ S S' d e A) as [X Y]. { apply (edge_in_cell adj order ranks nodes c HK iup idn s HO o k e x y Hk He). auto. }
    eapply (fin_same adj order ranks nodes c HK iup idn s HO); eauto.
  Qed.
  Lemma uf_agree o k S S' : pagree (fun e => rset o k e /\ ~ in_cell nodes o k e) S S' -> o + k <= n -> uf o k S -> uf o k S'.
  Proof using HK HO.
    intros A Hk H x v e t d Hx Hv Lv He. destruct (agree_wt _ S S' d e A) as [X Y].
    { split; [right; eauto 6|]. rewrite (edge_in_cell adj order ranks nodes c HK iup idn s HO o k e v t Hk He). lia. }
    eapply (fin_same adj order ranks nodes c HK iup idn s HO); eauto.
  Qed.
  Lemma rset_sub o k a j e : o <= a -> a + j <= o + k -> o + k <= n -> rset a j e -> rset o k e.
  Proof using HK HO.
    intros L1 L2 Hk [H|(x & v & t & Hx & Hv & He)]; [left|right; exists x, v, t; split; auto; lia]. unfold in_cell in *.
    pose proof (off_mono nodes o a L1). pose proof (off_mono nodes (a + j) (o + k) L2). rewrite NL in *. lia.
  Qed.
  (** cells that are closed under lower neighbours do not disturb each other *)
  Lemma apart a j b i e : closed_cell adj nodes b i -> a + j <= n -> a + j <= b \/ b + i <= a -> rset a j e -> ~ in_cell nodes b i e.
  Proof using HK HO.
    intros [Hb C] Ha D [H|(x & v & t & Hx & Hv & He)] Hn.
    - unfold in_cell in *. destruct D as [D|D]; [pose proof (off_mono nodes (a + j) b D)|pose proof (off_mono nodes (b + i) a D)]; rewrite NL in *; lia.
    - apply (edge_in_cell adj order ranks nodes c HK iup idn s HO b i e v t Hb He) in Hn. pose proof (C x v Hv Hn). apply (ch_up _ _ (co_chordal _ _ _ _ _ HK)) in Hv. lia.
  Qed.

  (** ** the invariant *)
  Inductive pend : nat -> nat -> qtask -> Prop :=
  | pd_intro o u k l code subs : closed_cell adj nodes o k -> o <= u <= o + k -> pnodes_code c u (o + k - u) = Some code -> cells o l u ->
      Forall2 (fun a t => pend (fst a) (snd a) t) l subs -> pend o k (QExec code subs).
  Definition waiting (o u k : nat) (l : list (nat * nat)) (subs : list qtask) (S : pshared) : Prop :=
    closed_cell adj nodes o k /\ o <= u <= o + k /\ cells o l u /\ Forall2 (fun a t => pend (fst a) (snd a) t) l subs /\ ci o (u - o) S /\ uf o k S /\ glens nodes S.
  Inductive qinv (S : pshared) : nat -> nat -> qtask -> Prop :=
  | qi_exec o u k l code subs : waiting o u k l subs S -> pnodes_code c u (o + k - u) = Some code -> ci u (o + k - u) S -> qinv S o k (QExec code subs)
  | qi_run o u k l subs S0 p0 pre S1 p code : waiting o u k l subs S -> pnodes_code c u (o + k - u) = Some (pre ++ code) ->
      glens nodes S0 -> ci u (o + k - u) S0 -> uf u (o + k - u) S0 -> r_ws p0 = repeat None n ->
      prun pre (S0, p0) = Some (S1, p) -> pagree (rset u (o + k - u)) S1 S -> rok (in_cell nodes u (o + k - u)) p ->
      qinv S o k (QRun p code subs)
  | qi_scope o u k l subs : closed_cell adj nodes o k -> o <= u <= o + k -> cells o l u -> Forall2 (fun a t => qinv S (fst a) (snd a) t) l subs ->
      cf u (o + k - u) S -> uf o k S -> glens nodes S -> qinv S o k (QScope subs).

  Lemma sub_upper o u k S : closed_cell adj nodes o k -> o <= u <= o + k -> uf o k S -> uf u (o + k - u) S.
  Proof using. intros C Hu H x v e t d Hx Hv Lv He. apply (H x v e t d); auto; lia. Qed.

  Lemma qinv_closed S o k t : qinv S o k t -> closed_cell adj nodes o k /\ uf o k S /\ glens nodes S.
  Proof using. intros H. destruct H as [? ? ? ? ? ? (? & ? & ? & ? & ? & ? & ?)|? ? ? ? ? ? ? ? ? ? ? (? & ? & ? & ? & ? & ? & ?)|]; auto. Qed.

  Lemma waiting_agree o u k l subs S S' : pagree (rset o k) S S' -> waiting o u k l subs S -> waiting o u k l subs S'.
  Proof using HK HO.
    intros A (C & Hu & Hc & F & I & U & L). pose proof C as [Hk _]. split; [auto|]. split; [auto|]. split; [auto|]. split; [auto|]. split; [|split].
    - revert I. apply ci_agree; [lia|]. eapply pagree_sub; [|exact A]. intros e He. apply (rset_sub o k o (u - o)); try lia. left; auto.
    - revert U. apply uf_agree; [|lia]. eapply pagree_sub; [|exact A]. tauto.
    - eapply agree_glens; eauto.
  Qed.

  Lemma qinv_agree t : forall S S' o k, qinv S o k t -> pagree (rset o k) S S' -> qinv S' o k t.
  Proof using HK HO.
    induction t as [code subs IH|p code subs IH|subs IH] using qtask_ind2; intros S S' o k H A.
    - inversion H as [o' u k' l code' subs' Hw E I X1 X2 X3| |]; subst. pose proof Hw as ([Hk _] & Hu & _). eapply (qi_exec S' o u k l); eauto. { eapply waiting_agree; eauto. }
      revert I. apply ci_agree; [lia|]. eapply pagree_sub; [|exact A]. intros e He. apply (rset_sub o k u (o + k - u)); try lia. left; auto.
    - inversion H as [|o' u k' l subs' S0 p0 pre S1 p' code' Hw E L0 I0 U0 W0 R0 A0 K0|]; subst. pose proof Hw as ([Hk _] & Hu & _). eapply (qi_run S' o u k l subs S0 p0 pre S1); eauto. { eapply waiting_agree; eauto. }
      eapply pagree_trans; [exact A0|]. eapply pagree_sub; [|exact A]. intros e He. apply (rset_sub o k u (o + k - u)); try lia. auto.
    - inversion H as [| |o' u k' l subs' C Hu Hc F CF UF L]; subst. pose proof C as [Hk _]. eapply (qi_scope S' o u k l); eauto.
      + rewrite Forall_forall in IH. assert (G : forall a j, In (a, j) l -> o <= a /\ a + j <= u) by (intros; eapply cells_range; eauto).
        clear -F IH A G Hu Hk HK HO. induction F as [|[a j] t l ts Ht F IHF]; constructor.
        * cbn [fst snd] in *. apply (IH t (or_introl eq_refl) S); auto. destruct (G a j (or_introl eq_refl)). eapply pagree_sub; [|exact A]. intros e He. apply (rset_sub o k a j); auto; lia.
        * apply IHF. { intros; eapply IH; eauto. right; auto. } intros; apply G; right; auto.
      + revert CF. apply cf_agree; [lia|]. eapply pagree_sub; [|exact A]. intros e He. apply (rset_sub o k u (o + k - u)); try lia. left; auto.
      + revert UF. apply uf_agree; [|lia]. eapply pagree_sub; [|exact A]. tauto.
      + eapply agree_glens; eauto.
  Qed.

  (** all of the cell is done at the end *)
  Lemma qinv_finished t : forall S o k, qinv S o k t -> qfinished t -> cf o k S.
  Proof using HK HO.
    induction t as [code subs IH|p code subs IH|subs IH] using qtask_ind2; intros S o k H F; inversion F; subst.
    inversion H as [| |o' u k' l subs' C Hu Hc F2 CF UF L]; subst. rewrite Forall_forall in IH, H1.
    intros x e y d Hx He. destruct (Nat.lt_ge_cases x u) as [Lx|Lx]. 2: { apply CF; auto. lia. }
    assert (G : forall l o, cells o l u -> o <= x < u -> exists a j, In (a, j) l /\ a <= x < a + j).
    { clear. induction l as [|[a j] l IHl]; intros o Hc Hx; cbn [cells] in Hc; [lia|]. destruct Hc as [-> Hc]. destruct (Nat.lt_ge_cases x (o + j)).
      - exists o, j. split; [left; auto|lia].
      - destruct (IHl _ Hc) as (a & j' & Hi & Ha); [lia|]. exists a, j'. split; [right; auto|auto]. }
    destruct (G l o Hc) as (a & j & Hi & Ha); [lia|]. destruct (Forall2_In_l _ _ _ _ F2 Hi) as (t & Ht & Hi').
    eapply (IH t Ht S a j Hi' (H1 t Ht)); eauto.
  Qed.

  (** when the separator is done the waiting calls may start *)
  Lemma waiting_scope o u k l subs S : waiting o u k l subs S -> cf u (o + k - u) S -> qinv S o k (QScope subs).
  Proof using HK HO.
    intros (C & Hu & Hc & F & I & U & L) CF. pose proof C as [Hk _]. eapply (qi_scope S o u k l); eauto.
    assert (G : forall a j, In (a, j) l -> o <= a /\ a + j <= u) by (intros; eapply cells_range; eauto).
    assert (AP : forall a j b i x, In (a, j) l -> In (b, i) l -> a <= x < a + j -> b <= x < b + i -> (a, j) = (b, i)).
    { clear -Hc. revert o Hc. induction l as [|[a' j'] l IHl]; intros o Hc a j b i x Ha Hb Xa Xb; [destruct Ha|]. cbn [cells] in Hc. destruct Hc as [-> Hc].
      destruct Ha as [Ea|Ha], Hb as [Eb|Hb].
      - congruence.
      - injection Ea as <- <-. pose proof (cells_range _ _ _ _ _ Hc Hb). lia.
      - injection Eb as <- <-. pose proof (cells_range _ _ _ _ _ Hc Ha). lia.
      - eapply IHl; eauto. }
    assert (CC : forall a j, In (a, j) l -> closed_cell adj nodes a j). { intros a j Hi. destruct (Forall2_In_l _ _ _ _ F Hi) as (t & _ & P). inversion P; subst; auto. }
    assert (CX : forall l o, cells o l u -> forall v, o <= v < u -> exists a j, In (a, j) l /\ a <= v < a + j).
    { clear. induction l as [|[a j] l IHl]; intros o Hc v Hv; cbn [cells] in Hc; [lia|]. destruct Hc as [-> Hc]. destruct (Nat.lt_ge_cases v (o + j)).
      - exists o, j. split; [left; auto|lia].
      - destruct (IHl _ Hc v) as (a & j' & Hi & Ha); [lia|]. exists a, j'. split; [right; auto|auto]. }
    assert (UF : forall a j, In (a, j) l -> uf a j S).
    { intros a j Hi x v e t d Hx Hv Lv He. destruct (G a j Hi) as [G1 G2]. pose proof (ch_up _ _ (co_chordal _ _ _ _ _ HK) _ _ Hv) as Xv.
      destruct (Nat.lt_ge_cases v u) as [Lu|Lu].
      - exfalso. destruct (CX l o Hc v) as (b & i & Hb & Rb); [lia|]. pose proof (proj2 (CC b i Hb) x v Hv Rb).
        assert ((a, j) = (b, i)) as E by (eapply (AP a j b i x); eauto; lia). injection E as -> ->. lia.
      - destruct (Nat.lt_ge_cases v (o + k)); [apply (CF v e t d); auto; lia|]. apply (U x v e t d); auto; lia. }
    assert (IN : forall a j, In (a, j) l -> ci a j S). { intros a j Hi x e y d Hx He. destruct (G a j Hi). apply (I x e y d); auto. lia. }
    clear AP CX Hc. assert (Q : forall a j t, In (a, j) l -> pend a j t -> qinv S a j t).
    { intros a j t Hi P. inversion P as [o' u' k' l' code subs' C' Hu' E' Hc' F']; subst. eapply (qi_exec S a u' j l'); eauto.
      - split; [auto|]. split; [auto|]. split; [auto|]. split; [auto|]. split; [|split; auto]. intros x e y d Hx He. apply (IN a j Hi x e y d); auto. lia.
      - intros x e y d Hx He. apply (IN a j Hi x e y d); auto. lia. }
    clear -F Q. induction F as [|[a j] t l ts Ht F IHF]; constructor.
    - cbn [fst snd] in *. apply Q; auto. left; auto.
    - apply IHF. intros; apply Q; auto. right; auto.
  Qed.

  Lemma run_next u k S0 p0 pre S1 p i code : u + k <= n -> pnodes_code c u k = Some (pre ++ i :: code) ->
    glens nodes S0 -> ci u k S0 -> uf u k S0 -> r_ws p0 = repeat None n -> prun pre (S0, p0) = Some (S1, p) -> exists S1' p', pstep (S1, p) i = Some (S1', p').
  Proof using HK HO.
    intros Hk Ec L I U W R. destruct (cell_ok adj order ranks nodes c HK iup idn s HO u k Hk) as (full & Ef & Hf). assert (full = pre ++ i :: code) as -> by congruence.
    destruct (Hf S0 p0 L I U W) as (S' & p' & R' & _). rewrite prun_app, R in R'. cbn [bind] in R'. unfold prun in R'. cbn [foldM] in R'.
    destruct (pstep (S1, p) i) as [[S1' p1']|]; [eauto|discriminate].
  Qed.

  Definition clean (pool : list (list (option nat))) : Prop := Forall (fun ws => ws = repeat None n) pool.

  Lemma rok_new W : rok W (regs_new (repeat None n)).
  Proof using. split; cbn [regs_new r_ws r_oth]; [|discriminate]. intros x e H. rewrite nth_error_repeat in H. destruct (x <? n); discriminate. Qed.

  Lemma qstep_inv sp t sp' t' : qstep sp t sp' t' -> forall o k, clean (snd sp) -> qinv (fst sp) o k t ->
    clean (snd sp') /\ qinv (fst sp') o k t' /\ pagree (fun e => ~ in_cell nodes o k e) (fst sp) (fst sp') /\ length (snd sp') + running t' = length (snd sp) + running t.
  Proof using HK HO.
    induction 1 as [S pool1 ws pool2 code subs|S pool p i code subs S' p' E|S pool p subs|S pool l1 t l2 S' pool' t' Hs IH]; intros o k HC H; cbn [fst snd] in *.
    - unfold clean in *. apply Forall_app in HC as [HC1 HC2]. apply Forall_cons_iff in HC2 as [-> HC2]. split; [apply Forall_app; auto|]. split; [|split; [apply pagree_refl|cbn [running]; rewrite !app_length; cbn [length]; lia]].
      inversion H as [o' u k' l code' subs' Hw E I X1 X2 X3| |]; subst. eapply (qi_run S o u k l subs S (regs_new (repeat None n)) [] S); eauto.
      + apply Hw.
      + destruct Hw as (C & Hu & _ & _ & _ & U & _). eapply sub_upper; eauto.
      + apply pagree_refl.
      + apply rok_new.
    - split; [auto|]. inversion H as [|o' u k' l subs' S0 p0 pre S1 p1 code' Hw Ec L0 I0 U0 W0 R0 A0 K0|]; subst. pose proof Hw as ([Hk _] & Hu & _).
      destruct (run_next u (o + k - u) S0 p0 pre S1 p i code) as (S1' & p1' & X); auto; [lia|].
      pose proof (code_iok u (o + k - u) _ ltac:(lia) Ec) as IK. apply Forall_app in IK as [_ IK]. apply Forall_cons_iff in IK as [IK _].
      destruct (pstep_frame (rset u (o + k - u)) (in_cell nodes u (o + k - u)) S1 S p i S1' p1') as (S2 & E2 & A2 & O2 & K2); auto. { intros e He. left; auto. }
      rewrite E2 in E. injection E as <- <-. pose proof (off_mono nodes o u ltac:(lia) ltac:(rewrite NL; lia)) as Mo.
      split; [|split; [|reflexivity]].
      + eapply (qi_run S2 o u k l subs S0 p0 (pre ++ [i]) S1'); eauto.
        * destruct Hw as (C & _ & Hc & F & I & U & L). split; [auto|]. split; [auto|]. split; [auto|]. split; [auto|]. split; [|split].
          -- revert I. apply ci_agree; [lia|]. eapply pagree_sub; [|exact O2]. intros e He. unfold in_cell in *. replace (o + (u - o)) with u in He by lia. lia.
          -- revert U. apply uf_agree; [|lia]. eapply pagree_sub; [|exact O2]. intros e [_ He] Hn. apply He. unfold in_cell in *. replace (u + (o + k - u)) with (o + k) in Hn by lia. lia.
          -- eapply agree_glens; eauto.
        * rewrite <- app_assoc. auto.
        * rewrite prun_app, R0. cbn [bind]. unfold prun. cbn [foldM]. rewrite X. reflexivity.
      + eapply pagree_sub; [|exact O2]. intros e He Hn. apply He. unfold in_cell in *. replace (u + (o + k - u)) with (o + k) in Hn by lia. lia.
    - inversion H as [|o' u k' l subs' S0 p0 pre S1 p1 code' Hw Ec L0 I0 U0 W0 R0 A0 K0|]; subst. rewrite app_nil_r in Ec. pose proof Hw as (C & Hu & Hc & F & _). pose proof C as [Hk _].
      destruct (cell_ok adj order ranks nodes c HK iup idn s HO u (o + k - u) ltac:(lia)) as (full & Ef & Hf). assert (full = pre) as -> by congruence.
      destruct (Hf S0 p0 L0 I0 U0 W0) as (S' & p' & R' & W' & L' & _ & F'). rewrite R0 in R'. injection R' as <- <-.
      split; [constructor; auto|]. split; [|split; [apply pagree_refl|]].
      + eapply waiting_scope; eauto. revert F'. apply cf_agree; [lia|]. eapply pagree_sub; [|exact A0]. intros; left; auto.
      + cbn [running length]. assert (Z : forall l ts, Forall2 (fun a t => pend (fst a) (snd a) t) l ts -> list_sum (map running ts) = 0).
        { clear. induction 1 as [|a t l ts Ht _ IH]; [reflexivity|]. inversion Ht; subst. cbn in *. auto. }
        rewrite (Z _ _ F). lia.
    - inversion H as [| |o' u k' l subs' C Hu Hc F CF UF L]; subst. pose proof C as [Hk _]. destruct (Forall2_mid _ _ _ _ _ F) as (a1 & [a j] & a2 & -> & F1 & Ht & F2). cbn [fst snd] in Ht.
      destruct (IH _ _ HC Ht) as (HC' & Ht' & O & EQ). split; [auto|].
      assert (Ra : o <= a /\ a + j <= u). { eapply cells_range; eauto. apply in_or_app. right; left; auto. }
      destruct (qinv_closed _ _ _ _ Ht) as (Ca & _ & _).
      assert (Mo : off nodes o <= off nodes a /\ off nodes (a + j) <= off nodes u /\ off nodes u <= off nodes (o + k)) by (repeat split; apply off_mono; rewrite ?NL; lia).
      assert (On : pagree (fun e => ~ in_cell nodes o k e) S S'). { eapply pagree_sub; [|exact O]. intros e He Hn. apply He. unfold in_cell in *. lia. }
      split; [|split; [auto|]].
      + eapply (qi_scope S' o u k (a1 ++ (a, j) :: a2)); eauto.
        * apply cells_app in Hc as (v & Hc1 & Hc2). cbn [cells] in Hc2. destruct Hc2 as [-> Hc2].
          assert (N1 : forall b i, In (b, i) a1 -> o <= b /\ b + i <= v) by (intros; eapply cells_range; eauto).
          assert (N2 : forall b i, In (b, i) a2 -> v + j <= b /\ b + i <= u) by (intros; eapply cells_range; eauto).
          apply Forall2_app; [|constructor].
          -- clear -F1 N1 O Hk Ca Ra HK HO Hu. induction F1 as [|[b i] t l ts H1 F IHF]; constructor; [|apply IHF; intros; apply N1; right; auto].
             cbn [fst snd] in *. eapply qinv_agree; eauto. eapply pagree_sub; [|exact O]. intros e He. destruct (N1 b i (or_introl eq_refl)). apply (apart b i v j e Ca); auto; lia.
          -- cbn [fst snd]. auto.
          -- clear -F2 N2 O Hk Ca Ra HK HO Hu. induction F2 as [|[b i] t l ts H1 F IHF]; constructor; [|apply IHF; intros; apply N2; right; auto].
             cbn [fst snd] in *. eapply qinv_agree; eauto. eapply pagree_sub; [|exact O]. intros e He. destruct (N2 b i (or_introl eq_refl)). apply (apart b i v j e Ca); auto; lia.
        * revert CF. apply cf_agree; [lia|]. eapply pagree_sub; [|exact O]. intros e He. unfold in_cell in *. lia.
        * revert UF. apply uf_agree; [|lia]. eapply pagree_sub; [|exact On]. tauto.
        * eapply agree_glens; eauto.
      + cbn [running]. rewrite !map_app, !list_sum_app. cbn [map]. unfold list_sum in *. cbn [fold_right]. lia.
  Qed.

  (** no step panics, and as long as some call is not finished there is a next step *)
  Lemma qinv_safe t : forall S o k, qinv S o k t -> ~ qpanic S t.
  Proof using HK HO.
    induction t as [code subs IH|p code subs IH|subs IH] using qtask_ind2; intros S o k H P; inversion P; subst.
    - inversion H as [|o' u k' l subs' S0 p0 pre S1 p1 code' Hw Ec L0 I0 U0 W0 R0 A0 K0|]; subst. pose proof Hw as ([Hk _] & Hu & _).
      destruct (run_next u (o + k - u) S0 p0 pre S1 p i code0) as (S1' & p1' & X); auto; [lia|].
      pose proof (code_iok u (o + k - u) _ ltac:(lia) Ec) as IK. apply Forall_app in IK as [_ IK]. apply Forall_cons_iff in IK as [IK _].
      destruct (pstep_frame (rset u (o + k - u)) (in_cell nodes u (o + k - u)) S1 S p i S1' p1') as (S2 & E2 & _); auto. { intros e He. left; auto. } congruence.
    - inversion H as [| |o' u k' l subs' C Hu Hc F CF UF L]; subst. rewrite Forall_forall in IH. assert (Hin : In t (l1 ++ t :: l2)) by (apply in_or_app; right; left; auto).
      destruct (Forall2_In_r _ _ _ _ F Hin) as (a & _ & Ha). eapply (IH t Hin); eauto.
  Qed.
  Lemma qfinished_dec t : {qfinished t} + {~ qfinished t}.
  Proof using.
    revert t. fix IH 1. intros [code subs|p code subs|subs]; [right; intros H; inversion H|right; intros H; inversion H|].
    assert (D : {Forall qfinished subs} + {~ Forall qfinished subs}).
    { induction subs as [|t subs IHs]; [left; constructor|]. destruct (IH t) as [F|F]; [|right; intros H; inversion H; auto]. destruct IHs as [G|G]; [left; constructor; auto|right; intros H; inversion H; auto]. }
    destruct D; [left; constructor; auto|right; intros H; inversion H; auto].
  Qed.
  Lemma progress_sub S pool l1 t l2 : (exists S' pool' t', qstep (S, pool) t (S', pool') t') -> exists S' pool' t', qstep (S, pool) (QScope (l1 ++ t :: l2)) (S', pool') t'.
  Proof using. intros (S' & pool' & t' & H). exists S', pool', (QScope (l1 ++ t' :: l2)). constructor; auto. Qed.
  Lemma running_step t : forall S pool o k, qinv S o k t -> running t <> 0 -> exists S' pool' t', qstep (S, pool) t (S', pool') t'.
  Proof using HK HO.
    induction t as [code subs IH|p code subs IH|subs IH] using qtask_ind2; intros S pool o k H Hr; cbn [running] in Hr; [lia| |].
    - destruct code as [|i code]. { exists S, (r_ws p :: pool), (QScope subs). constructor. }
      destruct (pstep (S, p) i) as [[S' p']|] eqn:E. { exists S', pool, (QRun p' code subs). constructor; auto. }
      exfalso. eapply qinv_safe; [exact H|]. constructor; auto.
    - inversion H as [| |o' u k' l subs' C Hu Hc F CF UF L]; subst. rewrite Forall_forall in IH.
      assert (Q : exists t, In t subs /\ running t <> 0).
      { clear -Hr. induction subs as [|t subs IHs]; [cbn in Hr; lia|]. destruct (Nat.eq_dec (running t) 0) as [E|E]; [|exists t; split; [left|]; auto].
        destruct IHs as (t' & Hi & Ht'). { unfold list_sum in *. cbn [map fold_right] in Hr. lia. } exists t'. split; [right|]; auto. }
      destruct Q as (t & Hi & Ht). destruct (Forall2_In_r _ _ _ _ F Hi) as (a & _ & Ha). destruct (IH t Hi S pool _ _ Ha Ht) as (S' & pool' & t' & Hs).
      apply in_split in Hi as (l1 & l2 & ->). apply progress_sub. eauto.
  Qed.
  Lemma pool_step t : forall S pool o k, qinv S o k t -> pool <> [] -> qfinished t \/ exists S' pool' t', qstep (S, pool) t (S', pool') t'.
  Proof using HK HO.
    induction t as [code subs IH|p code subs IH|subs IH] using qtask_ind2; intros S pool o k H Hp.
    - right. destruct pool as [|ws pool]; [congruence|]. exists S, pool, (QRun (regs_new ws) code subs). apply (qs_start S [] ws pool).
    - right. eapply running_step; eauto. cbn. lia.
    - destruct (qfinished_dec (QScope subs)) as [F|F]; [left; auto|right]. inversion H as [| |o' u k' l subs' C Hu Hc F2 CF UF L]; subst. rewrite Forall_forall in IH.
      assert (Q : exists t, In t subs /\ ~ qfinished t).
      { destruct (Forall_Exists_dec qfinished qfinished_dec subs) as [G|G]; [exfalso; apply F; constructor; auto|]. apply Exists_exists in G. auto. }
      destruct Q as (t & Hi & Ht). destruct (Forall2_In_r _ _ _ _ F2 Hi) as (a & _ & Ha). destruct (IH t Hi S pool _ _ Ha Hp) as [|Q]; [tauto|].
      apply in_split in Hi as (l1 & l2 & ->). apply progress_sub. auto.
  Qed.
  Lemma qinv_progress t S pool o k : qinv S o k t -> length pool + running t <> 0 -> qfinished t \/ exists S' pool' t', qstep (S, pool) t (S', pool') t'.
  Proof using HK HO.
    intros H Hp. destruct (Nat.eq_dec (running t) 0) as [E|E]; [|right; eapply running_step; eauto]. eapply pool_step; eauto. intros ->. cbn in Hp. lia.
  Qed.

  (** ** the tree *)
  Fixpoint nums_ok (t : septree) : Prop :=
    match t with Sep nds l k => k = sn_len nds + total l /\ (fix all (l : list septree) : Prop := match l with [] => True | t :: l' => nums_ok t /\ all l' end) l end.
  Lemma nums_all : forall l, (fix all (l : list septree) : Prop := match l with [] => True | t :: l' => nums_ok t /\ all l' end) l <-> Forall nums_ok l.
  Proof using. induction l as [|t l IH]; [split; auto|]. rewrite IH, Forall_cons_iff. tauto. Qed.
  Lemma sep_nums t : forall r, sep_ok (c_elim c) r t -> nums_ok t.
  Proof using.
    induction t as [nds l k IH] using septree_ind2. intros r H. inversion H as [r' xs y subs O K F]; subst. cbn [nums_ok]. rewrite nums_all. split.
    - rewrite sn_len_list, sn_one_list. auto.
    - rewrite Forall_forall in *. intros t Ht. destruct (Forall2_In_r _ _ _ _ F Ht) as (x & _ & Hx). eauto.
  Qed.
  Lemma root_nums sep : sep_new (c_elim c) = Some sep -> nums_ok sep.
  Proof using HK.
    intros E. destruct (sep_new_ok n _ (elim_forest _ _ _ _ _ HK)) as (subs & E' & F & T & _). rewrite E' in E. injection E as <-. cbn [nums_ok]. rewrite nums_all. split; [cbn; lia|].
    apply Forall_forall. intros t Ht. destruct (Forall2_In_r _ _ _ _ F Ht) as (x & _ & Hx). eapply sep_nums; eauto.
  Qed.

  Lemma perf_tree_ok q t : forall o, cells_ok adj nodes o t -> nums_ok t -> exists tk, perf_tree c q t (o + st_num t) = Some tk /\ pend o (st_num t) tk.
  Proof using HK HO.
    induction t as [nds l k IH] using septree_ind2. intros o H Hn. inversion H as [o' s' l' k' C T Q]; subst. rewrite Forall_forall in IH.
    cbn [nums_ok] in Hn. rewrite nums_all in Hn. destruct Hn as [Ek Hn]. rewrite Forall_forall in Hn.
    cbn [perf_tree st_num]. pose proof C as [Hk _]. destruct (k <? q).
    - unfold csub. rewrite (proj2 (Nat.leb_le k (o + k))) by lia. cbn [bind]. replace (o + k - k) with o by lia.
      destruct (cell_ok adj order ranks nodes c HK iup idn s HO o k Hk) as (code & E & _). rewrite E. cbn [bind]. eexists. split; [reflexivity|].
      eapply (pd_intro o o k []); [auto|lia| |constructor|constructor].
      replace (o + k - o) with k by lia. auto.
    - unfold csub at 1. rewrite (proj2 (Nat.leb_le (sn_len nds) (o + k))) by lia. cbn [bind]. set (u := o + k - sn_len nds).
      destruct (cell_ok adj order ranks nodes c HK iup idn s HO u (sn_len nds)) as (code & E & _); [lia|]. rewrite E. cbn [bind].
      match goal with |- exists tk, (r <- ?f l ;; _) = _ /\ _ => set (go := f) end.
      assert (G : forall l' so, (forall t, In t l' -> In t l) -> seqcells adj nodes so l' -> so + total l' = u -> exists tks cl, go l' = Some (so, tks) /\ cells so cl u /\ Forall2 (fun a t => pend (fst a) (snd a) t) cl tks).
      { induction l' as [|t l' IHl]; intros so Hin Qs Ht.
        - exists [], []. cbn [go]. cbn in Ht. split; [replace so with u by lia; reflexivity|]. split; [cbn; lia|constructor].
        - inversion Qs as [|o' t' l'' Ct Qs']; subst. change (total (t :: l')) with (st_num t + total l') in Ht.
          destruct (IHl (so + st_num t)) as (tks & cl & Eg & Hc & F); auto. { intros; apply Hin; right; auto. } { lia. }
          destruct (IH t ltac:(apply Hin; left; auto) so Ct) as (tk & Et & Pt). { apply Hn. apply Hin. left; auto. }
          exists (tk :: tks), ((so, st_num t) :: cl). unfold go; fold go. rewrite Eg. cbn [bind]. rewrite Et. cbn [bind]. unfold csub. rewrite (proj2 (Nat.leb_le (st_num t) (so + st_num t))) by lia. cbn [bind].
          replace (so + st_num t - st_num t) with so by lia. split; [reflexivity|]. split; [cbn [cells]; auto|constructor; auto]. }
      destruct (G l o) as (tks & cl & -> & Hc & F); auto. { unfold u. lia. } cbn [bind snd]. eexists. split; [reflexivity|].
      eapply (pd_intro o u k cl); eauto. { unfold u. lia. } replace (o + k - u) with (sn_len nds) by (unfold u; lia). auto.
  Qed.

  Lemma pend_running o k t : pend o k t -> running t = 0.
  Proof using. intros H. inversion H; auto. Qed.

  Lemma par_perfect_ok threads sep : sep_new (c_elim c) = Some sep -> validate sep = Some tt ->
    exists tk, par_perfect c threads sep = Some tk /\ qinv (psh_init (s_up s) (s_dn s)) 0 n tk /\ running tk = 0.
  Proof using HK HO.
    intros E V. destruct (root_cells _ _ _ _ _ HK sep E V) as [C L]. pose proof (root_nums sep E) as Hn.
    assert (En : cch_nodes c = n). { unfold cch_nodes. rewrite (co_fol _ _ _ _ _ HK). lia. }
    destruct (perf_tree_ok (cch_nodes c / (32 * threads)) sep 0 C Hn) as (tk & Et & P). rewrite L in *. cbn [Nat.add] in Et.
    exists tk. unfold par_perfect. rewrite En in *. split; [auto|]. split; [|eapply pend_running; eauto].
    inversion P as [o' u' k' l' code subs' C' Hu' E' Hc' F']; subst. eapply (qi_exec _ 0 u' n l'); eauto.
    - split; [auto|]. split; [auto|]. split; [auto|]. split; [auto|]. split; [eapply cell_ini_init; eauto|]. split; [|eapply glens_init; eauto].
      intros x v e t d Hx Hv Lv. apply (ch_up _ _ (co_chordal _ _ _ _ _ HK)) in Hv. lia.
    - eapply cell_ini_init; eauto.
  Qed.

  Lemma qsteps_inv j : forall sp t sp' t', qsteps j sp t sp' t' -> forall o k, clean (snd sp) -> qinv (fst sp) o k t ->
    clean (snd sp') /\ qinv (fst sp') o k t' /\ length (snd sp') + running t' = length (snd sp) + running t.
  Proof using HK HO.
    induction j; intros sp t sp' t' H o k HC Hi; inversion H; subst; auto.
    match goal with X : qstep _ _ _ _ |- _ => destruct (qstep_inv _ _ _ _ X o k HC Hi) as (C1 & I1 & _ & E1) end.
    match goal with X : qsteps _ _ _ _ _ |- _ => destruct (IHj _ _ _ _ X o k C1 I1) as (C2 & I2 & E2) end. split; [auto|]. split; [auto|lia].
  Qed.
End PerfPar.
