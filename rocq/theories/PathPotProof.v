(** unpack_path: with positive weights, following the parents of an unpacked node is a shortest path of input arcs. *)
From Verif Require Import Base SpecGraph SpecCCH BitVec Graph Dijkstra LoopProof CCH CCHTheory CCHPathTheory CCHQuery CCHQueryProof CCHPot CCHPotProof PLF UBS UBSScanProof PathPot SpecPathPot CCHViewProof.

Lemma capped_unique (P : N -> Prop) v v' : capped P v -> capped P v' -> v = v'.
Proof.
  intros (A & B & C) (A' & B' & C'). destruct (N.lt_trichotomy v v') as [L|[->|L]]; auto.
  - specialize (C' _ (B ltac:(lia))). lia.
  - specialize (C _ (B' ltac:(lia))). lia.
Qed.
Lemma foldM_map {S A B} (f : S -> B -> option S) (h : A -> B) l s : foldM f (map h l) s = foldM (fun s a => f s (h a)) l s.
Proof. revert s. induction l as [|a l IH]; intros s; cbn; auto. destruct (f s (h a)); cbn; auto. Qed.

Section PP.
  Variable n : nat.
  Variable elim : list (option nat).
  Hypothesis EL : length elim = n.
  Hypothesis EP : forall x p, nth_error elim x = Some (Some p) -> x < p < n.
  Variables gf gb : fograph N.
  Notation lf := (k_links gf).
  Notation lb := (k_links gb).
  Hypothesis HF : up_graph n elim lf.
  Hypothesis HB : up_graph n elim lb.
  Variable B : nat -> nat -> N -> Prop.
  Variable un : nat -> nat -> option nat -> Prop.
  Variable hop : nat -> nat -> nat -> Prop.
  Hypothesis Bdom : forall x y w, B x y w -> x < n /\ y < n.
  Hypothesis Bfl : forall x e y w, larc lf x e y w -> B x y w /\ hop x y e.
  Hypothesis Bbl : forall x e y w, larc lb x e y w -> B y x w /\ hop y x e.
  Hypothesis Bpos : forall x y w, B x y w -> (0 < w)%N.
  Hypothesis Bfun : forall x y w w', B x y w -> B x y w' -> w = w'.
  Hypothesis Bmid : forall x y w z, B x y w -> un x y (Some z) -> z < x /\ z < y /\ exists w1 w2, B x z w1 /\ B z y w2 /\ w = (w1 + w2)%N.
  Variables fu bu : list unp.
  Variable ft : list nat.
  Variable flip : bool.
  Hypothesis Bspec : forall x v e w, B x v w -> hop x v e -> exists r, (if x <? v then nth_error fu e else nth_error bu e) = Some r /\
    (r = (None, None) /\ un x v None \/ exists d u z w2, (if flip then (snd r, fst r) else r) = (Some d, Some u) /\ nth_error ft u = Some z /\ un x v (Some z) /\ hop x z d /\ hop z v u /\
      B z v w2 /\ (z < v -> nth_error (weight gf) u = Some w2)).
  (** what the object consists of *)
  Definition pp_base (p : ppot) : Prop :=
    pp_fw p = gf /\ pp_bw p = gb /\ pp_elim p = elim /\ pp_fu p = fu /\ pp_bu p = bu /\ pp_ft p = ft /\ pp_flip p = flip /\
    length (pp_pots p) = n /\ length (pp_bd p) = n /\ length (pp_par p) = n /\ length (pp_un p) = n.
  Lemma base_set p pots bd par u : pp_base p -> length pots = n -> length bd = n -> length par = n -> length u = n -> pp_base (pp_set p pots bd par u).
  Proof. unfold pp_base, pp_set. cbn. intuition. Qed.

  (** *** init *)
  Section Walk.
  Variable t : nat.
  Hypothesis Ht : t < n.
  Record pwalk (P R : list nat) (d : list N) (par : list (nat * nat)) : Prop := {
    pw_bw : bwalk n elim gb t P R d;
    pw_len : length par = n;
    pw_t : exists e, nth_error par t = Some (t, e);
    pw_par : forall x v, x <> t -> nth_error d x = Some v -> (v < INF)%N -> exists y e w vy, nth_error par x = Some (y, e) /\ larc lb y e x w /\ In y P /\ nth_error d y = Some vy /\ v = (w + vy)%N }.
  Lemma pwalk_ok s R : rpath elim t R -> w_next s = hd_error R -> pwalk [] R (w_dist s) (w_par s) ->
    exists r, loopN (N.of_nat (n + 1)) (pwalk_step lb elim) s = Some r /\ exists P, pwalk P [] (fst r) (snd r).
  Proof.
    intros HR Hn HI.
    apply (loopN_ghost (pwalk_step lb elim) (fun (PR : list nat * list nat) s => w_next s = hd_error (snd PR) /\ pwalk (fst PR) (snd PR) (w_dist s) (w_par s))
      (fun r => exists P, pwalk P [] (fst r) (snd r)) (fun PR => N.of_nat (length (snd PR))) _ ([], R)).
    3: { pose proof (rpath_len n elim EL EP _ _ HR). cbn [snd]. lia. }
    2: { cbn [fst snd]. auto. }
    clear s Hn HI R HR. intros [P R] s. cbn [fst snd]. intros (Hn & HI). unfold pwalk_step. rewrite Hn.
    pose proof HI as [[B1 B2 B3 B4 B5] Lp Pt PP]. destruct R as [|p R]; cbn [hd_error].
    - eexists. split; [reflexivity|]. exists P. exact HI.
    - unfold etw_next. rewrite Hn. cbn [hd_error].
      assert (HpIn : In p (P ++ p :: R)) by apply in_elt. pose proof (rpath_lt n elim EL EP _ _ B1 p HpIn) as Lpn.
      destruct (nth_error_lt (w_dist s) p) as (dp & Edp); [lia|]. rewrite Edp. cbn [bind].
      destruct (rpath_mid elim _ _ _ _ B1) as [Rp Enx]. rewrite Enx. cbn [bind].
      destruct (HB p ltac:(lia)) as (ls & Els & Hls). rewrite Els. cbn [bind].
      destruct (B3 p dp Edp) as [Dp1 Dp2].
      destruct (relax_all n p dp ls Dp1 (w_dist s) (w_par s) B2 Lp) as (d' & par' & Ef & Ld' & Lp' & KK).
      { intros y w e Hin. destruct (Hls y w e Hin) as (H1 & H2 & H3). split; [|auto]. specialize (H3 _ Rp). pose proof (rpath_lt n elim EL EP _ _ Rp y H3). lia. }
      rewrite Ef. cbn [bind]. eexists. split; [reflexivity|]. exists (P ++ [p], R). cbn [fst snd w_next w_par w_dist]. split; [|cbn [length]; lia].
      split; [auto|].
      assert (Low : forall x, x <= p -> nth_error d' x = nth_error (w_dist s) x).
      { intros x Hx. destruct (nth_error_lt (w_dist s) x) as (v & Ev); [lia|]. destruct (KK x v Ev) as (v' & E1 & _ & _ & [[-> _]|[_ (w & e & Hin & _)]]); [congruence|].
        destruct (Hls _ _ _ Hin). lia. }
      pose proof (rpath_asc n elim EL EP _ _ B1) as HA. pose proof (rpath_lt n elim EL EP _ _ B1 p HpIn) as Ltp.
      constructor; auto.
      + constructor; auto.
        * rewrite <- app_assoc. exact B1.
        * intros x v' Ev'. destruct (nth_error_lt (w_dist s) x) as (v & Ev). { apply nth_error_Some_lt in Ev'. lia. }
          destruct (KK x v Ev) as (v2 & E1 & L1 & _ & C). rewrite Ev' in E1. injection E1 as <-. destruct (B3 x v Ev) as [V1 V2].
          split; [lia|]. intros Hlt. destruct C as [[-> _]|[_ (w & e & Hin & -> & _)]]; [auto|].
          eapply walk_app; [apply Dp2; lia|]. apply walk_arc. exists e. exists ls. auto.
        * rewrite Low; auto. lia.
        * intros x y w v v' Hx Ha Ev Ev'. apply in_app_or in Hx. destruct Hx as [Hx|[<-|[]]].
          -- assert (x < p). { destruct (asc_split P p R x HA) as [Q _]. auto. }
             rewrite Low in Ev by lia. destruct (nth_error_lt (w_dist s) y) as (vy & Ey). { apply nth_error_Some_lt in Ev'. lia. }
             destruct (KK y vy Ey) as (v2 & E1 & L1 & _). rewrite Ev' in E1. injection E1 as <-. pose proof (B5 _ _ _ _ _ Hx Ha Ev Ey). lia.
          -- rewrite Low in Ev by lia. rewrite Edp in Ev. injection Ev as <-. destruct Ha as (e & ls' & Els' & Hin). assert (ls' = ls) by congruence. subst ls'.
             destruct (nth_error_lt (w_dist s) y) as (vy & Ey). { apply nth_error_Some_lt in Ev'. lia. }
             destruct (KK y vy Ey) as (v2 & E1 & _ & Hr & _). rewrite Ev' in E1. injection E1 as <-. eapply Hr; eauto.
      + destruct (KK t 0%N B4) as (v' & E1 & _ & _ & [[_ Eq]|[L _]]); [rewrite Eq; auto|lia].
      + intros x v' Hx Ev' Lv. destruct (nth_error_lt (w_dist s) x) as (v & Ev). { apply nth_error_Some_lt in Ev'. lia. }
        destruct (KK x v Ev) as (v2 & E1 & _ & _ & C). rewrite Ev' in E1. injection E1 as <-. destruct C as [[-> Eq]|[_ (w & e & Hin & -> & Eq)]].
        * destruct (PP x v Hx Ev Lv) as (y & e & w & vy & P1 & P2 & P3 & P4 & P5). exists y, e, w, vy. rewrite Eq. split; auto. split; auto. split; [apply in_or_app; auto|]. split; auto.
          rewrite Low; auto. destruct (asc_split P p R y HA) as [Q _]. specialize (Q P3). lia.
        * exists p, e, w, dp. split; auto. split; [exists ls; auto|]. split; [apply in_or_app; right; left; auto|]. split; [rewrite Low; auto|lia].
  Qed.
  Lemma bwalk_bd P d : bwalk n elim gb t P [] d -> bd_ok n gb t d.
  Proof.
    intros [B1 B2 B3 B4 B5]. rewrite app_nil_r in B1. split; auto. intros x v Hv. destruct (B3 x v Hv) as [V1 V2]. split; [auto|]. split; [auto|].
    assert (G : forall u x l, walk (uarc lb) u x l -> In u P -> forall vu vx, nth_error d u = Some vu -> nth_error d x = Some vx -> (vx <= vu + l)%N).
    { induction 1 as [u|u z y w l Ha Hw IH]; intros Hu vu vx Eu Ex. { rewrite Eu in Ex. injection Ex as <-. lia. }
      pose proof (rpath_lt n elim EL EP _ _ B1 u Hu) as Lu. destruct (uarc_lt n elim EL EP lb HB _ _ _ Ha ltac:(lia)) as (Lz & _ & Hin).
      destruct (rpath_in elim _ _ _ B1 Hu) as (r & Hr & Hi). destruct (nth_error_lt d z) as (vz & Ez); [lia|].
      pose proof (B5 _ _ _ _ _ Hu Ha Eu Ez). pose proof (IH (Hi _ (Hin _ Hr)) _ _ Ez Ex). lia. }
    intros l Hl. pose proof (G _ _ _ Hl) as KK. destruct (rpath_hd elim _ _ B1) as (P' & ->). specialize (KK ltac:(left; auto) _ _ B4 Hv). lia.
  Qed.
  End Walk.

  Section Target.
  Variable t : nat.
  Hypothesis Ht : t < n.
  Variable D : nat -> N.
  Hypothesis Dmeet : forall x v, x < n -> capped (pmeets gf gb x t) v -> v = D x.
  Hypothesis Dwalk : forall x, x < n -> capped (walk B x t) (D x).
  Notation PO := (pot_ok n elim gf gb t).

  Lemma D_t : D t = 0%N.
  Proof. destruct (Dwalk t Ht) as (_ & _ & H). specialize (H 0%N (walk_nil _ _)). lia. Qed.
  Lemma D_tri x y w : B x y w -> (D x <= w + D y)%N.
  Proof.
    intros Ha. destruct (Bdom _ _ _ Ha) as [Hx Hy]. destruct (Dwalk x Hx) as (X1 & _ & X3). destruct (Dwalk y Hy) as (Y1 & Y2 & _).
    destruct (N.lt_ge_cases (D y) INF) as [L|L]; [|lia]. apply X3. econstructor; eauto.
  Qed.
  Lemma D_mid x y w z : B x y w -> un x y (Some z) -> D x = (w + D y)%N -> z < x /\ z < y /\ exists w1 w2, B x z w1 /\ B z y w2 /\ w = (w1 + w2)%N /\ D x = (w1 + D z)%N /\ D z = (w2 + D y)%N.
  Proof.
    intros Ha Hu HD. destruct (Bmid _ _ _ _ Ha Hu) as (L1 & L2 & w1 & w2 & A1 & A2 & ->). split; auto. split; auto. exists w1, w2. split; auto. split; auto. split; auto.
    pose proof (D_tri _ _ _ A1). pose proof (D_tri _ _ _ A2). lia.
  Qed.

  (** the parents between two calls, for the potentials computed so far *)
  Record KI (bd : list N) (pots : list (option N)) (par : list (nat * nat)) : Prop := {
    ki_pot : PO bd pots;
    ki_len : length par = n;
    ki_t : exists e, nth_error par t = Some (t, e);
    ki_none : forall x v, x <> t -> nth_error pots x = Some None -> nth_error bd x = Some v -> (v < INF)%N ->
      exists y e w vy, nth_error par x = Some (y, e) /\ B x y w /\ hop x y e /\ nth_error bd y = Some vy /\ v = (w + vy)%N;
    ki_some : forall x v, x <> t -> nth_error pots x = Some (Some v) -> (D x < INF)%N -> exists y e w, nth_error par x = Some (y, e) /\ B x y w /\ hop x y e /\ D x = (w + D y)%N }.
  Lemma pot_val bd pots x v : PO bd pots -> nth_error pots x = Some (Some v) -> v = D x.
  Proof.
    intros HP E. apply Dmeet; [|eapply po_val; eauto]. apply nth_error_Some_lt in E. rewrite (po_len _ _ _ _ _ _ _ HP) in E. auto.
  Qed.
  Lemma D_le_bd bd pots x v : PO bd pots -> x < n -> nth_error bd x = Some v -> (v < INF)%N -> (D x <= v)%N.
  Proof.
    intros HP Hx E L. destruct (po_bd _ _ _ _ _ _ _ HP) as [_ Hb]. destruct (Hb x v E) as (_ & W & _). specialize (W L).
    apply (proj2 (proj2 (Dwalk x Hx))). apply walk_flip_iff. revert W. apply walk_mono. intros a b w (e & He). apply (Bbl _ _ _ _ He).
  Qed.

  (** *** Settling one node *)
  Lemma relax_sim pots x : forall ils d0 par d, x < length par -> foldM (pot_min pots) (map fst ils) d0 = Some d ->
    exists par', foldM (pp_relax pots x) ils (d0, par) = Some (d, par') /\
      ((d = d0 /\ par' = par) \/ ((d < d0)%N /\ exists y w e v, In (y, w, e) ils /\ nth_error pots y = Some (Some v) /\ d = (w + v)%N /\ par' = upd par x (y, e))).
  Proof.
    clear. induction ils as [|[[h w] e] ils IH]; intros d0 par d Hx E; cbn [foldM map fst] in *. { injection E as ->. exists par. auto. }
    unfold pot_min at 1 in E. cbn [fst snd] in E. unfold pp_relax at 1. destruct (nth_error pots h) as [[v|]|] eqn:Ev; cbn [bind] in E; try discriminate. cbn [bind].
    destruct (cadd w v) as [r|] eqn:Er; cbn [bind] in E; [|discriminate]. cbn [bind]. assert (r = (w + v)%N). { unfold cadd in Er. destruct (w + v <? U32)%N; [injection Er as <-; auto|discriminate]. } subst r.
    cbn [fst snd]. destruct (N.ltb_spec (w + v) d0) as [L|L].
    - rewrite N.min_r in E by lia. rewrite set_at_lt by auto. cbn [bind]. destruct (IH _ (upd par x (h, e)) d ltac:(rewrite upd_length; auto) E) as (par' & E' & H). exists par'. split; [exact E'|]. right.
      destruct H as [[-> ->]|(L' & y & w' & e' & v' & Hin & Hv & -> & ->)].
      + split; [lia|]. exists h, w, e, v. split; [left; auto|]. auto.
      + split; [lia|]. exists y, w', e', v'. split; [right; auto|]. split; auto. split; auto.
        apply nth_ext with (d := (0, 0)) (d' := (0, 0)); [rewrite !upd_length; auto|]. intros i Hi. rewrite !upd_length in Hi.
        apply nth_error_nth. destruct (Nat.eq_dec i x) as [->|Ne].
        * rewrite nth_error_upd_eq by (rewrite upd_length; auto). f_equal. symmetry. apply nth_error_nth. apply nth_error_upd_eq. auto.
        * rewrite nth_error_upd_neq by auto. rewrite nth_error_upd_neq by auto. rewrite (nth_error_nth' par (0, 0)) by auto. f_equal. symmetry. apply nth_error_nth. rewrite nth_error_upd_neq by auto. apply nth_error_nth'. auto.
    - rewrite N.min_l in E by lia. destruct (IH _ par d Hx E) as (par' & E' & H). exists par'. split; [exact E'|]. destruct H as [H|(L' & y & w' & e' & v' & Hin & H)]; auto. right. split; auto. exists y, w', e', v'. split; [right; auto|auto].
  Qed.

  Lemma settle_ok bd pots par x r : KI bd pots par -> nth_error pots x = Some None -> rpath elim x (x :: r) -> (forall y, In y r -> exists v, nth_error pots y = Some (Some v)) ->
    exists pots' par', pp_settle gf bd (pots, par) x = Some (pots', par') /\ KI bd pots' par' /\ (exists v, nth_error pots' x = Some (Some v)) /\
      (forall y, y <> x -> nth_error pots' y = nth_error pots y /\ nth_error par' y = nth_error par y).
  Proof.
    intros HK Hx0 Hr Hanc. pose proof (ki_pot _ _ _ HK) as HP. pose proof (po_len _ _ _ _ _ _ _ HP) as Lp. assert (Hx : x < n). { apply nth_error_Some_lt in Hx0. lia. }
    destruct (settle_pot_ok n elim EL EP gf gb HF t bd pots x r HP Hr Hanc) as (v & E & HP').
    unfold pot_settle in E. destruct (po_bd _ _ _ _ _ _ _ HP) as [Lb Hb]. destruct (nth_error_lt bd x) as (d0 & Ed); [lia|]. rewrite Ed in E. cbn [bind] in E.
    destruct (HF x Hx) as (ils & Eils & Hils). unfold k_links in Eils. rewrite (link_iter_of_ids gf x ils Eils) in E. cbn [bind] in E.
    destruct (foldM (pot_min pots) (map fst ils) d0) as [d|] eqn:Ef; cbn [bind] in E; [|discriminate].
    destruct (relax_sim pots x ils d0 par d ltac:(rewrite (ki_len _ _ _ HK); auto) Ef) as (par' & Ep & Hcase).
    destruct (negb (d =? U32MAX)%N) eqn:Eg; cbn [guard bind] in E; [|discriminate]. rewrite set_at_lt in E by lia. injection E as E.
    assert (Edv : d = v). { apply (f_equal (fun l => nth_error l x)) in E. rewrite !nth_error_upd_eq in E by lia. congruence. } subst v. clear E.
    unfold pp_settle. rewrite Ed. cbn [bind]. rewrite Eils. cbn [bind fst snd]. rewrite Ep. cbn [bind]. rewrite Eg. cbn [guard bind]. rewrite set_at_lt by lia. cbn [bind].
    exists (upd pots x (Some d)), par'. split; [reflexivity|].
    assert (Fr : forall y, y <> x -> nth_error par' y = nth_error par y). { intros y Hy. destruct Hcase as [[_ ->]|(_ & h & w & e & v' & _ & _ & _ & ->)]; auto. apply nth_error_upd_neq; auto. }
    assert (Dx : d = D x). { apply (pot_val bd _ x d HP'). apply nth_error_upd_eq. lia. }
    split; [|split; [exists d; apply nth_error_upd_eq; lia|intros y Hy; split; [apply nth_error_upd_neq; auto|auto]]].
    constructor; auto.
    - destruct Hcase as [[_ ->]|(_ & h & w & e & v' & _ & _ & _ & ->)]; rewrite ?upd_length; apply (ki_len _ _ _ HK).
    - destruct (Nat.eq_dec t x) as [Etx|Ne]; [|rewrite Fr by auto; apply (ki_t _ _ _ HK)].
      destruct Hcase as [[_ ->]|(L & _)]; [apply (ki_t _ _ _ HK)|]. rewrite (proj1 (N.le_0_r d0)) in L; [lia|].
      apply (proj2 (proj2 (Hb x d0 Ed))). rewrite <- Etx. constructor.
    - intros y v Hyt Hy Ey Lv. destruct (Nat.eq_dec y x) as [->|Ne]. { rewrite nth_error_upd_eq in Hy by lia. discriminate. }
      rewrite nth_error_upd_neq in Hy by auto. rewrite Fr by auto. apply (ki_none _ _ _ HK); auto.
    - intros y v Hyt Hy Ly. destruct (Nat.eq_dec y x) as [->|Ne].
      2: { rewrite nth_error_upd_neq in Hy by auto. rewrite Fr by auto. eapply (ki_some _ _ _ HK); eauto. }
      destruct Hcase as [[Ed0 ->]|(_ & h & w & e & v' & Hin & Hv & Ed' & ->)].
      + destruct (ki_none _ _ _ HK x d0 Hyt Hx0 Ed) as (h & e & w & vy & E1 & Ha & Hh & E2 & E3). { subst d0. rewrite Dx. auto. }
        exists h, e, w. split; auto. split; auto. split; auto. destruct (Bdom _ _ _ Ha) as [_ Hh']. pose proof (D_tri _ _ _ Ha). pose proof (Bpos _ _ _ Ha) as Pw.
        pose proof (D_le_bd bd pots h vy HP Hh' E2 ltac:(lia)). lia.
      + exists h, e, w. rewrite nth_error_upd_eq by (rewrite (ki_len _ _ _ HK); auto). split; auto. destruct (Bfl x e h w) as [Ha Hh]. { exists ils. auto. } split; auto. split; auto.
        rewrite <- (pot_val bd pots h v' HP Hv). congruence.
  Qed.

  Lemma climb_none bd pots x : PO bd pots -> x < n ->
    exists stack, loopN (N.of_nat (length elim + 1)) (climb_step elim pots) ([], x) = Some stack /\
    exists S r, rpath elim x (S ++ r) /\ stack = rev S /\ (forall y, In y r -> exists v, nth_error pots y = Some (Some v)) /\ (forall y, In y S -> nth_error pots y = Some None) /\
      ((exists v, nth_error pots x = Some (Some v)) -> S = []).
  Proof.
    intros HP Hx. destruct (rpath_ex n elim EL EP x Hx) as (R0 & HR0).
    apply (loopN_ghost (climb_step elim pots) (fun (DR : list nat * list nat) s => let '(D, R) := DR in rpath elim x (D ++ R) /\ hd_error R = Some (snd s) /\ fst s = rev D /\ (forall y, In y D -> nth_error pots y = Some None))
      (fun stack => exists D r, rpath elim x (D ++ r) /\ stack = rev D /\ (forall y, In y r -> exists v, nth_error pots y = Some (Some v)) /\ (forall y, In y D -> nth_error pots y = Some None) /\ ((exists v, nth_error pots x = Some (Some v)) -> D = []))
      (fun DR => N.of_nat (length (snd DR))) _ ([], R0)).
    3: { pose proof (rpath_len n elim EL EP _ _ HR0). cbn [snd]. rewrite EL. lia. }
    2: { split; [exact HR0|]. destruct (rpath_hd elim _ _ HR0) as (? & ->). split; [reflexivity|]. split; [reflexivity|intros y []]. }
    assert (Hd : forall D r, rpath elim x (D ++ r) -> (forall y, In y D -> nth_error pots y = Some None) -> (exists v, nth_error pots x = Some (Some v)) -> D = []).
    { intros [|a S] r H1 H2 (v & Ev); auto. destruct (rpath_hd elim _ _ H1) as (q & Eq). cbn in Eq. injection Eq as -> _. rewrite H2 in Ev by (left; auto). discriminate. }
    intros [S R] [stack cur] (H1 & H2 & H3 & H4). cbn [fst snd] in *. destruct R as [|c R]; [discriminate|]. injection H2 as ->.
    pose proof (rpath_lt n elim EL EP _ _ H1 cur ltac:(apply in_elt)) as Lc. unfold climb_step.
    destruct (nth_error_lt pots cur) as (v & Ev). { rewrite (po_len _ _ _ _ _ _ _ HP). lia. } rewrite Ev. cbn [bind].
    destruct (rpath_mid elim _ _ _ _ H1) as [Hc Ec]. destruct v as [v|].
    - eexists. split; [reflexivity|]. exists S, (cur :: R). split; [auto|]. split; [auto|]. split; [intros y Hy; eapply (po_up _ _ _ _ _ _ _ HP); eauto|]. split; eauto.
    - rewrite Ec. cbn [bind]. assert (H5 : forall y, In y (S ++ [cur]) -> nth_error pots y = Some None). { intros y Hy. apply in_app_or in Hy. destruct Hy as [Hy|[<-|[]]]; auto. }
      destruct R as [|q R]; cbn [hd_error].
      + eexists. split; [reflexivity|]. exists (S ++ [cur]), []. rewrite app_nil_r. split; [auto|]. split; [rewrite H3, rev_app_distr; reflexivity|]. split; [intros y []|]. split; auto.
        apply (Hd _ []); auto. rewrite app_nil_r. auto.
      + eexists. split; [reflexivity|]. exists (S ++ [cur], q :: R). split; [|cbn [snd length]; lia]. split; [rewrite <- app_assoc; auto|]. cbn [fst snd hd_error].
        split; [auto|]. split; auto. rewrite H3, rev_app_distr. reflexivity.
  Qed.

  Lemma settles_ok bd x : forall S r pots par, rpath elim x (rev S ++ r) -> KI bd pots par -> (forall y, In y r -> exists v, nth_error pots y = Some (Some v)) -> (forall y, In y S -> nth_error pots y = Some None) ->
    exists pots' par', foldM (pp_settle gf bd) S (pots, par) = Some (pots', par') /\ KI bd pots' par' /\ (forall y, In y (rev S ++ r) -> exists v, nth_error pots' y = Some (Some v)) /\
      (forall y, ~ In y S -> nth_error pots' y = nth_error pots y /\ nth_error par' y = nth_error par y).
  Proof.
    induction S as [|c S IH]; intros r pots par Hr HK Hanc Hno; cbn [foldM rev app] in *. { exists pots, par. auto. }
    rewrite <- app_assoc in Hr. cbn [app] in Hr. destruct (rpath_mid elim _ _ _ _ Hr) as [Hc _].
    destruct (settle_ok bd pots par c r HK (Hno c (or_introl eq_refl)) Hc Hanc) as (pots1 & par1 & E & HK1 & H1 & F1). rewrite E. cbn [bind].
    assert (Hnc : ~ In c S).
    { intros Hin. pose proof (rpath_asc n elim EL EP _ _ Hr) as HA. destruct (asc_split (rev S) c r c HA) as [Q _]. rewrite <- in_rev in Q. specialize (Q Hin). lia. }
    destruct (IH (c :: r) pots1 par1 Hr HK1) as (pots' & par' & E' & HK2 & H2 & F2).
    - intros y [<-|Hy]; auto. destruct (Nat.eq_dec y c) as [->|Ne]; auto. rewrite (proj1 (F1 y Ne)). auto.
    - intros y Hy. rewrite (proj1 (F1 y ltac:(intros ->; contradiction))). apply Hno. right. auto.
    - exists pots', par'. split; [exact E'|]. split; [auto|]. split.
      + intros y Hy. apply H2. rewrite <- app_assoc in Hy. exact Hy.
      + intros y Hy. assert (y <> c /\ ~ In y S) as [Y1 Y2] by (split; intros K; apply Hy; [left; auto|right; auto]). destruct (F1 y Y1), (F2 y Y2). split; congruence.
  Qed.

  (** *** The state of the whole object *)
  Definition flagged (p : ppot) (x : nat) : Prop := nth_error (pp_un p) x = Some true.
  Definition computed (p : ppot) (x : nat) : Prop := exists v, nth_error (pp_pots p) x = Some (Some v).
  Record K (p : ppot) : Prop := {
    k_base : pp_base p;
    k_ki : KI (pp_bd p) (pp_pots p) (pp_par p);
    k_un : forall x, flagged p x -> (D x < INF)%N /\ computed p x /\ (x = t \/ exists y e, nth_error (pp_par p) x = Some (y, e) /\ un x y None /\ flagged p y) }.

  Lemma value_ok p x : K p -> x < n -> exists p', pp_value p x = Some (p', if (D x <? INF)%N then Some (D x) else None) /\ K p' /\ computed p' x /\ pp_un p' = pp_un p /\
    (forall y, computed p y -> computed p' y /\ nth_error (pp_par p') y = nth_error (pp_par p) y).
  Proof.
    intros HK Hx. destruct (k_base _ HK) as (B1 & B2 & B3 & B4 & B5 & B6 & B7 & B8 & B9 & B10 & B11). pose proof (ki_pot _ _ _ (k_ki _ HK)) as HP.
    unfold pp_value. rewrite B1, B3. destruct (climb_none _ _ x HP Hx) as (stack & E & S & r & Hr & -> & Hanc & Hno & _). rewrite E. cbn [bind].
    destruct (settles_ok (pp_bd p) x (rev S) r (pp_pots p) (pp_par p)) as (pots' & par' & E' & HK' & H' & F').
    { rewrite rev_involutive. auto. } { apply HK. } { auto. } { intros y Hy. apply Hno. apply in_rev in Hy. auto. }
    rewrite E'. cbn [bind]. rewrite rev_involutive in H'. destruct (H' x) as (v & Ev). { destruct (rpath_hd elim _ _ Hr) as (? & ->). left; auto. } rewrite Ev. cbn [bind].
    pose proof (pot_val _ _ x v (ki_pot _ _ _ HK') Ev) as Evd. rewrite Evd in Ev |- *. clear v Evd.
    assert (Fr : forall y, computed p y -> (exists v, nth_error pots' y = Some (Some v)) /\ nth_error par' y = nth_error (pp_par p) y).
    { intros y (vy & Hy). destruct (F' y) as [F1 F2]. { intros Hin. apply in_rev in Hin. rewrite Hno in Hy by auto. discriminate. } rewrite F1. eauto. }
    eexists. split; [reflexivity|]. split; [|split; [exists (D x); exact Ev|split; [reflexivity|exact Fr]]].
    constructor.
    - apply base_set; [apply HK| | | |]; auto; [rewrite (po_len _ _ _ _ _ _ _ (ki_pot _ _ _ HK')); auto|apply (ki_len _ _ _ HK')].
    - exact HK'.
    - intros y Hy. destruct (k_un _ HK y Hy) as (U1 & U2 & U3). split; auto. destruct (Fr y U2) as [F1 F2]. split; [exact F1|]. cbn [pp_set pp_par]. rewrite F2. exact U3.
  Qed.

  Lemma flag_ok p x : K p -> x < n -> computed p x -> (D x < INF)%N -> (x = t \/ exists y e, nth_error (pp_par p) x = Some (y, e) /\ un x y None /\ flagged p y) ->
    exists p', pp_flag p x = Some p' /\ K p' /\ flagged p' x /\ pp_par p' = pp_par p /\ pp_pots p' = pp_pots p /\ (forall y, y <> x -> nth_error (pp_un p') y = nth_error (pp_un p) y) /\ (forall y, flagged p y -> flagged p' y).
  Proof.
    clear. intros HK Hx Hc HD Hy. destruct (k_base _ HK) as (B1 & B2 & B3 & B4 & B5 & B6 & B7 & B8 & B9 & B10 & B11). unfold pp_flag. rewrite set_at_lt by lia. cbn [bind]. eexists. split; [reflexivity|].
    assert (M : forall y, flagged p y -> nth_error (upd (pp_un p) x true) y = Some true). { intros y Hyf. destruct (Nat.eq_dec y x) as [->|]; [apply nth_error_upd_eq; lia|]. rewrite nth_error_upd_neq; auto. }
    assert (Fx : nth_error (upd (pp_un p) x true) x = Some true) by (apply nth_error_upd_eq; lia).
    split; [|split; [exact Fx|split; [reflexivity|split; [reflexivity|split; [intros; apply nth_error_upd_neq; auto|exact M]]]]].
    constructor.
    - apply base_set; auto; [apply HK|rewrite upd_length; auto].
    - apply HK.
    - intros y Hyf. unfold flagged in Hyf. cbn [pp_set pp_un] in Hyf. destruct (Nat.eq_dec y x) as [->|Ne].
      + split; auto. split; auto. destruct Hy as [|(z & e & E1 & E2 & E3)]; auto. right. exists z, e. split; auto. split; auto. apply M. auto.
      + rewrite nth_error_upd_neq in Hyf by auto. destruct (k_un _ HK y Hyf) as (U1 & U2 & U3). split; auto. split; auto. destruct U3 as [|(z & e & E1 & E2 & E3)]; auto. right. exists z, e. split; auto. split; auto. apply M. auto.
  Qed.

  Lemma parent_ok p x y e w : K p -> x <> t -> x < n -> computed p x -> nth_error (pp_un p) x = Some false -> B x y w -> hop x y e -> D x = (w + D y)%N ->
    exists p', pp_parent p x (y, e) = Some p' /\ K p' /\ pp_un p' = pp_un p /\ pp_pots p' = pp_pots p /\ nth_error (pp_par p') x = Some (y, e) /\ (forall z, z <> x -> nth_error (pp_par p') z = nth_error (pp_par p) z).
  Proof.
    clear. intros HK Hxt Hx (vx & Hc) Hf Ha Hh HD. destruct (k_base _ HK) as (B1 & B2 & B3 & B4 & B5 & B6 & B7 & B8 & B9 & B10 & B11). unfold pp_parent. rewrite set_at_lt by lia. cbn [bind]. eexists. split; [reflexivity|].
    assert (Fx : nth_error (upd (pp_par p) x (y, e)) x = Some (y, e)) by (apply nth_error_upd_eq; lia).
    assert (Fn : forall z, z <> x -> nth_error (upd (pp_par p) x (y, e)) z = nth_error (pp_par p) z) by (intros; apply nth_error_upd_neq; auto).
    split; [|auto 10]. constructor.
    - apply base_set; auto; [apply HK|rewrite upd_length; auto].
    - pose proof (k_ki _ HK) as KK. constructor; cbn [pp_set pp_bd pp_pots pp_par].
      + apply KK.
      + rewrite upd_length. auto.
      + rewrite Fn by auto. apply KK.
      + intros z v Hz Hz1 Hz2 Hz3. rewrite Fn by (intros ->; congruence). apply (ki_none _ _ _ KK); auto.
      + intros z v Hz Hz1 Hz2. destruct (Nat.eq_dec z x) as [->|]; [exists y, e, w; auto|]. rewrite Fn by auto. eapply (ki_some _ _ _ KK); eauto.
    - intros z Hz. unfold flagged in Hz. cbn [pp_set pp_un] in Hz. assert (z <> x) by (intros ->; congruence). destruct (k_un _ HK z Hz) as (U1 & U2 & U3). split; auto. split; auto. cbn [pp_set pp_par]. rewrite Fn by auto. exact U3.
  Qed.

  (** *** unpack_path *)
  Definition cntD (x : nat) : nat := length (filter (fun y => (D y <? D x)%N) (seq 0 n)).
  Lemma cntD_lt x y : y < n -> (D y < D x)%N -> cntD y < cntD x.
  Proof.
    clear. intros Hy L. unfold cntD.
    assert (G : forall l, In y l -> length (filter (fun z => (D z <? D y)%N) l) < length (filter (fun z => (D z <? D x)%N) l) /\ True \/ False).
    2: { destruct (G (seq 0 n)) as [[G1 _]|[]]; auto. apply in_seq. lia. }
    assert (M : forall l, length (filter (fun z => (D z <? D y)%N) l) <= length (filter (fun z => (D z <? D x)%N) l)).
    { induction l as [|a l IH]; cbn; auto. destruct (N.ltb_spec (D a) (D y)), (N.ltb_spec (D a) (D x)); cbn; lia. }
    induction l as [|a l IH]; intros Hin; [destruct Hin|]. left. split; auto. cbn [filter]. destruct Hin as [->|Hin].
    - rewrite N.ltb_irrefl. rewrite (proj2 (N.ltb_lt _ _) L). cbn. specialize (M l). lia.
    - destruct (IH Hin) as [[I _]|[]]. destruct (N.ltb_spec (D a) (D y)), (N.ltb_spec (D a) (D x)); cbn; lia.
  Qed.
  Lemma cntD_le x : cntD x <= n.
  Proof. clear. unfold cntD. rewrite <- (seq_length n 0) at 2. generalize (seq 0 n). induction l as [|a l IH]; cbn; auto. destruct (D a <? D x)%N; cbn; lia. Qed.
  Definition pm (p : ppot) (x : nat) : nat := match nth_error (pp_pots p) x, nth_error (pp_par p) x with Some (Some _), Some (y, _) => y | _, _ => n end.
  Lemma pm_le p x : K p -> x < n -> (D x < INF)%N -> pm p x <= n.
  Proof.
    intros HK Hx HD. unfold pm. destruct (nth_error (pp_pots p) x) as [[v|]|] eqn:E; auto. destruct (nth_error (pp_par p) x) as [[y e]|] eqn:E2; auto.
    destruct (Nat.eq_dec x t) as [->|Ne]. { destruct (ki_t _ _ _ (k_ki _ HK)) as (e' & E'). rewrite E2 in E'. injection E' as -> _. lia. }
    destruct (ki_some _ _ _ (k_ki _ HK) x v Ne E HD) as (y' & e' & w & E' & Ha & _). rewrite E2 in E'. injection E' as <- <-. destruct (Bdom _ _ _ Ha). lia.
  Qed.

  (** what a call leaves alone *)
  Definition ext (x : nat) (p p' : ppot) : Prop :=
    (forall y, computed p y -> computed p' y) /\
    (forall y, flagged p y -> flagged p' y /\ nth_error (pp_par p') y = nth_error (pp_par p) y) /\
    (forall y, y <> x -> (D x <= D y)%N -> nth_error (pp_un p') y = nth_error (pp_un p) y /\ (computed p y -> nth_error (pp_par p') y = nth_error (pp_par p) y)).

  Lemma unpack_ok dbg : forall fuel p x, K p -> x < n -> (D x < INF)%N -> cntD x * (n + 2) + pm p x < fuel ->
    exists p', pp_unpack dbg fuel p x = Some p' /\ K p' /\ flagged p' x /\ ext x p p'.
  Proof.
    induction fuel as [|fuel IH]; intros p x HK Hx HD Hf; [lia|]. cbn [pp_unpack].
    destruct (k_base _ HK) as (B1 & B2 & B3 & B4 & B5 & B6 & B7 & B8 & B9 & B10 & B11).
    destruct (nth_error_lt (pp_un p) x) as (b & Eb); [lia|]. rewrite Eb. cbn [bind]. destruct b.
    { exists p. split; auto. split; auto. split; auto. split; auto. }
    destruct (value_ok p x HK Hx) as (p1 & E1 & K1 & C1 & U1 & F1). rewrite E1. rewrite (proj2 (N.ltb_lt _ _) HD). cbn [bind].
    assert (Fl1 : forall y, flagged p y -> flagged p1 y /\ nth_error (pp_par p1) y = nth_error (pp_par p) y).
    { intros y Hy. split; [unfold flagged; rewrite U1; auto|]. apply F1. apply (k_un _ HK y Hy). }
    destruct (Nat.eq_dec x t) as [->|Hxt].
    { destruct (ki_t _ _ _ (k_ki _ K1)) as (e & Ee). rewrite Ee. cbn [bind]. rewrite Nat.eqb_refl.
      destruct (flag_ok p1 t K1 Hx C1 HD (or_introl eq_refl)) as (p2 & E2 & K2 & G2 & P2 & Q2 & N2 & M2). exists p2. split; [exact E2|]. split; auto. split; auto. split; [|split].
      - intros y Hy. unfold computed. rewrite Q2. apply F1; auto.
      - intros y Hy. rewrite P2. split; [apply M2; apply Fl1; auto|apply Fl1; auto].
      - intros y Hy _. rewrite N2, U1, P2 by auto. split; auto. intros Hc. apply F1; auto. }
    destruct C1 as (vx & Vx). destruct (ki_some _ _ _ (k_ki _ K1) x vx Hxt Vx HD) as (y & e & w & Ee & Ha & Hh & Dxy). assert (C1 : computed p1 x) by (exists vx; auto).
    rewrite Ee. cbn [bind]. pose proof (Bpos _ _ _ Ha) as Pw. destruct (Bdom _ _ _ Ha) as [_ Hy]. assert (Nyx : y <> x) by (intros ->; lia). destruct (Nat.eqb_spec y x); [contradiction|].
    destruct (value_ok p1 y K1 Hy) as (p2 & E2 & K2 & C2 & U2 & F2). rewrite E2. rewrite (proj2 (N.ltb_lt (D y) INF)) by lia. cbn [bind].
    assert (Hpm : y <= pm p x).
    { unfold pm. destruct (nth_error (pp_pots p) x) as [[v|]|] eqn:Ep; [|lia|lia]. rewrite <- (proj2 (F1 x (ex_intro _ v Ep))), Ee. auto. }
    assert (Fu : cntD y * (n + 2) + pm p2 y < fuel).
    { pose proof (pm_le p2 y K2 Hy ltac:(lia)). pose proof (cntD_lt x y Hy ltac:(lia)) as L. assert ((cntD y + 1) * (n + 2) <= cntD x * (n + 2)) by (apply Nat.mul_le_mono_r; lia). lia. }
    destruct (IH p2 y K2 Hy ltac:(lia) Fu) as (p3 & E3 & K3 & G3 & X1 & X2 & X3). rewrite E3. cbn [bind].
    unfold dassert. rewrite (proj2 (N.leb_le (D y) (D x))) by lia. rewrite andb_false_r.
    (* x itself has not been touched *)
    assert (C3 : computed p3 x) by (apply X1; apply F2; auto).
    destruct (X3 x ltac:(auto) ltac:(lia)) as [U3 P3]. specialize (P3 (proj1 (F2 x C1))). rewrite (proj2 (F2 x C1)), Ee in P3. rewrite U2, U1, Eb in U3.
    (* the effect so far *)
    assert (T1 : forall z, computed p z -> computed p3 z). { intros z Hz. apply X1. apply F2. apply F1. auto. }
    assert (T2 : forall z, flagged p z -> flagged p3 z /\ nth_error (pp_par p3) z = nth_error (pp_par p) z).
    { intros z Hz. destruct (Fl1 z Hz) as [Z1 Z2]. assert (Z3 : flagged p2 z) by (unfold flagged; rewrite U2; auto). destruct (X2 z Z3) as [Z4 Z5]. split; auto. rewrite Z5, (proj2 (F2 z (proj1 (F1 z (proj1 (proj2 (k_un _ HK z Hz))))))). auto. }
    assert (T3 : forall z, z <> x -> (D x <= D z)%N -> nth_error (pp_un p3) z = nth_error (pp_un p) z /\ (computed p z -> nth_error (pp_par p3) z = nth_error (pp_par p) z)).
    { intros z Hz Lz. destruct (X3 z ltac:(intros ->; lia) ltac:(lia)) as [Z1 Z2]. split; [rewrite Z1, U2, U1; auto|]. intros Hc. rewrite (Z2 (proj1 (F2 z (proj1 (F1 z Hc))))), (proj2 (F2 z (proj1 (F1 z Hc)))). apply F1; auto. }
    clear X1 X2 X3 Fu.
    destruct (k_base _ K3) as (D1 & D2 & D3 & D4 & D5 & D6 & D7 & D8 & D9 & D10 & D11).
    destruct (Bspec x y e w Ha Hh) as (r & Er & Hr).
    assert (Eun : pp_unpacking p3 x y e = Some (if flip then (snd r, fst r) else r)). { unfold pp_unpacking. rewrite D4, D5, D7, Er. destruct r as [r1 r2]. reflexivity. }
    rewrite Eun. cbn [bind]. destruct Hr as [[-> Hn0]|(d & u & z & w2 & Erf & Eft & Hun & Hxz & Hzy & Bzy & Hwt)].
    { assert (Eif : (if flip then (snd (@None nat, @None nat), fst (@None nat, @None nat)) else (None, None)) = (@None nat, @None nat)) by (destruct flip; auto). rewrite Eif.
      destruct (flag_ok p3 x K3 Hx C3 HD) as (p4 & E4 & K4 & G4 & P4 & Q4 & N4 & M4). { right. exists y, e. auto. }
      exists p4. split; [exact E4|]. split; auto. split; auto. split; [|split].
      - intros z Hz. unfold computed. rewrite Q4. apply T1; auto.
      - intros z Hz. rewrite P4. destruct (T2 z Hz). split; auto.
      - intros z Hz Lz. rewrite N4, P4 by auto. apply T3; auto. }
    rewrite Erf. cbn [bind]. rewrite D6, Eft. cbn [bind].
    destruct (D_mid x y w z Ha Hun Dxy) as (Lzx & Lzy & w1 & w2' & A1 & A2 & Ew & Dxz & Dzy). rewrite (Bfun _ _ _ _ A2 Bzy) in *. clear w2' A2.
    pose proof (Bpos _ _ _ A1) as Pw1. pose proof (Bpos _ _ _ Bzy) as Pw2. assert (Hz : z < n) by lia. assert (Hzt : z <> t) by (intros ->; rewrite D_t in Dzy; lia).
    destruct (parent_ok p3 x z d w1 K3 Hxt Hx C3 U3 A1 Hxz Dxz) as (p4 & E4 & K4 & U4 & Q4 & P4 & P4'). rewrite E4. cbn [bind].
    destruct (k_base _ K4) as (_ & _ & _ & _ & _ & _ & _ & _ & _ & _ & L4).
    destruct (nth_error_lt (pp_un p4) z) as (b & Ebz); [lia|]. rewrite Ebz. cbn [bind].
    (* after the middle node has been dealt with *)
    assert (MID : exists p5, (if (b : bool) then Some p4 else '(p, _) <- pp_value p4 z ;; p <- pp_parent p z (y, u) ;; pp_unpack dbg fuel p z) = Some p5 /\ K p5 /\ flagged p5 z /\ computed p5 x /\
      nth_error (pp_un p5) x = Some false /\ nth_error (pp_par p5) x = Some (z, d) /\ (forall q, computed p4 q -> computed p5 q) /\
      (forall q, flagged p4 q -> flagged p5 q /\ nth_error (pp_par p5) q = nth_error (pp_par p4) q) /\
      (forall q, (D x <= D q)%N -> nth_error (pp_un p5) q = nth_error (pp_un p4) q /\ (computed p4 q -> nth_error (pp_par p5) q = nth_error (pp_par p4) q))).
    { assert (C4 : computed p4 x) by (unfold computed; rewrite Q4; auto). destruct b.
      { exists p4. split; auto. split; auto. split; auto. split; auto. split; [rewrite U4; auto|]. split; auto. }
      destruct (value_ok p4 z K4 Hz) as (p5 & E5 & K5 & C5 & U5 & F5). rewrite E5. cbn [bind].
      destruct (parent_ok p5 z y u w2 K5 Hzt Hz C5 ltac:(rewrite U5; auto) Bzy Hzy Dzy) as (p6 & E6 & K6 & U6 & Q6 & P6 & P6'). rewrite E6. cbn [bind].
      assert (Fu : cntD z * (n + 2) + pm p6 z < fuel).
      { pose proof (pm_le p6 z K6 Hz ltac:(lia)). pose proof (cntD_lt x z Hz ltac:(lia)) as L. assert ((cntD z + 1) * (n + 2) <= cntD x * (n + 2)) by (apply Nat.mul_le_mono_r; lia). lia. }
      destruct (IH p6 z K6 Hz ltac:(lia) Fu) as (p7 & E7 & K7 & G7 & X1 & X2 & X3). exists p7. rewrite E7. split; auto. split; auto. split; auto.
      assert (C56 : forall q, computed p5 q -> computed p6 q) by (intros q Hq; unfold computed; rewrite Q6; auto).
      assert (Y1 : forall q, computed p4 q -> computed p7 q). { intros q Hq. apply X1. apply C56. apply F5. auto. }
      assert (Y2 : forall q, flagged p4 q -> flagged p7 q /\ nth_error (pp_par p7) q = nth_error (pp_par p4) q).
      { intros q Hq. assert (Nq : q <> z) by (intros ->; unfold flagged in Hq; congruence). assert (flagged p6 q) by (unfold flagged; rewrite U6, U5; auto). destruct (X2 q H) as [Z1 Z2]. split; auto. rewrite Z2, P6' by auto. apply F5. apply (k_un _ K4 q Hq). }
      assert (Y3 : forall q, (D x <= D q)%N -> nth_error (pp_un p7) q = nth_error (pp_un p4) q /\ (computed p4 q -> nth_error (pp_par p7) q = nth_error (pp_par p4) q)).
      { intros q Lq. assert (Nq : q <> z) by (intros ->; lia). destruct (X3 q Nq ltac:(lia)) as [Z1 Z2]. split; [rewrite Z1, U6, U5; auto|]. intros Hq. rewrite Z2 by (apply C56; apply F5; auto). rewrite P6' by auto. apply F5. auto. }
      split; auto. destruct (Y3 x ltac:(lia)) as [Z1 Z2]. split; [rewrite Z1, U4; auto|]. split; [rewrite (Z2 C4); auto|]. auto. }
    destruct MID as (p5 & E5 & K5 & G5 & C5 & U5 & P5 & Y1 & Y2 & Y3). rewrite E5. cbn [bind].
    (* the check *)
    assert (CHK : exists p6, pp_check dbg p5 z (D y) u = Some p6 /\ K p6 /\ flagged p6 z /\ pp_un p6 = pp_un p5 /\ (forall q, computed p5 q -> computed p6 q /\ nth_error (pp_par p6) q = nth_error (pp_par p5) q)).
    { unfold pp_check. destruct dbg; [|exists p5; do 4 (split; [auto; fail|]); auto].
      destruct (value_ok p5 z K5 Hz) as (p6 & E6 & K6 & C6 & U6 & F6). rewrite E6. rewrite (proj2 (N.ltb_lt (D z) INF)) by lia. cbn [bind].
      destruct (k_base _ K6) as (W1 & _). rewrite W1, (Hwt Lzy). cbn [bind]. unfold cadd. rewrite (proj2 (N.ltb_lt (D y + w2) U32)) by (unfold INF in HD; unfold U32; cbn in *; lia). cbn [bind].
      rewrite Dzy, (N.add_comm w2), N.eqb_refl. cbn [guard bind]. exists p6. split; [auto|]. split; [auto|]. split; [unfold flagged; rewrite U6; exact G5|]. split; [exact U6|exact F6]. }
    destruct CHK as (p6 & E6 & K6 & G6 & U6 & F6). rewrite E6. cbn [bind]. clear E5 E6.
    destruct (F6 x C5) as [C6 P6]. rewrite P5 in P6.
    assert (Fu : cntD x * (n + 2) + pm p6 x < fuel). { unfold pm. destruct C6 as (v6 & V6). rewrite V6, P6. lia. }
    destruct (IH p6 x K6 Hx HD Fu) as (p7 & E7 & K7 & G7 & X1 & X2 & X3). rewrite E7. cbn [bind].
    destruct (k_un _ K7 x G7) as (_ & C7 & O7).
    destruct (flag_ok p7 x K7 Hx C7 HD O7) as (p8 & E8 & K8 & G8 & P8 & Q8 & N8 & M8). exists p8. split; [exact E8|]. split; auto. split; auto.
    assert (C34 : forall q, computed p3 q -> computed p4 q) by (intros q Hq; unfold computed; rewrite Q4; auto).
    split; [|split].
    - intros q Hq. unfold computed. rewrite Q8. apply X1. apply F6. apply Y1. apply C34. apply T1. auto.
    - intros q Hq. assert (Nq : q <> x) by (intros ->; unfold flagged in Hq; congruence). destruct (T2 q Hq) as [Z1 Z2].
      assert (Z3 : flagged p4 q) by (unfold flagged; rewrite U4; auto). destruct (Y2 q Z3) as [Z4 Z5]. assert (Z6 : flagged p6 q) by (unfold flagged; rewrite U6; auto).
      destruct (X2 q Z6) as [Z7 Z8]. split; [apply M8; auto|]. rewrite P8, Z8. rewrite (proj2 (F6 q (proj1 (proj2 (k_un _ K5 q Z4))))), Z5, P4' by auto. auto.
    - intros q Nq Lq. destruct (T3 q Nq Lq) as [Z1 Z2]. destruct (Y3 q Lq) as [Z3 Z4]. destruct (X3 q Nq Lq) as [Z5 Z6]. split; [rewrite N8, Z5, U6, Z3, U4 by auto; auto|].
      intros Hq. pose proof (C34 q (T1 q Hq)) as Cq. rewrite P8, Z6 by (apply F6; apply Y1; auto). rewrite (proj2 (F6 q (Y1 q Cq))), Z4, P4' by auto. auto.
  Qed.
  Lemma init_ok p : pp_base p -> exists p', pp_init p t = Some p' /\ K p' /\ forall x, ~ flagged p' x.
  Proof.
    intros HBp. pose proof HBp as (B1 & B2 & B3 & B4 & B5 & B6 & B7 & B8 & B9 & B10 & B11). unfold pp_init. rewrite B2, B3, B8, B9, B11. destruct (rpath_ex n elim EL EP t Ht) as (R & HR).
    destruct (side_init n elim EL EP lb HB t Ht (repeat INF n) (pp_par p)) with (R := R) as (f & E & Nf & HS); auto; try apply repeat_length.
    { intros x Hx. rewrite nth_error_repeat, (proj2 (Nat.ltb_lt _ _) Hx). reflexivity. }
    assert (Pf : exists e, nth_error (w_par f) t = Some (t, e)).
    { unfold etw_query in E. destruct (root_path_inf _ _ _ _); cbn [bind] in E; [|discriminate]. rewrite !set_at_lt in E by (rewrite ?repeat_length; lia). cbn [bind] in E. injection E as <-. cbn [w_par]. exists 0. apply nth_error_upd_eq. lia. }
    rewrite E. cbn [bind].
    assert (Df : forall x, x < n -> nth_error (w_dist f) x = Some (if x =? t then 0%N else INF)).
    { intros x Hx. apply (sd_un _ _ _ _ _ _ _ _ _ _ _ _ HS); auto. }
    assert (Ldf : length (w_dist f) = n) by apply HS.
    destruct (pwalk_ok t Ht f R HR Nf) as ([bd par] & Eb & P & HP).
    { constructor; auto.
      - constructor; auto.
        + intros x v Ev. rewrite Df in Ev by (apply nth_error_Some_lt in Ev; lia). injection Ev as <-. destruct (Nat.eqb_spec x t) as [->|]. { split; [unfold INF; lia|constructor]. } split; lia.
        + rewrite Df, Nat.eqb_refl by auto. auto.
        + intros ? ? ? ? ? [].
      - apply HS.
      - intros x v Hx Ev Lv. rewrite Df in Ev by (apply nth_error_Some_lt in Ev; lia). injection Ev as <-. destruct (Nat.eqb_spec x t); [contradiction|lia]. }
    rewrite Eb. cbn [bind]. cbn [fst snd] in HP. eexists. split; [reflexivity|]. pose proof (bwalk_bd t Ht P bd (pw_bw _ _ _ _ _ HP)) as Hbd.
    assert (NN : forall x v, nth_error (repeat (@None N) n) x = Some (Some v) -> False). { intros x v H. rewrite nth_error_repeat in H. destruct (x <? n); discriminate. }
    assert (NF : forall x, nth_error (repeat false n) x = Some true -> False). { intros x H. rewrite nth_error_repeat in H. destruct (x <? n); discriminate. }
    split; [|intros x H; exact (NF x H)]. constructor.
    - apply base_set; auto; try apply repeat_length; [apply Hbd|apply HP].
    - cbn [pp_set pp_bd pp_pots pp_par]. constructor.
      + constructor; auto. { apply repeat_length. } { intros x v H. destruct (NN _ _ H). } intros x v r y H. destruct (NN _ _ H).
      + apply HP.
      + apply HP.
      + intros x v Hx _ Ev Lv. destruct (pw_par _ _ _ _ _ HP x v Hx Ev Lv) as (y & e & w & vy & P1 & P2 & _ & P4 & P5). destruct (Bbl _ _ _ _ P2) as [Q1 Q2]. exists y, e, w, vy. auto.
      + intros x v _ H. destruct (NN _ _ H).
    - intros x H. destruct (NF _ H).
  Qed.

  Lemma path_ok dbg p x : K p -> x < n -> (D x < INF)%N -> exists p', pp_path dbg p x = Some p' /\ K p' /\ flagged p' x /\ ext x p p'.
  Proof.
    intros HK Hx HD. unfold pp_path, pp_fuel. destruct (k_base _ HK) as (_ & _ & _ & _ & _ & _ & _ & _ & -> & _). apply unpack_ok; auto.
    pose proof (cntD_le x). pose proof (pm_le p x HK Hx HD). assert (cntD x * (n + 2) <= n * (n + 2)) by (apply Nat.mul_le_mono_r; lia). lia.
  Qed.

  (** following the parents of an unpacked node *)
  Definition gpp (p : ppot) (v : nat) : option nat := match nth_error (pp_un p) v with Some true => pp_pred p v | _ => None end.
  Lemma flagged_path (O : nat -> nat -> N -> Prop) (HO : forall x y w, B x y w -> un x y None -> (w < INF)%N -> O x y w) p : K p ->
    forall x, flagged p x -> exists l, tpath n O t D (gpp p) x l.
  Proof.
    intros HK. assert (G : forall k x, (D x < N.of_nat k)%N -> flagged p x -> exists l, tpath n O t D (gpp p) x l).
    2: { intros x. apply (G (S (N.to_nat (D x)))). lia. }
    induction k as [|k IH]; intros x Hk Hf; [lia|]. destruct (k_un _ HK x Hf) as (HD & (v & Hc) & Hx). destruct (Nat.eq_dec x t) as [->|Ne]. { exists [t]. constructor. auto. }
    destruct Hx as [|(y & e & Ey & Hu & Hy)]; [contradiction|]. destruct (ki_some _ _ _ (k_ki _ HK) x v Ne Hc HD) as (y' & e' & w & E' & Ha & _ & Dxy). rewrite Ey in E'. injection E' as <- <-.
    pose proof (Bpos _ _ _ Ha). destruct (IH y ltac:(lia) Hy) as (l & Hl). exists (x :: l). apply tp_step with (u := y) (w := w); auto.
    - apply (Bdom _ _ _ Ha).
    - unfold gpp, pp_pred. unfold flagged in Hf. rewrite Hf, Ey. reflexivity.
    - apply HO; auto. lia.
  Qed.
  Lemma gpp_pred p v u : gpp p v = Some u -> pp_pred p v = Some u.
  Proof. unfold gpp. destruct (nth_error (pp_un p) v) as [[|]|]; auto; discriminate. Qed.
  Lemma ext_gpp x p p' v u : ext x p p' -> gpp p v = Some u -> gpp p' v = Some u.
  Proof.
    intros (_ & X & _). unfold gpp. destruct (nth_error (pp_un p) v) as [[|]|] eqn:E; try discriminate. destruct (X v E) as [X1 X2]. unfold flagged in X1. rewrite X1. unfold pp_pred. rewrite X2. auto.
  Qed.
  Lemma value_gpp p p' v u : K p -> pp_un p' = pp_un p -> (forall y, computed p y -> computed p' y /\ nth_error (pp_par p') y = nth_error (pp_par p) y) -> gpp p v = Some u -> gpp p' v = Some u.
  Proof.
    intros HK U F. unfold gpp. rewrite U. destruct (nth_error (pp_un p) v) as [[|]|] eqn:E; try discriminate. unfold pp_pred. rewrite (proj2 (F v (proj1 (proj2 (k_un _ HK v E))))). auto.
  Qed.
  Lemma follow_ok O p x l : tpath n O t D (gpp p) x l -> forall fuel, length l <= S fuel -> pp_follow fuel p t x = Some l /\ npath O x l t (D x - D t).
  Proof.
    induction 1 as [Hr|x y w l Hx Hxn Hp Ha HD Hl IH]; intros fuel Lf.
    - destruct fuel; cbn [pp_follow]; rewrite Nat.eqb_refl; (split; [auto|]); rewrite N.sub_diag; constructor.
    - destruct (tpath_hd _ _ _ _ _ _ _ Hl) as (q & Eq). cbn [length] in Lf. destruct fuel as [|fuel]; [rewrite Eq in Lf; cbn [length] in Lf; lia|]. destruct (IH fuel ltac:(lia)) as [I1 I2].
      assert (D t <= D y)%N. { rewrite D_t. lia. }
      cbn [pp_follow]. rewrite (proj2 (Nat.eqb_neq x t)) by auto. rewrite (gpp_pred _ _ _ Hp). cbn [bind]. rewrite I1. cbn [bind]. split; auto.
      replace (D x - D t)%N with (w + (D y - D t))%N by lia. econstructor; eauto.
  Qed.
  End Target.
  (** *** Every target, every history *)
  Hypothesis Btri : tri_closed B.
  Hypothesis Btf : forall x y w, upa B x y w -> tight B x y w -> uarc lf x y w.
  Hypothesis Btb : forall x y w, upa (flip_arc B) x y w -> tight (flip_arc B) x y w -> uarc lb x y w.
  Definition D_ok (t : nat) (D : nat -> N) : Prop := (forall x v, x < n -> capped (pmeets gf gb x t) v -> v = D x) /\ forall x, x < n -> capped (walk B x t) (D x).
  Lemma D_ex t : t < n -> exists D, D_ok t D.
  Proof.
    intros Ht. destruct (pot_init_rank_ok n elim EL EP gf gb HB (mkPot gf gb elim [] (repeat None n) (repeat INF n)) t eq_refl eq_refl (repeat_length _ _) (repeat_length _ _) Ht) as (p0 & _ & F1 & F2 & F3 & _ & HP). cbn [p_fw] in F1.
    set (D := fun x => match pot_rank p0 x with Some (_, Some d) => d | _ => INF end).
    assert (C : forall x, x < n -> capped (pmeets gf gb x t) (D x)).
    { intros x Hx. destruct (pot_rank_ok n elim EL EP gf gb HF t p0 x F1 F3 HP Hx) as (p' & r & E & _ & _ & _ & _ & _ & Hr). unfold D. rewrite E. destruct r as [d|].
      - destruct Hr as (L & M & Hm). split; [lia|]. split; auto.
      - split; [lia|]. split; [lia|auto]. }
    exists D. split. { intros x v Hx Hv. eapply capped_unique; eauto. }
    intros x Hx. destruct (C x Hx) as (C1 & C2 & C3). split; auto. split.
    - intros L. destruct (C2 L) as (m & a & b & Wa & Wb & ->). eapply walk_app with (v := m).
      + revert Wa. apply walk_mono. intros p q w (e & He). apply (Bfl _ _ _ _ He).
      + apply walk_flip_iff. revert Wb. apply walk_mono. intros p q w (e & He). apply (Bbl _ _ _ _ He).
    - apply tight_meets; [exact Btri|]. intros m a b Wa Wb. apply C3. exists m, a, b. split; [|split; [|reflexivity]].
      + revert Wa. apply walk_mono. intros p q w [H1 H2]. apply Btf; auto.
      + revert Wb. apply walk_mono. intros p q w [H1 H2]. apply Btb; auto.
  Qed.
  Definition PS (p : ppot) (o : option nat) : Prop := pp_base p /\ forall t, o = Some t -> t < n /\ exists D, D_ok t D /\ K t D p.
  Variable O : nat -> nat -> N -> Prop.
  Hypothesis HO : forall x y w, B x y w -> un x y None -> (w < INF)%N -> O x y w.
  Hypothesis HW1 : forall x y l, walk O x y l -> x < n -> y < n -> exists l', walk B x y l' /\ (l' <= l)%N.
  Hypothesis HW2 : forall x y l, walk B x y l -> x < n -> y < n -> (l < INF)%N -> walk O x y l.
  Lemma D_reach t D x l : D_ok t D -> t < n -> x < n -> walk O x t l -> (l < INF)%N -> (D x < INF)%N.
  Proof. intros [_ H] Ht Hx W L. destruct (HW1 _ _ _ W Hx Ht) as (l' & W' & L'). destruct (H x Hx) as (_ & _ & C). specialize (C _ W'). lia. Qed.

  Lemma history_ok dbg : forall ops p o, PS p o -> pp_ops_ok n O o ops -> exists p', pp_history dbg p ops = Some p' /\ PS p' (pp_target o ops).
  Proof.
    induction ops as [|op ops IH]; intros p o HP Ho; cbn [pp_target]. { exists p. auto. }
    unfold pp_history. cbn [foldM]. destruct HP as [HBp HT]. destruct op as [t|v|v]; cbn [pp_ops_ok pp_do] in *.
    - destruct Ho as [Ht Ho]. destruct (D_ex t Ht) as (D & HD). destruct (init_ok t Ht D (proj1 HD) (proj2 HD) p HBp) as (p1 & E & K1 & _). rewrite E. cbn [bind]. apply IH; auto. split; [apply K1|]. intros t' Et. injection Et as <-. split; auto. exists D. auto.
    - destruct Ho as (Hv & Hno & Ho). destruct o as [t|]; [|congruence]. destruct (HT t eq_refl) as (Ht & D & HD & HK). destruct (value_ok t Ht D (proj1 HD) (proj2 HD) p v HK Hv) as (p1 & E & K1 & _). rewrite E. cbn [bind]. apply IH; auto. split; [apply K1|]. intros t' Et. injection Et as <-. split; auto. exists D. auto.
    - destruct Ho as (Hv & (t & l & -> & W & L) & Ho). destruct (HT t eq_refl) as (Ht & D & HD & HK). destruct (path_ok t Ht D (proj1 HD) (proj2 HD) dbg p v HK Hv (D_reach t D v l HD Ht Hv W L)) as (p1 & E & K1 & _). rewrite E. cbn [bind]. apply IH; auto. split; [apply K1|]. intros t' Et. injection Et as <-. split; auto. exists D. auto.
  Qed.
  Lemma answer_ok dbg p t x : PS p (Some t) -> x < n -> path_answer dbg n O p x t.
  Proof.
    intros [HBp HT] Hx. destruct (HT t eq_refl) as (Ht & D & HD & HK). destruct (value_ok t Ht D (proj1 HD) (proj2 HD) p x HK Hx) as (p1 & E & _). destruct HD as [HD1 HD2].
    destruct (HD2 x Hx) as (C1 & C2 & C3). exists p1. eexists. split; [exact E|]. destruct (N.ltb_spec (D x) INF) as [L|L]; cbn [exact_answer].
    - split. { split; [auto|]. split; [apply HW2; auto|]. intros l W. destruct (HW1 _ _ _ W Hx Ht) as (l' & W' & L'). specialize (C3 _ W'). lia. }
      intros d Ed. injection Ed as <-. destruct (path_ok t Ht D HD1 HD2 dbg p x HK Hx L) as (p2 & E2 & K2 & F2 & _).
      destruct (flagged_path t Ht D HD1 HD2 O HO p2 K2 x F2) as (l & Hl). pose proof (tpath_len _ _ _ _ _ _ _ Hl). destruct (follow_ok t Ht D HD1 HD2 O p2 x l Hl n ltac:(lia)) as [G1 G2].
      exists p2, l. split; auto. split; auto. rewrite (D_t t Ht D HD1 HD2), N.sub_0_r in G2. auto.
    - split; [|discriminate]. intros l W. destruct (HW1 _ _ _ W Hx Ht) as (l' & W' & L'). specialize (C3 _ W'). lia.
  Qed.
  (** one target, for searches that use the tree *)
  Lemma target_ok dbg t p : t < n -> pp_base p -> exists p' D, pp_init p t = Some p' /\ K t D p' /\ (forall q, K t D q -> pp_base q) /\
    forall x l, x < n -> walk O x t l -> (l < INF)%N -> is_dist O x t (D x) /\
      (forall q, K t D q -> exists q', pp_dist q x = Some (q', D x) /\ K t D q' /\ forall v u, gpp q v = Some u -> gpp q' v = Some u) /\
      (forall q, K t D q -> exists q' path, pp_path dbg q x = Some q' /\ K t D q' /\ (forall v u, gpp q v = Some u -> gpp q' v = Some u) /\ tpath n O t D (gpp q') x path).
  Proof.
    intros Ht Hp. destruct (D_ex t Ht) as (D & HD). destruct HD as [HD1 HD2]. destruct (init_ok t Ht D HD1 HD2 p Hp) as (p' & E & HK & _).
    exists p', D. split; auto. split; auto. split. { intros q Hq. apply (k_base _ _ _ Hq). }
    intros x l Hx W L. pose proof (D_reach t D x l (conj HD1 HD2) Ht Hx W L) as HDx. split; [|split].
    - destruct (HD2 x Hx) as (C1 & C2 & C3). split. { apply HW2; auto. }
      intros l' W'. destruct (HW1 _ _ _ W' Hx Ht) as (l2 & W2 & L2). specialize (C3 _ W2). lia.
    - intros q Hq. destruct (value_ok t Ht D HD1 HD2 q x Hq Hx) as (q' & E1 & K1 & _ & U & F). exists q'. unfold pp_dist. rewrite E1. cbn [bind]. destruct (N.ltb_spec (D x) INF); [|lia]. cbn [bind].
      split; auto. split; auto. intros v u. apply (value_gpp t D q q' v u Hq U F).
    - intros q Hq. destruct (path_ok t Ht D HD1 HD2 dbg q x Hq Hx HDx) as (q' & E1 & K1 & F1 & X1). destruct (flagged_path t Ht D HD1 HD2 O HO q' K1 x F1) as (path & Hpath). exists q', path.
      split; auto. split; auto. split; auto. intros v u. apply (ext_gpp D x q q' v u X1).
  Qed.
End PP.
