(** CCHPotential computes exact distances, whatever was asked before. *)
From Verif Require Import Base Graph SpecGraph SpecCCH Dijkstra LoopProof CCHTheory CCHPathTheory CCH CCHContractProof CCHQuery CCHQueryProof CCHPathProof CCHViewProof CCHPot.

Lemma link_iter_of_ids {W} (g : fograph W) x ls : link_iter_ids g x = Some ls -> link_iter g x = Some (map fst ls).
Proof.
  unfold link_iter_ids, link_iter. destruct (range g x) as [[a b]|]; [|discriminate]. cbn [bind].
  destruct (BitVec.slice (head g) a b) as [h|] eqn:Eh; [|discriminate]. destruct (BitVec.slice (weight g) a b) as [w|] eqn:Ew; [|discriminate]. cbn [bind]. intros E. injection E as <-. f_equal.
  assert (L : length (combine h w) <= length (seq a (b - a))).
  { rewrite combine_length, seq_length. unfold BitVec.slice in Eh. destruct ((a <=? b) && (b <=? length (head g))) eqn:G; [|discriminate]. injection Eh as <-. rewrite firstn_length. lia. }
  revert L. generalize (seq a (b - a)). induction (combine h w) as [|p l IH]; intros [|q r] L; cbn in *; auto; try lia. f_equal. apply IH. lia.
Qed.

(** a value and the walks it stands for *)
Definition capped (P : N -> Prop) (v : N) : Prop := (v <= INF)%N /\ ((v < INF)%N -> P v) /\ forall l, P l -> (v <= l)%N.

Section Pot.
  Variable n : nat.
  Variable elim : list (option nat).
  Hypothesis EL : length elim = n.
  Hypothesis EP : forall x p, nth_error elim x = Some (Some p) -> x < p < n.
  Variables gf gb : fograph N.
  Let lf := k_links gf.
  Let lb := k_links gb.
  Hypothesis HF : up_graph n elim lf.
  Hypothesis HB : up_graph n elim lb.

  Lemma rpath_len x l : rpath elim x l -> length l <= n.
  Proof using EL EP.
    intros H. apply Nat.le_trans with (length (seq 0 n)); [|rewrite seq_length; lia]. apply NoDup_incl_length.
    - pose proof (rpath_asc n elim EL EP _ _ H) as HA. clear -HA. induction l as [|a l IH]; constructor. { intros Hi. apply ss_inv in HA. pose proof (proj2 HA a Hi). lia. } apply IH. apply ss_inv in HA. apply HA.
    - intros y Hy. apply in_seq. pose proof (rpath_lt n elim EL EP _ _ H y Hy). lia.
  Qed.
  Lemma uarc_lt links (HG : up_graph n elim links) x y w : uarc links x y w -> x < n -> x < y < n /\ (w <= INF)%N /\ forall l, rpath elim x l -> In y l.
  Proof using EL EP.
    intros (e & He) Hx. destruct (links_dom n elim links HG _ _ _ _ He Hx) as (L & W & H). split; [|auto]. split; [auto|].
    destruct (rpath_ex n elim EL EP x Hx) as (l & Hl). eapply rpath_lt; eauto.
  Qed.
  Lemma rpath_in x l y : rpath elim x l -> In y l -> exists r, rpath elim y r /\ incl r l.
  Proof using.
    intros H Hy. apply in_split in Hy. destruct Hy as (P & R & ->). destruct (rpath_mid elim x P y R H) as [K _]. exists (y :: R). split; [exact K|]. intros z Hz. apply in_or_app. right; auto.
  Qed.

  (** *** Distances to the target *)
  Definition bd_ok (t : nat) (bd : list N) : Prop := length bd = n /\ forall x v, nth_error bd x = Some v -> capped (walk (uarc lb) t x) v.

  Record bwalk (t : nat) (P R : list nat) (d : list N) : Prop := {
    bw_path : rpath elim t (P ++ R);
    bw_len : length d = n;
    bw_le : forall x v, nth_error d x = Some v -> (v <= INF)%N /\ ((v < INF)%N -> walk (uarc lb) t x v);
    bw_t : nth_error d t = Some 0%N;
    bw_rel : forall x y w v v', In x P -> uarc lb x y w -> nth_error d x = Some v -> nth_error d y = Some v' -> (v' <= v + w)%N }.

  Lemma bwalk_ok t d par s R : t < n -> rpath elim t R -> w_next s = hd_error R -> w_dist s = d -> w_par s = par -> length par = n -> bwalk t [] R d ->
    exists bd, loopN (N.of_nat (n + 1)) (walk_step lb elim) s = Some bd /\ bd_ok t bd.
  Proof using EL EP HB.
    intros Ht HR Hn Hd Hp Lp HI.
    apply (loopN_ghost (walk_step lb elim) (fun (PR : list nat * list nat) s => w_next s = hd_error (snd PR) /\ length (w_par s) = n /\ bwalk t (fst PR) (snd PR) (w_dist s))
      (bd_ok t) (fun PR => N.of_nat (length (snd PR))) _ ([], R)).
    3: { pose proof (rpath_len _ _ HR). cbn [snd]. lia. }
    2: { cbn [fst snd]. subst. auto. }
    clear s d par Hn Hd Hp Lp HI R HR. intros [P R] s. cbn [fst snd]. intros (Hn & Lp & HI). unfold walk_step. rewrite Hn.
    pose proof HI as [B1 B2 B3 B4 B5]. destruct R as [|p R]; cbn [hd_error].
    - eexists. split; [reflexivity|]. rewrite app_nil_r in B1. split; [auto|]. intros x v Hv. destruct (B3 x v Hv) as [V1 V2]. split; [auto|]. split; [auto|].
      assert (G : forall u x l, walk (uarc lb) u x l -> In u P -> forall vu vx, nth_error (w_dist s) u = Some vu -> nth_error (w_dist s) x = Some vx -> (vx <= vu + l)%N).
      { induction 1 as [u|u z y w l Ha Hw IH]; intros Hu vu vx Eu Ex. { rewrite Eu in Ex. injection Ex as <-. lia. }
        pose proof (rpath_lt n elim EL EP _ _ B1 u Hu) as Lu. destruct (uarc_lt lb HB _ _ _ Ha ltac:(lia)) as (Lz & _ & Hin).
        destruct (rpath_in _ _ _ B1 Hu) as (r & Hr & Hi). destruct (nth_error_lt (w_dist s) z) as (vz & Ez); [lia|].
        pose proof (B5 _ _ _ _ _ Hu Ha Eu Ez). pose proof (IH (Hi _ (Hin _ Hr)) _ _ Ez Ex). lia. }
      intros l Hl. pose proof (G _ _ _ Hl) as K. destruct (rpath_hd elim _ _ B1) as (P' & ->). specialize (K ltac:(left; auto) _ _ B4 Hv). lia.
    - unfold etw_next. rewrite Hn. cbn [hd_error].
      assert (HpIn : In p (P ++ p :: R)) by apply in_elt. pose proof (rpath_lt n elim EL EP _ _ B1 p HpIn) as Lpn.
      destruct (nth_error_lt (w_dist s) p) as (dp & Edp); [lia|]. rewrite Edp. cbn [bind].
      destruct (rpath_mid elim _ _ _ _ B1) as [Rp Enx]. rewrite Enx. cbn [bind].
      destruct (HB p ltac:(lia)) as (ls & Els & Hls). rewrite Els. cbn [bind].
      destruct (B3 p dp Edp) as [Dp1 Dp2].
      destruct (relax_all n p dp ls Dp1 (w_dist s) (w_par s) B2 Lp) as (d' & par' & Ef & Ld' & Lp' & K).
      { intros y w e Hin. destruct (Hls y w e Hin) as (H1 & H2 & H3). split; [|auto]. specialize (H3 _ Rp). pose proof (rpath_lt n elim EL EP _ _ Rp y H3). lia. }
      rewrite Ef. cbn [bind]. eexists. split; [reflexivity|]. exists (P ++ [p], R). cbn [fst snd w_next w_par w_dist]. split; [|cbn [length]; lia].
      split; [auto|]. split; [auto|].
      assert (Low : forall x, x <= p -> nth_error d' x = nth_error (w_dist s) x).
      { intros x Hx. destruct (nth_error_lt (w_dist s) x) as (v & Ev); [lia|]. destruct (K x v Ev) as (v' & E1 & _ & _ & [[-> _]|[_ (w & e & Hin & _)]]); [congruence|].
        destruct (Hls _ _ _ Hin). lia. }
      pose proof (rpath_asc n elim EL EP _ _ B1) as HA.
      constructor; auto.
      + rewrite <- app_assoc. exact B1.
      + intros x v' Ev'. destruct (nth_error_lt (w_dist s) x) as (v & Ev). { apply nth_error_Some_lt in Ev'. lia. }
        destruct (K x v Ev) as (v2 & E1 & L1 & _ & C). rewrite Ev' in E1. injection E1 as <-. destruct (B3 x v Ev) as [V1 V2].
        split; [lia|]. intros Hlt. destruct C as [[-> _]|[_ (w & e & Hin & -> & _)]]; [auto|].
        eapply walk_app; [apply Dp2; lia|]. apply walk_arc. exists e. exists ls. auto.
      + rewrite Low; auto. apply (rpath_lt n elim EL EP _ _ B1 p HpIn).
      + intros x y w v v' Hx Ha Ev Ev'. apply in_app_or in Hx. destruct Hx as [Hx|[<-|[]]].
        * assert (x < p). { destruct (asc_split P p R x HA) as [Q _]. auto. }
          rewrite Low in Ev by lia. destruct (nth_error_lt (w_dist s) y) as (vy & Ey). { apply nth_error_Some_lt in Ev'. lia. }
          destruct (K y vy Ey) as (v2 & E1 & L1 & _). rewrite Ev' in E1. injection E1 as <-. pose proof (B5 _ _ _ _ _ Hx Ha Ev Ey). lia.
        * rewrite Low in Ev by lia. rewrite Edp in Ev. injection Ev as <-. destruct Ha as (e & ls' & Els' & Hin). assert (ls' = ls) by congruence. subst ls'.
          destruct (nth_error_lt (w_dist s) y) as (vy & Ey). { apply nth_error_Some_lt in Ev'. lia. }
          destruct (K y vy Ey) as (v2 & E1 & _ & Hr & _). rewrite Ev' in E1. injection E1 as <-. eapply Hr; eauto.
  Qed.

  Definition pmeets (x t : nat) (l : N) : Prop := exists m a b, walk (uarc lf) x m a /\ walk (uarc lb) t m b /\ l = (a + b)%N.
  (** state after init with target [t] *)
  Record pot_ok (t : nat) (bd : list N) (pots : list (option N)) : Prop := {
    po_bd : bd_ok t bd;
    po_len : length pots = n;
    po_val : forall x v, nth_error pots x = Some (Some v) -> capped (pmeets x t) v;
    po_up : forall x v r y, nth_error pots x = Some (Some v) -> rpath elim x r -> In y r -> exists u, nth_error pots y = Some (Some u) }.

  Lemma pot_min_ok t bd pots x : pot_ok t bd pots -> x < n -> (forall y w, uarc lf x y w -> exists v, nth_error pots y = Some (Some v)) ->
    forall (ls : list (nat * N)) d0, (forall y w, In (y, w) ls -> uarc lf x y w) -> (d0 <= INF)%N ->
    exists d, foldM (pot_min pots) ls d0 = Some d /\ (d <= d0)%N /\ (forall y w v, In (y, w) ls -> nth_error pots y = Some (Some v) -> (d <= w + v)%N) /\
      (d = d0 \/ exists y w v, In (y, w) ls /\ nth_error pots y = Some (Some v) /\ d = (w + v)%N).
  Proof using EL EP HF.
    intros HP Hx Hy. induction ls as [|[y w] ls IH]; intros d0 Hls Hd0; cbn [foldM]. { exists d0. split; [auto|]. split; [lia|]. split; [intros ? ? ? []|auto]. }
    assert (Ha : uarc lf x y w) by (apply Hls; left; auto). destruct (Hy y w Ha) as (v & Ev).
    unfold pot_min at 1. cbn [fst snd]. rewrite Ev. cbn [bind].
    destruct (uarc_lt lf HF _ _ _ Ha Hx) as (_ & Hw & _). destruct (po_val _ _ _ HP _ _ Ev) as (Hv & _). unfold cadd. rewrite (proj2 (N.ltb_lt (w + v) U32)) by (unfold INF in *; unfold U32; cbn in *; lia).
    cbn [bind]. destruct (IH (N.min d0 (w + v))) as (d & E & L & H1 & H2). { intros; apply Hls; right; auto. } { lia. }
    exists d. split; [exact E|]. split; [lia|]. split.
    - intros y' w' v' [Eq|Hin] Ev'; [|eauto]. injection Eq as <- <-. rewrite Ev in Ev'. injection Ev' as <-. lia.
    - destruct H2 as [->|(y' & w' & v' & Hin & E' & ->)]; [|right; exists y', w', v'; split; [right; auto|auto]].
      destruct (N.min_spec d0 (w + v)) as [[_ ->]|[_ ->]]; [auto|]. right. exists y, w, v. split; [left; auto|auto].
  Qed.

  Lemma settle_pot_ok t bd pots x r : pot_ok t bd pots -> rpath elim x (x :: r) -> (forall y, In y r -> exists v, nth_error pots y = Some (Some v)) ->
    exists v, pot_settle gf bd pots x = Some (upd pots x (Some v)) /\ pot_ok t bd (upd pots x (Some v)).
  Proof using EL EP HF.
    intros HP Hr Hanc. pose proof (rpath_lt n elim EL EP _ _ Hr x ltac:(left; auto)) as Hx.
    destruct (po_bd _ _ _ HP) as [Lb Hb]. destruct (nth_error_lt bd x) as (d0 & Ed); [lia|]. destruct (Hb x d0 Ed) as (D1 & D2 & D3).
    destruct (HF x ltac:(lia)) as (ils & Eils & Hils). pose proof (link_iter_of_ids gf x ils Eils) as El.
    assert (Harc : forall y w, In (y, w) (map fst ils) <-> uarc lf x y w).
    { intros y w. split.
      - intros Hin. apply in_map_iff in Hin. destruct Hin as ([[y' w'] e] & Eq & Hin). cbn in Eq. injection Eq as -> ->. exists e, ils. auto.
      - intros (e & ls & E & Hin). rewrite E in Eils. injection Eils as <-. apply in_map_iff. exists (y, w, e). auto. }
    assert (Hup : forall y w, uarc lf x y w -> exists v, nth_error pots y = Some (Some v)).
    { intros y w Ha. destruct (uarc_lt lf HF _ _ _ Ha ltac:(lia)) as (L & _ & Hin). specialize (Hin _ Hr). destruct Hin as [<-|Hin]; [lia|auto]. }
    destruct (pot_min_ok t bd pots x HP ltac:(lia) Hup (map fst ils) d0) as (d & E & L & H1 & H2); [intros y w Hin; apply Harc; auto|auto|].
    assert (NE : (d =? U32MAX)%N = false) by (apply N.eqb_neq; unfold INF in *; unfold U32MAX; lia).
    exists d. unfold pot_settle. rewrite Ed, El. cbn [bind]. rewrite E. cbn [bind]. rewrite NE. cbn [negb guard bind].
    rewrite set_at_lt by (rewrite (po_len _ _ _ HP); lia). split; [reflexivity|].
    assert (Cd : capped (pmeets x t) d).
    { split; [lia|]. split.
      - intros Hlt. destruct H2 as [->|(y & w & v & Hin & Ev & ->)].
        + exists x, 0%N, d0. split; [constructor|]. split; [auto|lia].
        + apply Harc in Hin. destruct (po_val _ _ _ HP _ _ Ev) as (_ & V2 & _). destruct (V2 ltac:(lia)) as (m & a & b & Wa & Wb & ->).
          exists m, (w + a)%N, b. split; [econstructor; eauto|]. split; [auto|lia].
      - intros l (m & a & b & Wa & Wb & ->). inversion Wa; subst.
        + pose proof (D3 _ Wb). lia.
        + destruct (Hup _ _ H) as (vy & Ev). destruct (po_val _ _ _ HP _ _ Ev) as (_ & _ & V3).
          pose proof (V3 (l + b)%N ltac:(exists m, l, b; auto)). pose proof (H1 _ _ _ (proj2 (Harc _ _) H) Ev). lia. }
    assert (Lx : x < length pots) by (rewrite (po_len _ _ _ HP); lia).
    constructor.
    - apply HP.
    - rewrite upd_length. apply HP.
    - intros y v Ev. destruct (Nat.eq_dec x y) as [<-|Ne]; [rewrite nth_error_upd_eq in Ev by auto; injection Ev as <-; exact Cd|]. rewrite nth_error_upd_neq in Ev by auto. eapply po_val; eauto.
    - intros y v r' z Ev Hr' Hz. destruct (Nat.eq_dec x z) as [<-|Nz]; [exists d; apply nth_error_upd_eq; auto|]. rewrite nth_error_upd_neq by auto.
      destruct (Nat.eq_dec x y) as [<-|Ne].
      + rewrite (rpath_fun elim _ _ Hr' _ Hr) in Hz. destruct Hz as [->|Hz]; [congruence|auto].
      + rewrite nth_error_upd_neq in Ev by auto. eapply po_up; eauto.
  Qed.

  (** the nodes on the stack, from the top *)
  Lemma climb_ok t bd pots x : pot_ok t bd pots -> x < n ->
    exists stack, loopN (N.of_nat (length elim + 1)) (climb_step elim pots) ([], x) = Some stack /\
    exists D r, rpath elim x (D ++ r) /\ stack = rev D /\ (forall y, In y r -> exists v, nth_error pots y = Some (Some v)).
  Proof using EL EP.
    intros HP Hx. destruct (rpath_ex n elim EL EP x Hx) as (R0 & HR0).
    apply (loopN_ghost (climb_step elim pots) (fun (DR : list nat * list nat) s => let '(D, R) := DR in rpath elim x (D ++ R) /\ hd_error R = Some (snd s) /\ fst s = rev D)
      (fun stack => exists D r, rpath elim x (D ++ r) /\ stack = rev D /\ (forall y, In y r -> exists v, nth_error pots y = Some (Some v)))
      (fun DR => N.of_nat (length (snd DR))) _ ([], R0)).
    3: { pose proof (rpath_len _ _ HR0). cbn [snd]. lia. }
    2: { split; [exact HR0|]. split; [|reflexivity]. destruct (rpath_hd elim _ _ HR0) as (? & ->). reflexivity. }
    intros [D R] [stack cur] (H1 & H2 & H3). cbn [fst snd] in *. destruct R as [|c R]; [discriminate|]. injection H2 as ->.
    pose proof (rpath_lt n elim EL EP _ _ H1 cur ltac:(apply in_elt)) as Lc. unfold climb_step.
    destruct (nth_error_lt pots cur) as (v & Ev). { rewrite (po_len _ _ _ HP). lia. } rewrite Ev. cbn [bind].
    destruct (rpath_mid elim _ _ _ _ H1) as [Hc Ec]. destruct v as [v|].
    - eexists. split; [reflexivity|]. exists D, (cur :: R). split; [auto|]. split; [auto|]. intros y Hy. eapply po_up; eauto.
    - rewrite Ec. cbn [bind]. destruct R as [|q R]; cbn [hd_error].
      + eexists. split; [reflexivity|]. exists (D ++ [cur]), []. split; [rewrite app_nil_r; auto|]. split; [rewrite H3, rev_app_distr; reflexivity|intros y []].
      + eexists. split; [reflexivity|]. exists (D ++ [cur], q :: R). split; [|cbn [snd length]; lia]. split; [rewrite <- app_assoc; auto|]. cbn [fst snd hd_error].
        split; [auto|]. rewrite H3, rev_app_distr. reflexivity.
  Qed.

  Lemma settle_all t bd x : forall D r pots, rpath elim x (rev D ++ r) -> pot_ok t bd pots -> (forall y, In y r -> exists v, nth_error pots y = Some (Some v)) ->
    exists pots', foldM (pot_settle gf bd) D pots = Some pots' /\ pot_ok t bd pots' /\ forall y, In y (rev D ++ r) -> exists v, nth_error pots' y = Some (Some v).
  Proof using EL EP HF.
    induction D as [|c D IH]; intros r pots Hr HP Hanc; cbn [foldM rev app] in *. { exists pots. auto. }
    rewrite <- app_assoc in Hr. cbn [app] in Hr. destruct (rpath_mid elim _ _ _ _ Hr) as [Hc _].
    destruct (settle_pot_ok t bd pots c r HP Hc Hanc) as (v & E & HP'). rewrite E. cbn [bind].
    assert (Lc : c < length pots). { rewrite (po_len _ _ _ HP). apply (rpath_lt n elim EL EP _ _ Hc c). left; auto. }
    destruct (IH (c :: r) (upd pots c (Some v)) Hr HP') as (pots' & E' & HP2 & H2).
    - intros y [<-|Hy]; [exists v; apply nth_error_upd_eq; auto|]. destruct (Nat.eq_dec c y) as [<-|Ne]; [exists v; apply nth_error_upd_eq; auto|]. rewrite nth_error_upd_neq by auto. auto.
    - exists pots'. split; [exact E'|]. split; [auto|]. intros y Hy. apply H2. rewrite <- app_assoc in Hy. exact Hy.
  Qed.

  Lemma pot_rank_ok t p x : p_fw p = gf -> p_elim p = elim -> pot_ok t (p_bd p) (p_pots p) -> x < n ->
    exists p' r, pot_rank p x = Some (p', r) /\ p_fw p' = gf /\ p_bw p' = p_bw p /\ p_elim p' = elim /\ p_ranks p' = p_ranks p /\ pot_ok t (p_bd p') (p_pots p') /\
      match r with Some d => (d < INF)%N /\ pmeets x t d /\ forall l, pmeets x t l -> (d <= l)%N | None => forall l, pmeets x t l -> (INF <= l)%N end.
  Proof using EL EP HF.
    intros Ef Ee HP Hx. unfold pot_rank. rewrite Ef, Ee.
    destruct (climb_ok t _ _ x HP Hx) as (stack & E & D & r & Hr & -> & Hanc). rewrite E. cbn [bind].
    destruct (settle_all t (p_bd p) x (rev D) r (p_pots p)) as (pots' & E' & HP' & H'); [rewrite rev_involutive; auto|auto|auto|]. rewrite E'. cbn [bind]. rewrite rev_involutive in H'.
    destruct (H' x) as (v & Ev). { destruct (rpath_hd elim _ _ Hr) as (? & ->). left; auto. } rewrite Ev. cbn [bind].
    destruct (po_val _ _ _ HP' _ _ Ev) as (V1 & V2 & V3). eexists. eexists. split; [reflexivity|]. cbn [p_fw p_bw p_elim p_ranks p_bd p_pots].
    do 5 (split; [auto|]). destruct (N.ltb_spec v INF) as [L|L]; [auto|]. intros l Hl. specialize (V3 l Hl). lia.
  Qed.

  Lemma pot_init_rank_ok p t : p_bw p = gb -> p_elim p = elim -> length (p_bd p) = n -> length (p_pots p) = n -> t < n ->
    exists p', pot_init_rank p t = Some p' /\ p_fw p' = p_fw p /\ p_bw p' = gb /\ p_elim p' = elim /\ p_ranks p' = p_ranks p /\ pot_ok t (p_bd p') (p_pots p').
  Proof using EL EP HB.
    intros Ef Ee Lb Lp Ht. unfold pot_init_rank. rewrite Ef, Ee, Lb, Lp. destruct (rpath_ex n elim EL EP t Ht) as (R & HR).
    destruct (side_init n elim EL EP lb HB t Ht (repeat INF n) (repeat (0, 0) n)) with (R := R) as (f & E & Nf & HS); auto; try apply repeat_length.
    { intros x Hx. rewrite nth_error_repeat, (proj2 (Nat.ltb_lt _ _) Hx). reflexivity. }
    rewrite E. cbn [bind].
    assert (Df : forall x, x < n -> nth_error (w_dist f) x = Some (if x =? t then 0%N else INF)).
    { intros x Hx. apply (sd_un _ _ _ _ _ _ _ _ _ _ _ _ HS); auto. }
    destruct (bwalk_ok t (w_dist f) (w_par f) f R Ht HR Nf eq_refl eq_refl) as (bd & Eb & Hb).
    { apply HS. }
    { constructor.
      - exact HR.
      - apply HS.
      - intros x v Ev. rewrite Df in Ev. 2: { apply nth_error_Some_lt in Ev. rewrite (sd_dl _ _ _ _ _ _ _ _ _ _ _ _ HS) in Ev. auto. }
        injection Ev as <-. destruct (Nat.eqb_spec x t) as [->|]. { split; [unfold INF; lia|constructor]. } split; lia.
      - rewrite Df, Nat.eqb_refl by auto. auto.
      - intros ? ? ? ? ? []. }
    unfold lb in Eb. rewrite Eb. cbn [bind]. eexists. split; [reflexivity|]. cbn [p_fw p_bw p_elim p_ranks p_bd p_pots]. do 4 (split; [auto|]).
    assert (NN : forall x v, nth_error (repeat (@None N) n) x = Some (Some v) -> False). { intros x v H. rewrite nth_error_repeat in H. destruct (x <? n); discriminate. }
    constructor; auto.
    - apply repeat_length.
    - intros x v H. destruct (NN _ _ H).
    - intros x v r y H. destruct (NN _ _ H).
  Qed.
End Pot.

(** *** Against the input graph *)
Section PotView.
  Variable adj : list (list (nat * N)).
  Variables order ranks : list nat.
  Variable madj : list (list (nat * N)).
  Variable k : customized.
  Variable A : nat -> nat -> N -> Prop.
  Variable un : nat -> nat -> option nat -> Prop.
  Variable hop : nat -> nat -> nat -> Prop.
  Hypothesis HW : view adj order ranks madj k A un hop.
  Let n := length adj.

  (** every walk shorter than INF in the arcs is one in the input graph *)
  Lemma view_walk x y l : walk A x y l -> (l < INF)%N -> forall u v, nth_error order x = Some u -> nth_error order y = Some v -> walk (adj_arc madj) u v l.
  Proof using HW.
    intros H Hl. pose proof (v_dom _ _ _ _ _ _ _ _ HW) as HD. fold n in HD. destruct (v_order _ _ _ _ _ _ _ _ HW) as (O1 & _ & O2 & _). fold n in O1.
    assert (HO : forall x, x < n -> exists u, nth_error order x = Some u) by (intros z Hz; apply nth_error_lt; lia).
    set (M := fun x y w => forall u v, nth_error order x = Some u -> nth_error order y = Some v -> adj_arc madj u v w).
    assert (HM : forall p q w, A p q w -> un p q None -> (w < INF)%N -> M p q w). { intros p q w Ha Hu Hw u v Eu Ev. eapply (v_orig _ _ _ _ _ _ _ _ HW); eauto. }
    assert (GA : forall b x y w, Nat.min x y < b -> A x y w -> (w < INF)%N -> forall u v, nth_error order x = Some u -> nth_error order y = Some v -> walk (adj_arc madj) u v w).
    { clear H Hl x y l. induction b as [|b IH]; intros x y w Hb Ha Hw u v Eu Ev; [lia|].
      destruct (v_une _ _ _ _ _ _ _ _ HW _ _ _ Ha) as ([z|] & Hz).
      - destruct (un_mid (v_unp _ _ _ _ _ _ _ _ HW) _ _ _ _ Ha Hz) as (L1 & L2 & (w1 & w2 & A1 & A2 & ->) & _).
        destruct (HO z) as (t & Et). { apply (HD _ _ _ A1). }
        eapply walk_app; [eapply (IH x z w1); eauto; lia|eapply (IH z y w2); eauto; lia].
      - apply walk_arc. eapply HM; eauto. }
    induction H as [x|x z y w l Ha Hw IH]; intros u v Eu Ev. { rewrite Eu in Ev. injection Ev as <-. constructor. }
    destruct (HO z) as (t & Et). { apply (HD _ _ _ Ha). }
    eapply walk_app; [eapply (GA (S (Nat.min x z))); eauto; lia|]. apply IH; auto. lia.
  Qed.

  (** the state of a potential between calls, possibly initialized with target [t] *)
  Definition pst_ok (gf gb : fograph N) (p : cpot) (t : option nat) : Prop :=
    p_fw p = gf /\ p_bw p = gb /\ p_elim p = k_elim k /\ p_ranks p = ranks /\ length (p_bd p) = n /\ length (p_pots p) = n /\
    forall v, t = Some v -> exists y, nth_error ranks v = Some y /\ pot_ok n (k_elim k) gf gb y (p_bd p) (p_pots p).

  Section Dir.
    Variables gf gb : fograph N.
    Hypothesis UF : up_graph n (k_elim k) (k_links gf).
    Hypothesis UB : up_graph n (k_elim k) (k_links gb).
    Variable B : nat -> nat -> N -> Prop.
    Hypothesis HBt : tri_closed B.
    Hypothesis HB1 : forall x y w, uarc (k_links gf) x y w -> B x y w.
    Hypothesis HB2 : forall x y w, upa B x y w -> tight B x y w -> uarc (k_links gf) x y w.
    Hypothesis HB3 : forall x y w, uarc (k_links gb) x y w -> flip_arc B x y w.
    Hypothesis HB4 : forall x y w, upa (flip_arc B) x y w -> tight (flip_arc B) x y w -> uarc (k_links gb) x y w.
    Variable M : nat -> nat -> N -> Prop.
    Hypothesis HM1 : forall u v l x y, walk M u v l -> nth_error order x = Some u -> nth_error order y = Some v -> exists l', walk B x y l' /\ (l' <= l)%N.
    Hypothesis HM2 : forall x y l, walk B x y l -> (l < INF)%N -> forall u v, nth_error order x = Some u -> nth_error order y = Some v -> walk M u v l.

    Lemma pot_exact x t u v r : nth_error order x = Some u -> nth_error order t = Some v ->
      match r with Some d => (d < INF)%N /\ pmeets gf gb x t d /\ forall l, pmeets gf gb x t l -> (d <= l)%N | None => forall l, pmeets gf gb x t l -> (INF <= l)%N end ->
      exact_answer M u v r.
    Proof using HW HBt HB1 HB2 HB3 HB4 HM1 HM2.
      intros Eu Ev Hr.
      assert (G : forall c, (forall l, pmeets gf gb x t l -> (c <= l)%N) -> forall l, walk M u v l -> (c <= l)%N).
      { intros c Hc l Hl. destruct (HM1 _ _ _ _ _ Hl Eu Ev) as (l' & Hl' & L). assert (c <= l')%N; [|lia]. revert l' Hl' L. intros l' Hl' _. revert l' Hl'. apply tight_meets; [exact HBt|].
        intros m a b Wa Wb. apply Hc. exists m, a, b. split; [|split; [|reflexivity]].
        - revert Wa. apply walk_mono. intros p q w [H1 H2]. apply HB2; auto.
        - revert Wb. apply walk_mono. intros p q w [H1 H2]. apply HB4; auto. }
      destruct r as [d|]; cbn.
      - destruct Hr as (L & (m & a & b & Wa & Wb & ->) & Hm). split; [auto|]. split; [|apply G; auto].
        eapply HM2; eauto. eapply walk_app with (v := m). { revert Wa. apply walk_mono. exact HB1. }
        apply walk_flip_iff. revert Wb. apply walk_mono. exact HB3.
      - apply G; auto.
    Qed.

    Lemma pst_init p t0 t : pst_ok gf gb p t0 -> t < n -> exists p', pot_init p t = Some p' /\ pst_ok gf gb p' (Some t).
    Proof using HW UB.
      intros (E1 & E2 & E3 & E4 & L1 & L2 & _) Ht. destruct (vrank_of _ _ _ _ _ _ _ _ HW t Ht) as (y & Ey & Hy & _).
      unfold pot_init. rewrite E4, Ey. cbn [bind].
      destruct (pot_init_rank_ok n (k_elim k) (v_eliml _ _ _ _ _ _ _ _ HW) (v_elim _ _ _ _ _ _ _ _ HW) gf gb UB p y E2 E3 L1 L2 Hy) as (p' & E & F1 & F2 & F3 & F4 & HP).
      exists p'. split; [exact E|]. split; [congruence|]. split; [auto|]. split; [auto|]. split; [congruence|]. split; [apply (po_bd _ _ _ _ _ _ _ HP)|]. split; [apply HP|].
      intros v Ev. injection Ev as <-. exists y. auto.
    Qed.
    Lemma pst_value p t x : pst_ok gf gb p (Some t) -> t < n -> x < n -> exists p' r, pot_value p x = Some (p', r) /\ pst_ok gf gb p' (Some t) /\ exact_answer M x t r.
    Proof using HW UF HBt HB1 HB2 HB3 HB4 HM1 HM2.
      intros (E1 & E2 & E3 & E4 & L1 & L2 & HT) Ht Hx. destruct (HT t eq_refl) as (y & Ey & HP).
      destruct (vrank_of _ _ _ _ _ _ _ _ HW t Ht) as (y' & Ey' & Hy & Oy). rewrite Ey in Ey'. injection Ey' as <-.
      destruct (vrank_of _ _ _ _ _ _ _ _ HW x Hx) as (z & Ez & Hz & Oz).
      unfold pot_value. rewrite E4, Ez. cbn [bind].
      destruct (pot_rank_ok n (k_elim k) (v_eliml _ _ _ _ _ _ _ _ HW) (v_elim _ _ _ _ _ _ _ _ HW) gf gb UF y p z E1 E3 HP Hz) as (p' & r & E & F1 & F2 & F3 & F4 & HP' & Hr).
      exists p', r. split; [exact E|]. split; [|eapply pot_exact; eauto].
      split; [auto|]. split; [congruence|]. split; [auto|]. split; [congruence|]. split; [apply (po_bd _ _ _ _ _ _ _ HP')|]. split; [apply HP'|].
      intros v Ev. injection Ev as <-. exists y. auto.
    Qed.
    (** histories that start with init *)
    Fixpoint last_target (t : option nat) (ops : list pot_op) : option nat :=
      match ops with [] => t | PotInit t' :: ops => last_target (Some t') ops | PotValue _ :: ops => last_target t ops end.
    Definition pops_ok (ops : list pot_op) : Prop := forall op, In op ops -> match op with PotInit t => t < n | PotValue x => x < n end.
    Lemma pst_history : forall ops, pops_ok ops -> forall p t, pst_ok gf gb p (Some t) -> t < n ->
      exists p' t', pot_history p ops = Some p' /\ last_target (Some t) ops = Some t' /\ t' < n /\ pst_ok gf gb p' (Some t').
    Proof using HW UF UB HBt HB1 HB2 HB3 HB4 HM1 HM2.
      induction ops as [|op ops IH]; intros Hops p t HP Ht; [exists p, t; auto|].
      assert (Hops' : pops_ok ops) by (intros o Ho; apply Hops; right; auto). pose proof (Hops op (or_introl eq_refl)) as Hop.
      unfold pot_history. cbn [foldM last_target]. destruct op as [t1|x]; cbn [pot_do].
      - destruct (pst_init p _ t1 HP Hop) as (p1 & E & HP1). rewrite E. cbn [bind]. apply IH; auto.
      - destruct (pst_value p t x HP Ht Hop) as (p1 & r & E & HP1 & _). rewrite E. cbn [bind]. apply IH; auto.
    Qed.
  End Dir.

  Lemma forward_new : pst_ok (k_fw k) (k_bw k) (pot_forward k) None.
  Proof using HW.
    unfold pst_ok, pot_forward. cbn. rewrite (v_num _ _ _ _ _ _ _ _ HW), (v_rks _ _ _ _ _ _ _ _ HW), !repeat_length. fold n. do 6 (split; [reflexivity|]). intros v H; discriminate.
  Qed.
  Lemma backward_new : pst_ok (k_bw k) (k_fw k) (pot_backward k) None.
  Proof using HW.
    unfold pst_ok, pot_backward. cbn. rewrite (v_num _ _ _ _ _ _ _ _ HW), (v_rks _ _ _ _ _ _ _ _ HW), !repeat_length. fold n. do 6 (split; [reflexivity|]). intros v H; discriminate.
  Qed.

  Lemma forward_pot_exact t0 ops x : t0 < n -> pops_ok ops -> x < n ->
    exists p p' r t, pot_history (pot_forward k) (PotInit t0 :: ops) = Some p /\ pot_value p x = Some (p', r) /\ last_target None (PotInit t0 :: ops) = Some t /\ exact_answer (adj_arc madj) x t r.
  Proof using HW.
    intros Ht Hops Hx. pose proof (v_fw _ _ _ _ _ _ _ _ HW) as UF. pose proof (v_bw _ _ _ _ _ _ _ _ HW) as UB.
    destruct (pst_init _ _ UB _ _ t0 forward_new Ht) as (p0 & E0 & H0).
    assert (B1 : forall x y w, uarc (k_links (k_fw k)) x y w -> A x y w). { intros a b w (e & He). apply (v_fl _ _ _ _ _ _ _ _ HW) in He. apply He. }
    assert (B3 : forall x y w, uarc (k_links (k_bw k)) x y w -> flip_arc A x y w). { intros a b w (e & He). apply (v_bl _ _ _ _ _ _ _ _ HW) in He. apply He. }
    destruct (pst_history (k_fw k) (k_bw k) UF UB A (un_tri (v_unp _ _ _ _ _ _ _ _ HW)) B1 (v_fu _ _ _ _ _ _ _ _ HW) B3 (v_bu _ _ _ _ _ _ _ _ HW) (adj_arc madj) (v_walk _ _ _ _ _ _ _ _ HW) view_walk ops Hops p0 t0 H0 Ht) as (p & t & E & Et & Lt & HP).
    destruct (pst_value (k_fw k) (k_bw k) UF A (un_tri (v_unp _ _ _ _ _ _ _ _ HW)) B1 (v_fu _ _ _ _ _ _ _ _ HW) B3 (v_bu _ _ _ _ _ _ _ _ HW) (adj_arc madj) (v_walk _ _ _ _ _ _ _ _ HW) view_walk p t x HP Lt Hx) as (p' & r & E' & _ & X).
    exists p, p', r, t. split; [|auto]. unfold pot_history. cbn [foldM pot_do]. rewrite E0. cbn [bind]. exact E.
  Qed.
  Lemma backward_pot_exact t0 ops x : t0 < n -> pops_ok ops -> x < n ->
    exists p p' r t, pot_history (pot_backward k) (PotInit t0 :: ops) = Some p /\ pot_value p x = Some (p', r) /\ last_target None (PotInit t0 :: ops) = Some t /\ exact_answer (flip_arc (adj_arc madj)) x t r.
  Proof using HW.
    intros Ht Hops Hx. pose proof (v_fw _ _ _ _ _ _ _ _ HW) as UF. pose proof (v_bw _ _ _ _ _ _ _ _ HW) as UB.
    destruct (pst_init _ _ UF _ _ t0 backward_new Ht) as (p0 & E0 & H0).
    assert (B1 : forall x y w, uarc (k_links (k_fw k)) x y w -> flip_arc (flip_arc A) x y w). { intros a b w (e & He). apply (v_fl _ _ _ _ _ _ _ _ HW) in He. apply He. }
    assert (B3 : forall x y w, uarc (k_links (k_bw k)) x y w -> flip_arc A x y w). { intros a b w (e & He). apply (v_bl _ _ _ _ _ _ _ _ HW) in He. apply He. }
    assert (W1 : forall u v l x y, walk (flip_arc (adj_arc madj)) u v l -> nth_error order x = Some u -> nth_error order y = Some v -> exists l', walk (flip_arc A) x y l' /\ (l' <= l)%N).
    { intros u v l a b Hw Ea Eb. apply walk_flip_iff in Hw. destruct (v_walk _ _ _ _ _ _ _ _ HW _ _ _ _ _ Hw Eb Ea) as (l' & H' & L). exists l'. split; [|auto]. apply walk_flip_iff. exact H'. }
    assert (W2 : forall x y l, walk (flip_arc A) x y l -> (l < INF)%N -> forall u v, nth_error order x = Some u -> nth_error order y = Some v -> walk (flip_arc (adj_arc madj)) u v l).
    { intros a b l Hw Hl u v Eu Ev. apply walk_flip_iff in Hw. apply walk_flip_iff. eapply view_walk; eauto. }
    assert (HT : tri_closed (flip_arc A)) by (apply flip_closed, (un_tri (v_unp _ _ _ _ _ _ _ _ HW))).
    destruct (pst_history (k_bw k) (k_fw k) UB UF (flip_arc A) HT B3 (v_bu _ _ _ _ _ _ _ _ HW) B1 (v_fu _ _ _ _ _ _ _ _ HW) _ W1 W2 ops Hops p0 t0 H0 Ht) as (p & t & E & Et & Lt & HP).
    destruct (pst_value (k_bw k) (k_fw k) UB (flip_arc A) HT B3 (v_bu _ _ _ _ _ _ _ _ HW) B1 (v_fu _ _ _ _ _ _ _ _ HW) _ W1 W2 p t x HP Lt Hx) as (p' & r & E' & _ & X).
    exists p, p', r, t. split; [|auto]. unfold pot_history. cbn [foldM pot_do]. rewrite E0. cbn [bind]. exact E.
  Qed.
End PotView.
