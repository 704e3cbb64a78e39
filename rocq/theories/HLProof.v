(** Hub labels computed from a hierarchy. *)
From Coq Require Import Permutation Sorted.
From Verif Require Import Base SpecGraph SpecCCH SpecCH LoopProof CCHContractProof HL.

(** sort_unstable on pairs *)
Definition pair_sort (sort : label -> label) : Prop := forall l, Permutation (sort l) l /\
  StronglySorted (fun a b => fst a < fst b \/ (fst a = fst b /\ (snd a <= snd b)%N)) (sort l).

Definition asc (l : label) : Prop := ascending_list (map fst l).
Lemma asc_inv x l : asc (x :: l) -> asc l /\ forall y, In y l -> fst x < fst y.
Proof. intros H. inversion H as [|? ? H1 H2]; subst. split; auto. intros y Hy. rewrite Forall_forall in H2. apply H2. apply in_map; auto. Qed.
Lemma asc_cons x l : asc l -> (forall y, In y l -> fst x < fst y) -> asc (x :: l).
Proof. intros H1 H2. constructor; auto. apply Forall_forall. intros z Hz. apply in_map_iff in Hz as (y & <- & Hy). auto. Qed.
Lemma asc_fun l h a b : asc l -> In (h, a) l -> In (h, b) l -> a = b.
Proof.
  induction l as [|x l IH]; intros H; [intros []|]. apply asc_inv in H as [H1 H2]. intros [->|Ha] [E|Hb].
  - congruence. - apply H2 in Hb. cbn in Hb. lia. - subst. apply H2 in Ha. cbn in Ha. lia. - auto.
Qed.

(** ** best_hub *)
Definition common (a b : label) (h : nat) (d : N) : Prop := exists x y, In (h, x) a /\ In (h, y) b /\ d = (x + y)%N.
Definition best_of (a b : label) (res r : option (nat * N)) : Prop :=
  match r with
  | None => res = None /\ forall h d, ~ common a b h d
  | Some (h, d) => (res = Some (h, d) \/ common a b h d) /\ forall h' d', common a b h' d' \/ res = Some (h', d') -> (d < d')%N \/ (d = d' /\ h <= h')
  end.
Lemma best_of_ext a b a' b' res r : (forall h d, common a b h d <-> common a' b' h d) -> best_of a b res r -> best_of a' b' res r.
Proof.
  intros E. destruct r as [[h d]|]; cbn.
  - intros [H1 H2]. split. { rewrite <- E. auto. } intros h' d'. rewrite <- E. auto.
  - intros [H1 H2]. split; auto. intros h d. rewrite <- E. auto.
Qed.
Lemma best_hub_ok : forall a b res, asc a -> asc b ->
  (forall h d, common a b h d -> (d < U32)%N) -> (forall h d y, res = Some (h, d) -> In y a \/ In y b -> h < fst y) ->
  exists r, best_hub_from a b res = Some r /\ best_of a b res r.
Proof.
  induction a as [|[fh fd] a IHa].
  { intros b res _ _ _ _. exists res. split. { destruct b; reflexivity. }
    destruct res as [[h d]|]; cbn. - split; auto. intros h' d' [(x & y & [] & _)|[= <- <-]]; auto. - split; auto. intros h d (x & y & [] & _). }
  induction b as [|[bh bd] b IHb]; intros res Ha Hb HU HR.
  { exists res. split; [reflexivity|]. destruct res as [[h d]|]; cbn. - split; auto. intros h' d' [(x & y & _ & [] & _)|[= <- <-]]; auto. - split; auto. intros h d (x & y & _ & [] & _). }
  pose proof (asc_inv _ _ Ha) as [Ha1 Ha2]. pose proof (asc_inv _ _ Hb) as [Hb1 Hb2]. cbn [fst] in Ha2, Hb2.
  change (best_hub_from ((fh, fd) :: a) ((bh, bd) :: b) res) with
    (if fh <? bh then best_hub_from a ((bh, bd) :: b) res else if bh <? fh then best_hub_from ((fh, fd) :: a) b res else
      s <- cadd fd bd ;; best_hub_from a b (match res with Some (_, best) => if (s <? best)%N then Some (fh, s) else res | None => Some (fh, s) end)).
  destruct (Nat.ltb_spec fh bh) as [L|L].
  { assert (E : forall h d, common a ((bh, bd) :: b) h d <-> common ((fh, fd) :: a) ((bh, bd) :: b) h d).
    { intros h d. split; intros (x & y & H1 & H2 & ->); exists x, y; (split; [|split; auto]). - right; auto.
      - destruct H1 as [[= <- <-]|H1]; auto. destruct H2 as [[= <- <-]|H2]; [lia|]. apply Hb2 in H2. cbn in H2. lia. }
    destruct (IHa ((bh, bd) :: b) res) as (r & Er & Br); auto. { intros h d H. eapply HU. apply E; eauto. } { intros h d y Hr [H|H]; apply (HR h d y Hr); [left; right; auto|right; auto]. }
    exists r. split; auto. eapply best_of_ext; eauto. }
  destruct (Nat.ltb_spec bh fh) as [L'|L'].
  { assert (E : forall h d, common ((fh, fd) :: a) b h d <-> common ((fh, fd) :: a) ((bh, bd) :: b) h d).
    { intros h d. split; intros (x & y & H1 & H2 & ->); exists x, y; (split; [exact H1|split; [|reflexivity]]). - right; auto.
      - destruct H2 as [[= <- <-]|H2]; auto. destruct H1 as [[= <- <-]|H1]; [lia|]. apply Ha2 in H1. cbn in H1. lia. }
    destruct (IHb res) as (r & Er & Br); auto. { intros h d H. eapply HU. apply E; eauto. } { intros h d y Hr [H|H]; apply (HR h d y Hr); [left; auto|right; right; auto]. }
    exists r. split; auto. eapply best_of_ext; eauto. }
  assert (bh = fh) by lia. subst bh. assert (C0 : common ((fh, fd) :: a) ((fh, bd) :: b) fh (fd + bd)%N) by (exists fd, bd; split; [left; auto|split; [left; auto|auto]]).
  rewrite cadd_ok by (eapply HU; eauto). cbn [bind].
  assert (E : forall h d, common ((fh, fd) :: a) ((fh, bd) :: b) h d <-> common a b h d \/ (h = fh /\ d = (fd + bd)%N)).
  { intros h d. split.
    - intros (x & y & H1 & H2 & ->). destruct H1 as [E1|H1], H2 as [E2|H2].
      + right. split; congruence. + injection E1 as <- <-. apply Hb2 in H2. cbn in H2. lia. + injection E2 as <- <-. apply Ha2 in H1. cbn in H1. lia. + left. exists x, y. auto.
    - intros [(x & y & H1 & H2 & ->)|[-> ->]]; auto. exists x, y. split; [right; auto|split; [right; auto|auto]]. }
  set (res' := match res with Some (_, best) => if (fd + bd <? best)%N then Some (fh, (fd + bd)%N) else res | None => Some (fh, (fd + bd)%N) end).
  assert (R' : exists h d, res' = Some (h, d) /\ h <= fh /\ (res = Some (h, d) \/ (h = fh /\ d = (fd + bd)%N)) /\ (forall h' d', res = Some (h', d') \/ (h' = fh /\ d' = (fd + bd)%N) -> (d < d')%N \/ (d = d' /\ h <= h'))).
  { unfold res'. destruct res as [[h d]|].
    - assert (h < fh). { apply (HR h d (fh, fd) eq_refl). left; left; auto. } destruct (N.ltb_spec (fd + bd) d) as [K|K].
      + exists fh, (fd + bd)%N. split; auto. split; auto. split; auto. intros h' d' [[= <- <-]|[-> ->]]; auto.
      + exists h, d. split; auto. split; [lia|]. split; auto. intros h' d' [[= <- <-]|[-> ->]]; auto. lia.
    - exists fh, (fd + bd)%N. split; auto. split; auto. split; auto. intros h' d' [[=]|[-> ->]]; auto. }
  destruct R' as (h0 & d0 & E0 & L0 & S0 & B0).
  destruct (IHa b res') as (r & Er & Br); auto. { intros h d H. eapply HU. apply E; eauto. }
  { intros h d y Hr Hy. rewrite E0 in Hr. injection Hr as <- <-. destruct Hy as [Hy|Hy]; [apply Ha2 in Hy|apply Hb2 in Hy]; lia. }
  exists r. split; auto. destruct r as [[h d]|]; cbn in Br |- *.
  - destruct Br as [S1 B1]. assert (K : (d < d0)%N \/ (d = d0 /\ h <= h0)) by (apply B1; right; auto). split.
    + rewrite E. destruct S1 as [S1|S1]; auto. rewrite E0 in S1. injection S1 as <- <-. destruct S0 as [S0|S0]; auto.
    + intros h' d'. rewrite E. intros [[H|H]|H]; [apply B1; auto|..]; destruct (B0 h' d') as [Q|Q]; auto; lia.
  - destruct Br as [Br _]. congruence.
Qed.

(** ** Normalization *)
Definition grp (h : nat) (ws : list N) : label := map (pair h) ws.
Lemma groups_ok s : StronglySorted (fun a b : nat * N => fst a <= fst b) s ->
  exists gs, hl_groups s = map (fun g => grp (fst g) (fst (snd g) :: snd (snd g))) gs /\ concat (hl_groups s) = s /\ ascending_list (map fst gs).
Proof.
  induction s as [|[h w] s IH]; intros H. { exists []. cbn. split; auto. split; auto. constructor. }
  inversion H as [|? ? H1 H2]; subst. destruct (IH H1) as (gs & E & C & A). cbn [hl_groups]. rewrite E in C |- *.
  destruct gs as [|[h1 [w1 ws1]] gs]; cbn [map grp fst snd].
  { exists [(h, (w, []))]. cbn in C |- *. subst s. split; auto. split; auto. repeat constructor. }
  cbn [map concat grp fst snd app] in C. destruct (Nat.eqb_spec h h1) as [->|Ne].
  - exists ((h1, (w, w1 :: ws1)) :: gs). cbn. split; auto. split; [|exact A]. f_equal. exact C.
  - exists ((h, (w, [])) :: (h1, (w1, ws1)) :: gs). cbn. split; auto. split. { f_equal. exact C. }
    assert (L : h < h1). { rewrite Forall_forall in H2. specialize (H2 (h1, w1)). rewrite <- C in H2. specialize (H2 (or_introl eq_refl)). cbn in H2. lia. }
    cbn in A. inversion A as [|? ? A1 A2]; subst. constructor; auto. constructor; auto. rewrite Forall_forall in A2 |- *. intros z Hz. specialize (A2 z Hz). lia.
Qed.
Lemma fold_min ws : forall w, let m := fold_left N.min ws w in In m (w :: ws) /\ forall x, In x (w :: ws) -> (m <= x)%N.
Proof.
  induction ws as [|a ws IH]; intros w; cbn [fold_left]. { cbn. split; auto. intros x [->|[]]; lia. }
  destruct (IH (N.min w a)) as [H1 H2]. cbn zeta in *. split.
  - destruct H1 as [H1|H1]; [|right; right; auto]. rewrite <- H1. destruct (N.min_spec w a) as [[_ ->]|[_ ->]]; cbn; auto.
  - intros x [<-|[<-|Hx]]; [| |apply H2; right; auto]; specialize (H2 (N.min w a) (or_introl eq_refl)); lia.
Qed.
Lemma dedup_hd x l : exists r, hl_dedup (x :: l) = x :: r.
Proof.
  cbn. destruct (hl_dedup l) as [|y r]; eauto. destruct (Nat.eqb_spec (fst x) (fst y)) as [E1|]; cbn; eauto. destruct (N.eqb_spec (snd x) (snd y)) as [E2|]; eauto.
  exists r. f_equal. destruct x, y; cbn in *; congruence.
Qed.
Lemma dedup_run x rest : (forall y, hd_error rest = Some y -> fst y <> fst x) -> forall k, hl_dedup (repeat x (S k) ++ rest) = x :: hl_dedup rest.
Proof.
  intros H. assert (B : hl_dedup (x :: rest) = x :: hl_dedup rest).
  { destruct rest as [|y rest]; auto. destruct (dedup_hd y rest) as (r & E). specialize (H y eq_refl). change (hl_dedup (x :: y :: rest)) with (match hl_dedup (y :: rest) with y :: r => if ((fst x =? fst y) && (snd x =? snd y)%N)%bool then y :: r else x :: y :: r | [] => [x] end).
    rewrite E. destruct (Nat.eqb_spec (fst x) (fst y)) as [K|]; cbn; auto. exfalso; auto. }
  induction k as [|k IH]; [exact B|]. change (hl_dedup (repeat x (S (S k)) ++ rest)) with (match hl_dedup (repeat x (S k) ++ rest) with y :: r => if ((fst x =? fst y) && (snd x =? snd y)%N)%bool then y :: r else x :: y :: r | [] => [x] end).
  rewrite IH. rewrite Nat.eqb_refl, N.eqb_refl. reflexivity.
Qed.
Lemma norm_groups gs : ascending_list (map (@fst nat (N * list N)) gs) ->
  hl_dedup (concat (map hl_level (map (fun g => grp (fst g) (fst (snd g) :: snd (snd g))) gs))) = map (fun g => (fst g, fold_left N.min (snd (snd g)) (fst (snd g)))) gs.
Proof.
  induction gs as [|[h [w ws]] gs IH]; intros A; auto. cbn in A. inversion A as [|? ? A1 A2]; subst. cbn [map concat fst snd].
  assert (L : hl_level (grp h (w :: ws)) = repeat (h, fold_left N.min ws w) (S (length ws))).
  { unfold hl_level, grp. cbn [map snd]. assert (E : map snd (map (pair h) ws) = ws) by (rewrite map_map; apply List.map_id). rewrite E. cbn [repeat]. f_equal.
    generalize (fold_left N.min ws w) as m. clear. induction ws; intros m; cbn; f_equal; auto. }
  rewrite L, dedup_run, (IH A1). { reflexivity. }
  intros y Hy. destruct gs as [|[h' [w' ws']] gs]; [discriminate|]. cbn in Hy. injection Hy as <-. cbn. rewrite Forall_forall in A2. specialize (A2 h' (or_introl eq_refl)). lia.
Qed.

Lemma norm_ok sort l : pair_sort sort -> asc (hl_norm sort l) /\ (forall h a, In (h, a) (hl_norm sort l) -> In (h, a) l) /\
  (forall h a, In (h, a) l -> exists a', In (h, a') (hl_norm sort l) /\ (a' <= a)%N).
Proof.
  intros HS. destruct (HS l) as [P S]. unfold hl_norm.
  assert (S' : StronglySorted (fun a b : nat * N => fst a <= fst b) (sort l)).
  { clear P. induction S as [|x s S IH F]; constructor; auto. rewrite Forall_forall in F |- *. intros y Hy. specialize (F y Hy). lia. }
  destruct (groups_ok _ S') as (gs & E & C & A). rewrite E in C |- *. rewrite (norm_groups gs A). split; [|split].
  - unfold asc. rewrite map_map. exact A.
  - intros h a H. apply in_map_iff in H as ([h' [w ws]] & [= <- <-] & H). apply (Permutation_in _ P). rewrite <- C. apply in_concat. eexists. split. { apply in_map. exact H. }
    cbn [fst snd]. apply in_map. apply (fold_min ws w).
  - intros h a H. apply (Permutation_in _ (Permutation_sym P)) in H. rewrite <- C in H. apply in_concat in H as (g & Hg & H). apply in_map_iff in Hg as ([h' [w ws]] & <- & Hg).
    cbn [fst snd] in H. apply in_map_iff in H as (a0 & [= -> ->] & H). exists (fold_left N.min ws w). split; [|apply (fold_min ws w); auto].
    apply in_map_iff. exists (h, (w, ws)). auto.
Qed.

(** ** Labels *)
Lemma up_walk n G x h a : upward n G -> walk (garc G) x h a -> x < n -> x <= h < n.
Proof.
  intros UP W. induction W as [x|x v h w l (ls & E & Hin) W IH]; intros Hx; [lia|]. destruct (UP x Hx) as (ls' & E' & K). rewrite E in E'. injection E' as <-. destruct (K v w Hin) as (K1 & K2 & _). specialize (IH K2). lia.
Qed.
Lemma hier_swap n arc order ranks lf lb : hierarchy n arc order ranks lf lb -> hierarchy n (flip_arc arc) order ranks lb lf.
Proof.
  intros [H1 H2 H3 H4 H5]. constructor; auto.
  - intros x y u v l Ex Ey (m & a & b & Wa & Wb & ->) Hl. apply walk_flip. apply (H4 y x); auto. exists m, b, a. split; auto. split; auto. lia.
  - intros x y u v l Ex Ey W Hl. apply walk_flip_iff in W. destruct (H5 y x v u l Ey Ex W Hl) as (l' & (m & a & b & Wa & Wb & ->) & L).
    exists (b + a)%N. split; [|lia]. exists m, b, a. auto.
Qed.
Lemma meets_sym F B x y l : meets F B x y l -> meets B F y x l.
Proof. intros (m & a & b & Wa & Wb & ->). exists m, b, a. split; auto. split; auto. lia. Qed.
Lemma common_sym a b h d : common a b h d <-> common b a h d.
Proof. split; intros (x & y & H1 & H2 & ->); exists y, x; (split; [auto|split; auto]); lia. Qed.

Definition lab_ok (G : nat -> option (list (nat * N))) (x : nat) (l : label) : Prop :=
  asc l /\ In (x, 0%N) l /\ forall h a, In (h, a) l -> walk (garc G) x h a.
Definition lab_all (F B : nat -> option (list (nat * N))) (x : nat) (l : label) : Prop :=
  forall h a, walk (garc F) x h a -> (a < INF)%N -> (exists a', In (h, a') l /\ (a' <= a)%N) \/ (exists m, meets (garc F) (garc B) x h m /\ (m < a)%N).

Lemma prune_ok best : forall l, (forall h a, In (h, a) l -> exists r, best h = Some r) ->
  exists l', hl_prune best l = Some l' /\ forall h a, In (h, a) l' <-> In (h, a) l /\ exists r, best h = Some r /\ match r with Some (via, _) => via = h | None => True end.
Proof.
  induction l as [|[h a] l IH]; intros H. { exists []. split; auto. intros; cbn; tauto. }
  destruct IH as (l' & E & K). { intros; eapply H; right; eauto. } destruct (H h a (or_introl eq_refl)) as (r & Er). cbn [hl_prune]. rewrite Er, E. cbn [bind].
  eexists. split; [reflexivity|]. intros h' a'.
  assert (D : (match r with Some (via, _) => via =? h | None => true end) = true <-> match r with Some (via, _) => via = h | None => True end).
  { destruct r as [[via d]|]; [apply Nat.eqb_eq|tauto]. }
  destruct (match r with Some (via, _) => via =? h | None => true end).
  - cbn [In]. rewrite K. split.
    + intros [[= <- <-]|[H1 H2]]; auto. split; auto. exists r. split; auto. apply D; auto.
    + intros [[[= <- <-]|H1] H2]; auto.
  - rewrite K. split. { intros [H1 H2]. split; [right; auto|auto]. } intros [[[= <- <-]|H1] (r' & E' & H2)]; [|eauto]. rewrite Er in E'. injection E' as <-. apply D in H2. discriminate.
Qed.
Lemma prune_asc best : forall l l', hl_prune best l = Some l' -> asc l -> asc l'.
Proof.
  induction l as [|[h a] l IH]; intros l' E H. { cbn in E. injection E as <-. constructor. }
  cbn [hl_prune] in E. destruct (best h) as [r|] eqn:Eb; [|discriminate]. cbn [bind] in E. destruct (hl_prune best l) as [l1|] eqn:E1; [|discriminate]. cbn [bind] in E. apply asc_inv in H as [H1 H2].
  assert (Q : forall y, In y l1 -> In y l).
  { clear -E1. revert l1 E1. induction l as [|[h a] l IH]; intros l1 E1 y. { cbn in E1. injection E1 as <-. auto. }
    cbn [hl_prune] in E1. destruct (best h) as [r|]; [|discriminate]. cbn [bind] in E1. destruct (hl_prune best l) as [l2|]; [|discriminate]. cbn [bind] in E1. injection E1 as <-.
    destruct (match r with Some (via, _) => via =? h | None => true end). { intros [<-|Hy]; [left; auto|right; eapply IH; eauto]. } intros Hy; right; eapply IH; eauto. }
  injection E as <-. destruct (match r with Some (via, _) => via =? h | None => true end); [|eauto]. apply asc_cons; eauto.
Qed.

Section Side.
  Variable n : nat.
  Variable arc : nat -> nat -> N -> Prop.
  Variables order ranks : list nat.
  Variables F B : nat -> option (list (nat * N)).
  Hypothesis HH : hierarchy n arc order ranks F B.
  Hypothesis SMALL : forall x y l, x < n -> y < n -> meets (garc F) (garc B) x y l -> (l < U32)%N.
  Variable sort : label -> label.
  Hypothesis HS : pair_sort sort.

  Lemma node_of x : x < n -> exists u, nth_error order x = Some u.
  Proof using HH SMALL. intros Hx. destruct (hi_order _ _ _ _ _ _ HH) as (L & _). apply nth_error_lt. lia. Qed.
  Lemma uw x h a : walk (garc F) x h a -> x < n -> x <= h < n.
  Proof using HH SMALL. apply up_walk. apply (hi_fw _ _ _ _ _ _ HH). Qed.
  Lemma uwb x h a : walk (garc B) x h a -> x < n -> x <= h < n.
  Proof using HH SMALL. apply up_walk. apply (hi_bw _ _ _ _ _ _ HH). Qed.
  Lemma meets_up x h a : walk (garc F) x h a -> meets (garc F) (garc B) x h a.
  Proof using SMALL. intros W. exists h, a, 0%N. split; auto. split; [constructor|lia]. Qed.
  Lemma meets_dn x h a : walk (garc B) x h a -> meets (garc F) (garc B) h x a.
  Proof using SMALL. intros W. exists h, 0%N, a. split; [constructor|auto]. Qed.
  (** lengths of up-down walks satisfy the triangle inequality *)
  Lemma meets_trans x y z a b : x < n -> y < n -> z < n -> meets (garc F) (garc B) x y a -> meets (garc F) (garc B) y z b -> (a + b < INF)%N ->
    exists l, meets (garc F) (garc B) x z l /\ (l <= a + b)%N.
  Proof using HH SMALL.
    intros Hx Hy Hz Ma Mb L. destruct (node_of x Hx) as (u & Eu). destruct (node_of y Hy) as (v & Ev). destruct (node_of z Hz) as (t & Et).
    apply (hi_complete _ _ _ _ _ _ HH x z u t); auto. apply walk_app with (v := v); [apply (hi_sound _ _ _ _ _ _ HH x y)|apply (hi_sound _ _ _ _ _ _ HH y z)]; auto; lia.
  Qed.

  Variable node : nat.
  Hypothesis Hn : node < n.
  Variable outs : list label.
  Hypothesis HL : length outs = n.
  Hypothesis H1 : forall x, node < x < n -> exists l, nth_error outs x = Some l /\ lab_ok F x l /\ lab_all F B x l.

  Lemma extend_ok ls : F node = Some ls -> exists cur, foldM (hl_extend outs node) ls [(node, 0%N)] = Some cur /\
    forall h a, In (h, a) cur <-> (h = node /\ a = 0%N) \/ exists v w l a', In (v, w) ls /\ nth_error outs v = Some l /\ In (h, a') l /\ a = (a' + w)%N.
  Proof using HH SMALL Hn HL H1.
    intros EL. destruct (hi_fw _ _ _ _ _ _ HH node Hn) as (ls' & EL' & HU). rewrite EL in EL'. injection EL' as <-.
    apply (foldM_inv (hl_extend outs node) (fun pre cur => forall h a, In (h, a) cur <-> (h = node /\ a = 0%N) \/ exists v w l a', In (v, w) pre /\ nth_error outs v = Some l /\ In (h, a') l /\ a = (a' + w)%N)).
    { intros h a. cbn. split; [intros [[= <- <-]|[]]; auto|]. intros [[-> ->]|(v & w & l & a' & [] & _)]; auto. }
    intros pre [v w] post cur EQ I. assert (Hin : In (v, w) ls) by (rewrite EQ; apply in_or_app; right; left; auto). destruct (HU v w Hin) as (L1 & L2 & L3).
    unfold hl_extend. cbn [fst snd]. rewrite (proj2 (Nat.leb_le _ _)) by lia. cbn [guard bind]. destruct (H1 v) as (l & El & (A1 & A2 & A3) & _); [lia|].
    assert (E0 : nth_error (skipn (node + 1) outs) (v - node - 1) = Some l). { rewrite <- El. rewrite <- (firstn_skipn (node + 1) outs) at 2. rewrite nth_error_app2; rewrite firstn_length; [f_equal; lia|lia]. }
    rewrite E0. cbn [bind].
    destruct (mapM_ok (fun '((hub, w0) : nat * N) => w' <- cadd w0 w ;; Some (hub, w')) l) as (ext & Ee & Fe).
    { intros [h a] Ha. rewrite cadd_ok. { cbn. eauto. } apply A3 in Ha. assert (W : walk (garc F) node h (w + a)%N). { econstructor; [|exact Ha]. exists ls. auto. }
      rewrite N.add_comm. eapply SMALL; [exact Hn| |apply meets_up; exact W]. apply uw in W; auto. lia. }
    rewrite Ee. cbn [bind]. eexists. split; [reflexivity|]. intros h a. rewrite in_app_iff, I.
    assert (X : In (h, a) ext <-> exists a', In (h, a') l /\ a = (a' + w)%N).
    { clear -Fe. induction Fe as [|[h1 a1] q l ext K0 Fe IH]. { split; [intros []|intros (a' & [] & _)]. } apply bind_Some in K0 as (w1 & K1 & K2). injection K2 as <-. apply cadd_some in K1 as [-> _]. cbn [In fst snd]. rewrite IH. split.
      - intros [[= <- <-]|(a' & K & ->)]; eauto. - intros (a' & [[= <- <-]|K] & ->); auto. right; eauto. }
    rewrite X. split.
    - intros [[H|(v' & w' & l' & a' & K1 & K)]|(a' & K1 & ->)]; auto.
      + right. exists v', w', l', a'. split; auto. apply in_or_app; auto.
      + right. exists v, w, l, a'. split; [apply in_or_app; right; left; auto|auto].
    - intros [H|(v' & w' & l' & a' & K1 & K2 & K3 & ->)]; auto. apply in_app_or in K1 as [K1|[[= <- <-]|[]]].
      + left. right. exists v', w', l', a'. auto. + rewrite El in K2. injection K2 as <-. right; eauto.
  Qed.

  Lemma raw_ok ls cur : F node = Some ls -> foldM (hl_extend outs node) ls [(node, 0%N)] = Some cur -> lab_ok F node (hl_norm sort cur) /\ lab_all F B node (hl_norm sort cur).
  Proof using HH SMALL Hn HL H1 HS.
    intros EL E. destruct (extend_ok ls EL) as (cur' & E' & K). rewrite E in E'. injection E' as <-. destruct (norm_ok sort cur HS) as (N1 & N2 & N3).
    destruct (hi_fw _ _ _ _ _ _ HH node Hn) as (ls' & EL' & HU). rewrite EL in EL'. injection EL' as <-.
    assert (SO : forall h a, In (h, a) cur -> walk (garc F) node h a).
    { intros h a H. apply K in H as [[-> ->]|(v & w & l & a' & I1 & I2 & I3 & ->)]; [constructor|]. destruct (HU v w I1) as (L1 & L2 & _). destruct (H1 v) as (l0 & El & (_ & _ & A3) & _); [lia|].
      rewrite El in I2. injection I2 as <-. rewrite N.add_comm. econstructor; [exists ls; eauto|]. auto. }
    split.
    - split; auto. split; [|auto]. destruct (N3 node 0%N) as (a' & I & L). { apply K. auto. } replace 0%N with a' by lia. auto.
    - intros h a W La. clear HL. inversion W as [|? v ? w l (ls' & E' & Hin) W']; subst.
      + left. apply N3. apply K. auto.
      + rewrite EL in E'. injection E' as <-. destruct (HU v w Hin) as (L1 & L2 & _). destruct (H1 v) as (l0 & El & _ & A); [lia|].
        destruct (A h l W') as [(a' & I & L)|(m & M & L)]. { lia. }
        * left. destruct (N3 h (a' + w)%N) as (a2 & I2 & K2). { apply K. right. exists v, w, l0, a'. auto. } exists a2. split; auto. lia.
        * right. pose proof (uw _ _ _ W Hn) as Hh. destruct (meets_trans node v h w m) as (m' & M' & L'); auto; try lia.
          { apply meets_up. rewrite <- (N.add_0_r w). econstructor; [exists ls; eauto|constructor]. } exists m'. split; auto. lia.
  Qed.

  (** pruning with any sound labels of the hubs *)
  Lemma pruned_ok best out : lab_ok F node out -> lab_all F B node out ->
    (forall h a, In (h, a) out -> exists l r, best h = Some r /\ lab_ok B h l /\ best_of out l None r) ->
    exists out', hl_prune best out = Some out' /\ lab_ok F node out' /\ lab_all F B node out'.
  Proof using HH SMALL Hn HL H1.
    intros (A1 & A2 & A3) HA HB. destruct (prune_ok best out) as (out' & E & K). { intros h a H. destruct (HB h a H) as (l & r & Er & _). eauto. }
    exists out'. split; auto.
    (** a label is only dropped for a shorter way *)
    assert (KK : forall h a, In (h, a) out -> In (h, a) out' \/ exists m, meets (garc F) (garc B) node h m /\ (m < a)%N).
    { intros h a H. destruct (HB h a H) as (l & r & Er & (B1 & B2 & B3) & BO). assert (C : common out l h a). { exists a, 0%N. split; auto. split; auto. lia. }
      assert (Hh : h < n) by (apply A3 in H; apply uw in H; auto; lia).
      destruct r as [[via d]|]; cbn in BO. 2: { exfalso. apply (proj2 BO) in C. auto. } destruct BO as [[[=]|C2] BO].
      destruct (BO h a (or_introl C)) as [Ld|[-> Lv]].
      - right. destruct C2 as (x & y & I1 & I2 & ->). exists (x + y)%N. split; auto. exists via, x, y. auto.
      - left. apply K. split; auto. exists (Some (via, a)). split; auto. destruct C2 as (x & y & I1 & I2 & _). apply B3 in I2. apply uwb in I2; auto. lia. }
    split.
    - split. { eapply prune_asc; eauto. } split; [|intros h a H; apply K in H as [H _]; auto]. destruct (KK _ _ A2) as [H|(m & _ & L)]; auto. lia.
    - intros h a W La. destruct (HA h a W La) as [(a' & I & L)|]; auto. destruct (KK _ _ I) as [H|(m & M & L')]; eauto. right. exists m. split; auto. lia.
  Qed.
End Side.

Section All.
  Variable n : nat.
  Variable arc : nat -> nat -> N -> Prop.
  Variables order ranks : list nat.
  Variables F B : nat -> option (list (nat * N)).
  Hypothesis HH : hierarchy n arc order ranks F B.
  Hypothesis SMALL : forall x y l, x < n -> y < n -> meets (garc F) (garc B) x y l -> (l < U32)%N.
  Variable sort : label -> label.
  Hypothesis HS : pair_sort sort.

  Definition good (h : hublabels) (x : nat) : Prop := exists lo li, nth_error (hl_out h) x = Some lo /\ nth_error (hl_in h) x = Some li /\
    lab_ok F x lo /\ lab_ok B x li /\ lab_all F B x lo /\ lab_all B F x li.
  Definition hinv (k : nat) (h : hublabels) : Prop := length (hl_out h) = n /\ length (hl_in h) = n /\
    (forall x, x < k -> nth_error (hl_out h) x = Some [] /\ nth_error (hl_in h) x = Some []) /\ forall x, k <= x < n -> good h x.

  Lemma best_ok lo li x y : x < n -> y < n -> lab_ok F x lo -> lab_ok B y li -> exists r, best_hub lo li = Some r /\ best_of lo li None r.
  Proof using HH SMALL.
    intros Hx Hy (A1 & _ & A3) (B1 & _ & B3). apply best_hub_ok; auto.
    - intros h d (a & b & I1 & I2 & ->). apply (SMALL x y); auto. exists h, a, b. auto.
    - intros h d z [=].
  Qed.

  Lemma hl_node_ok h k : k < n -> hinv (S k) h -> exists h', hl_node sort F B h k = Some h' /\ hinv k h'.
  Proof using HH SMALL HS.
    intros Hk (L1 & L2 & HE & HG). unfold hl_node. destruct (HE k) as [-> ->]; [lia|]. cbn [bind app].
    assert (SMALL' : forall x y l, x < n -> y < n -> meets (garc B) (garc F) x y l -> (l < U32)%N). { intros x y l Hx Hy M. apply meets_sym in M. eapply SMALL; [exact Hy|exact Hx|exact M]. }
    pose proof (hier_swap _ _ _ _ _ _ HH) as HH'.
    assert (O1 : forall x, k < x < n -> exists l, nth_error (hl_out h) x = Some l /\ lab_ok F x l /\ lab_all F B x l). { intros x Hx. destruct (HG x) as (lo & li & G1 & G2 & G3 & G4 & G5 & G6); [lia|]. eauto. }
    assert (I1 : forall x, k < x < n -> exists l, nth_error (hl_in h) x = Some l /\ lab_ok B x l /\ lab_all B F x l). { intros x Hx. destruct (HG x) as (lo & li & G1 & G2 & G3 & G4 & G5 & G6); [lia|]. eauto. }
    destruct (hi_fw _ _ _ _ _ _ HH k Hk) as (us & Eu & _). destruct (hi_bw _ _ _ _ _ _ HH k Hk) as (ds & Ed & _). rewrite Eu. cbn [bind].
    destruct (extend_ok n arc order ranks F B HH SMALL k Hk (hl_out h) L1 O1 us Eu) as (out & Eo & _). rewrite Eo, Ed. cbn [bind].
    destruct (extend_ok n _ order ranks B F HH' SMALL' k Hk (hl_in h) L2 I1 ds Ed) as (inc & Ei & _). rewrite Ei. cbn [bind].
    destruct (raw_ok n arc order ranks F B HH SMALL sort HS k Hk (hl_out h) L1 O1 us out Eu Eo) as (RO & AO).
    destruct (raw_ok n _ order ranks B F HH' SMALL' sort HS k Hk (hl_in h) L2 I1 ds inc Ed Ei) as (RI & AI).
    set (lo := hl_norm sort out) in *. set (li := hl_norm sort inc) in *.
    rewrite (set_at_lt (hl_out h)), (set_at_lt (hl_in h)) by lia. cbn [bind].
    destruct (pruned_ok n arc order ranks F B HH SMALL k Hk (hl_out h) L1 O1 (fun hub => l <- nth_error (upd (hl_in h) k li) hub ;; best_hub lo l) lo RO AO) as (lo' & Ep & RO' & AO').
    { intros hub a Hin. assert (Hh : k <= hub < n). { destruct RO as (_ & _ & W). apply W in Hin. apply (uw n arc order ranks F B HH SMALL) in Hin; auto. }
      assert (exists l, nth_error (upd (hl_in h) k li) hub = Some l /\ lab_ok B hub l) as (l & El & OL).
      { destruct (Nat.eq_dec hub k) as [->|Ne]. - exists li. split; auto. apply nth_error_upd_eq. lia. - rewrite nth_error_upd_neq by auto. destruct (I1 hub) as (l & El & OL & _); [lia|]. eauto. }
      destruct (best_ok lo l k hub Hk) as (r & Er & BO); auto; [lia|]. exists l, r. rewrite El. cbn [bind]. auto. }
    rewrite Ep. cbn [bind]. assert (LU : length (upd (hl_out h) k lo) = n) by (rewrite upd_length; auto). rewrite (set_at_lt (upd (hl_out h) k lo)) by lia. cbn [bind].
    set (outs := upd (upd (hl_out h) k lo) k lo').
    assert (HO : nth_error outs k = Some lo') by (apply nth_error_upd_eq; lia).
    assert (HO' : forall x, x <> k -> nth_error outs x = nth_error (hl_out h) x). { intros x Hx. unfold outs. rewrite !nth_error_upd_neq by auto. auto. }
    destruct (pruned_ok n _ order ranks B F HH' SMALL' k Hk (hl_in h) L2 I1 (fun hub => l <- nth_error outs hub ;; best_hub l li) li RI AI) as (li' & Ep' & RI' & AI').
    { intros hub a Hin. assert (Hh : k <= hub < n). { destruct RI as (_ & _ & W). apply W in Hin. apply (uw n _ order ranks B F HH' SMALL') in Hin; auto. }
      assert (exists l, nth_error outs hub = Some l /\ lab_ok F hub l) as (l & El & OL).
      { destruct (Nat.eq_dec hub k) as [->|Ne]. - eauto. - rewrite HO' by auto. destruct (O1 hub) as (l & El & OL & _); [lia|]. eauto. }
      destruct (best_ok l li hub k) as (r & Er & BO); auto; [lia|]. exists l, r. rewrite El. cbn [bind]. split; auto. split; auto. eapply best_of_ext; [|exact BO]. intros; apply common_sym. }
    rewrite Ep'. cbn [bind]. rewrite set_at_lt by (rewrite upd_length; lia). cbn [bind]. eexists. split; [reflexivity|].
    set (ins := upd (upd (hl_in h) k li) k li').
    assert (HI : nth_error ins k = Some li') by (apply nth_error_upd_eq; rewrite upd_length; lia).
    assert (HI' : forall x, x <> k -> nth_error ins x = nth_error (hl_in h) x). { intros x Hx. unfold ins. rewrite !nth_error_upd_neq by auto. auto. }
    repeat split; cbn [hl_out hl_in].
    - unfold outs. rewrite !upd_length; auto.
    - unfold ins. rewrite !upd_length; auto.
    - rewrite HO' by lia. apply HE. lia.
    - rewrite HI' by lia. apply HE. lia.
    - intros x Hx. unfold good. cbn [hl_out hl_in]. destruct (Nat.eq_dec x k) as [->|Ne]. { exists lo', li'. auto 6. }
      rewrite HO', HI' by auto. apply HG. lia.
  Qed.

  Lemma hl_new_ok : exists h, hl_new sort n F B = Some h /\ hinv 0 h.
  Proof using HH SMALL HS.
    unfold hl_new. assert (I : hinv n (mkHl (repeat [] n) (repeat [] n))).
    { unfold hinv. cbn [hl_out hl_in]. rewrite repeat_length. split; auto. split; auto. split; [|lia]. intros x Hx. rewrite nth_error_repeat, (proj2 (Nat.ltb_lt x n) Hx). auto. }
    revert I. generalize (mkHl (repeat [] n) (repeat [] n)) as h. assert (G : forall k, k <= n -> forall h, hinv k h -> exists h', foldM (hl_node sort F B) (rev (seq 0 k)) h = Some h' /\ hinv 0 h'); [|intros; apply (G n); auto].
    induction k as [|k IH]; intros Hk h I. { exists h. auto. }
    rewrite seq_S, rev_unit. cbn [foldM plus]. destruct (hl_node_ok h k) as (h1 & E & I1); auto. rewrite E. cbn [bind]. apply IH; auto. lia.
  Qed.

  Lemma hl_hub_ok h x y : hinv 0 h -> x < n -> y < n -> exists r, hl_hub h x y = Some r /\
    (forall m d, r = Some (m, d) -> exists a b, walk (garc F) x m a /\ walk (garc B) y m b /\ d = (a + b)%N) /\
    (forall l, meets (garc F) (garc B) x y l -> (l < INF)%N -> exists m d, r = Some (m, d) /\ (d <= l)%N).
  Proof using HH SMALL.
    intros (_ & _ & _ & HG) Hx Hy. destruct (HG x) as (lo & l1 & G1 & _ & G3 & _ & G5 & _); [lia|]. destruct (HG y) as (l2 & li & _ & K2 & _ & K4 & _ & K6); [lia|].
    unfold hl_hub. rewrite G1, K2. cbn [bind]. destruct (best_ok lo li x y) as (r & E & BO); auto. exists r. split; auto.
    pose proof G3 as (A1 & A2 & A3). pose proof K4 as (B1 & B2 & B3). split.
    - intros m d ->. cbn in BO. destruct BO as [[[=]|(a & b & I1 & I2 & ->)] _]. exists a, b. auto.
    - assert (GG : forall k l, (l < N.of_nat k)%N -> meets (garc F) (garc B) x y l -> (l < INF)%N -> exists m d, r = Some (m, d) /\ (d <= l)%N).
      2: { intros l. apply (GG (S (N.to_nat l))). lia. }
      induction k as [|k IH]; intros l Hl (m & a & b & Wa & Wb & ->) Li; [lia|].
      assert (Hm : m < n) by (apply (uw n arc order ranks F B HH SMALL) in Wa; auto; lia).
      destruct (G5 m a Wa) as [(a' & Ia & La)|(l' & Ml & Ll)]; [lia| |].
      2: { destruct (meets_trans n arc order ranks F B HH SMALL x m y l' b) as (l2' & M2 & L2); auto; [apply meets_dn with (n := n); auto|lia|]. destruct (IH l2' ltac:(lia) M2 ltac:(lia)) as (m' & d & -> & Ld). exists m', d. split; auto. lia. }
      destruct (K6 m b Wb) as [(b' & Ib & Lb)|(l' & Ml & Ll)]; [lia| |].
      2: { apply meets_sym in Ml. destruct (meets_trans n arc order ranks F B HH SMALL x m y a l') as (l2' & M2 & L2); auto; [apply meets_up with (n := n); auto|lia|]. destruct (IH l2' ltac:(lia) M2 ltac:(lia)) as (m' & d & -> & Ld). exists m', d. split; auto. lia. }
      assert (C : common lo li m (a' + b')) by (exists a', b'; auto). destruct r as [[h0 d]|]; cbn in BO. 2: { exfalso. apply (proj2 BO m (a' + b')%N C). }
      exists h0, d. split; auto. destruct BO as [_ BO]. destruct (BO m (a' + b')%N (or_introl C)); lia.
  Qed.
End All.
