(** Greedy merging of metrics: every interleaving gives the greedy result, see Merge. *)
From Coq Require Import Sorting.Sorted.
From Verif Require Import Base SpecMerge Merge.

(** ** The queue *)
Lemma eleb_spec (x y : entry) : eleb x y = true <->
  let '(k1, c1, i1, j1) := x in let '(k2, c2, i2, j2) := y in
  (k1 < k2)%N \/ (k1 = k2 /\ (c1 < c2 \/ (c1 = c2 /\ (i1 < i2 \/ (i1 = i2 /\ j1 <= j2))))).
Proof. destruct x as [[[k1 c1] i1] j1], y as [[[k2 c2] i2] j2]. unfold eleb. lia. Qed.
Lemma eleb_total x y : eleb x y = false -> eleb y x = true.
Proof.
  intros H. apply eleb_spec. destruct (eleb x y) eqn:E; [discriminate|]. clear H.
  destruct x as [[[k1 c1] i1] j1], y as [[[k2 c2] i2] j2]. unfold eleb in E. lia.
Qed.
Lemma eleb_trans x y z : eleb x y = true -> eleb y z = true -> eleb x z = true.
Proof. rewrite !eleb_spec. destruct x as [[[k1 c1] i1] j1], y as [[[k2 c2] i2] j2], z as [[[k3 c3] i3] j3]. lia. Qed.
Definition qsorted (q : list entry) : Prop := StronglySorted (fun x y => eleb x y = true) q.

Lemma push_In x y q : In y (push x q) <-> y = x \/ In y q.
Proof.
  induction q as [|z q IH]; cbn [push In]. { firstorder. }
  destruct (eleb x z); cbn [In]; [firstorder|]. rewrite IH. firstorder.
Qed.
Lemma push_sorted x q : qsorted q -> qsorted (push x q).
Proof.
  unfold qsorted. induction 1 as [|y q HS IH HF]; cbn [push]. { constructor; constructor. }
  destruct (eleb x y) eqn:E.
  - constructor; [constructor; auto|]. constructor; auto. rewrite Forall_forall in *. intros z Hz. eapply eleb_trans; eauto.
  - constructor; auto. rewrite Forall_forall in *. intros z Hz. apply push_In in Hz. destruct Hz as [->|Hz]; auto. apply eleb_total; auto.
Qed.
Lemma filter_sorted f q : qsorted q -> qsorted (filter f q).
Proof.
  unfold qsorted. induction 1 as [|y q HS IH HF]; cbn [filter]; [constructor|]. destruct (f y); auto. constructor; auto.
  rewrite Forall_forall in *. intros z Hz. apply filter_In in Hz. apply HF, Hz.
Qed.

Lemma nth_In' {A} (l : list (list A)) i : nth i l [] <> [] -> i < length l.
Proof. intros H. destruct (lt_dec i (length l)); auto. rewrite nth_overflow in H by lia. congruence. Qed.

Section M.
Context (metrics : list (list N)) (m : nat).
Hypothesis HLen : forall a, a < length metrics -> length (nth a metrics []) = m.
Hypothesis HOv : no_u64_overflow metrics m.
Local Notation k := (length metrics).
Local Notation gd := (gdist metrics).

Definition grp (g : list nat) : Prop := g <> [] /\ Forall (fun a => a < k) g.

Lemma fold_min_in (l : list N) d : In (fold_right N.min d l) (d :: l).
Proof.
  induction l as [|x l IH]; cbn [fold_right]; [left; auto|].
  destruct (N.min_spec x (fold_right N.min d l)) as [[_ E]|[_ E]]; rewrite E. { right; left; auto. }
  destruct IH as [<-|IH]; [left; auto|]. right; right; auto.
Qed.
Lemma gweight_in g e : g <> [] -> exists a, In a g /\ gweight metrics g e = nth e (nth a metrics []) 0%N.
Proof.
  intros HN. unfold gweight. destruct g as [|a g]; [congruence|]. cbn [map hd].
  assert (HI := fold_min_in (nth e (nth a metrics []) 0%N :: map (fun a => nth e (nth a metrics []) 0%N) g) (nth e (nth a metrics []) 0%N)).
  destruct HI as [E|[E|HI]]; try (exists a; split; [left; auto|congruence]).
  apply in_map_iff in HI. destruct HI as (b & E & Hb). exists b. split; [right; auto|congruence].
Qed.
Lemma fold_min_swap (l : list N) w : fold_left N.min l w = fold_right N.min w (w :: l).
Proof.
  assert (H : forall l w, fold_left N.min l w = N.min w (fold_right N.min w l)).
  { clear. induction l as [|x l IH]; intros w; cbn [fold_left fold_right]. { lia. }
    rewrite IH. assert (G : forall l a b, N.min (N.min a b) (fold_right N.min (N.min a b) l) = N.min (N.min a b) (fold_right N.min a l)).
    { clear. induction l as [|y l IH]; intros a b; cbn [fold_right]; [lia|]. specialize (IH a b). lia. }
    rewrite G. lia. }
  apply H.
Qed.
Lemma group_weight_ok g e : grp g -> e < m -> group_weight metrics g e = Some (gweight metrics g e).
Proof.
  intros [HN HF] He. unfold group_weight. rewrite (mapM_Some _ (fun a => nth e (nth a metrics []) 0%N)).
  - cbn [bind]. destruct g as [|a g]; [congruence|]. cbn [map]. f_equal. unfold gweight. cbn [map hd]. apply fold_min_swap.
  - intros a Ha. rewrite Forall_forall in HF. specialize (HF a Ha). rewrite (nth_error_nth' metrics [] HF). cbn [bind].
    apply nth_error_nth'. rewrite HLen; auto.
Qed.

Lemma gd_bound : exists D, (N.of_nat m * D ^ 2 < 2 ^ 64)%N /\ forall g h c, grp g -> grp h -> c <= m -> (gd g h c <= N.of_nat c * D ^ 2)%N.
Proof.
  destruct HOv as (D & HD & HB). exists D. split; auto. intros g h c Hg Hh. induction c as [|c IH]; intros Hc; cbn [gdist]. { lia. }
  specialize (IH ltac:(lia)). destruct (gweight_in g c (proj1 Hg)) as (a & Ha & Ea). destruct (gweight_in h c (proj1 Hh)) as (b & Hb & Eb).
  pose proof (proj1 (Forall_forall _ _) (proj2 Hg) a Ha) as La. pose proof (proj1 (Forall_forall _ _) (proj2 Hh) b Hb) as Lb. cbn in La, Lb.
  pose proof (HD a b c La Lb ltac:(lia)) as D1. pose proof (HD b a c Lb La ltac:(lia)) as D2. rewrite <- Ea, <- Eb in D1. rewrite <- Ea, <- Eb in D2.
  set (x := gweight metrics g c) in *. set (y := gweight metrics h c) in *.
  assert (HX : (N.max x y - N.min x y <= D)%N) by lia. pose proof (N.pow_le_mono_l _ _ 2 HX) as HP. nia.
Qed.
Lemma gd_u64 g h c : grp g -> grp h -> c <= m -> (gd g h c <= U64MAX)%N.
Proof.
  intros Hg Hh Hc. destruct gd_bound as (D & HB & HG). specialize (HG g h c Hg Hh Hc). unfold U64MAX.
  assert (HM : (N.of_nat c * D ^ 2 <= N.of_nat m * D ^ 2)%N) by (apply N.mul_le_mono_r; lia).
  change (2 ^ 64)%N with 18446744073709551616%N in HB. lia.
Qed.
Lemma gd_mono g h c c' : c <= c' -> (gd g h c <= gd g h c')%N.
Proof. induction 1; cbn [gdist]; lia. Qed.

(** ** Entries *)
Definition MI (gs : list (list nat)) : Prop := length gs = k /\ Forall (Forall (fun a => a < k)) gs.
Definition VE (gs : list (list nat)) (e : entry) : Prop :=
  let '(s, c, i, j) := e in live_pair gs i j /\ c <= m /\ s = gd (nth i gs []) (nth j gs []) c.
Definition epair (e : entry) : nat * nat := let '(_, _, i, j) := e in (i, j).
Definition ec (e : entry) : nat := let '(_, c, _, _) := e in c.
Definition es (e : entry) : N := let '(s, _, _, _) := e in s.
Definition covered (gs : list (list nat)) (P : entry -> Prop) : Prop := forall i j, live_pair gs i j -> exists e, P e /\ epair e = (i, j).
Definition QI (gs : list (list nat)) (q : list entry) : Prop := qsorted q /\ Forall (VE gs) q /\ covered gs (fun e => In e q).

Lemma MI_grp gs i : MI gs -> nth i gs [] <> [] -> grp (nth i gs []).
Proof. intros [HL HF] HN. split; auto. rewrite Forall_forall in HF. apply HF. apply nth_In. apply nth_In'; auto. Qed.

(** the top entry, if it has seen all arcs, is the closest pair *)
Lemma top_closest gs s c i j r : QI gs ((s, c, i, j) :: r) -> m <= c -> closest metrics m gs i j.
Proof.
  intros (HS & HV & HC) Hc. inversion HV as [|? ? HV0 HV']; subst. destruct HV0 as (HP & Hcm & Es). subst s. assert (c = m) by lia; subst c. split; auto.
  intros a b Hab. cbv zeta. destruct (HC a b Hab) as (e & He & Ee). destruct e as [[[s' c'] a'] b']. cbn [epair] in Ee. injection Ee as -> ->.
  assert (HVe : VE gs (s', c', a, b)) by (apply (proj1 (Forall_forall _ _) HV); auto). destruct HVe as (_ & Hc' & Es').
  assert (HL : eleb (gd (nth i gs []) (nth j gs []) m, m, i, j) (s', c', a, b) = true).
  { destruct He as [He|He]; [rewrite He; apply eleb_spec; lia|]. inversion HS; subst. rewrite Forall_forall in H2. apply (H2 _ He). }
  apply eleb_spec in HL. pose proof (gd_mono (nth a gs []) (nth b gs []) c' m Hc') as HM. rewrite <- Es' in HM.
  destruct HL as [HL|[HL [HL2|[HL2 HL3]]]]; [left; lia|lia|]. right. subst c'. lia.
Qed.

(** ** Joining two groups *)
Definition joined (gs : list (list nat)) (i j : nat) : list (list nat) := upd (upd gs j []) i (nth i gs [] ++ nth j gs []).
Lemma joined_nth gs i j a : i < length gs -> j < length gs -> i <> j ->
  nth a (joined gs i j) [] = if a =? i then nth i gs [] ++ nth j gs [] else if a =? j then [] else nth a gs [].
Proof.
  intros Hi Hj Hij. unfold joined. destruct (Nat.eqb_spec a i) as [->|Ha]. { apply nth_upd_eq. rewrite upd_length; auto. }
  rewrite nth_upd_neq by auto. destruct (Nat.eqb_spec a j) as [->|Ha']. { apply nth_upd_eq; auto. } apply nth_upd_neq; auto.
Qed.
Lemma joined_MI gs i j : MI gs -> i < length gs -> j < length gs -> MI (joined gs i j).
Proof.
  intros [HL HF] Hi Hj. split. { unfold joined. rewrite !upd_length; auto. }
  assert (HU : forall (l : list (list nat)) a x, Forall (Forall (fun a => a < k)) l -> Forall (fun a => a < k) x -> Forall (Forall (fun a => a < k)) (upd l a x)).
  { clear. intros l. induction l as [|y l IH]; intros a x HF Hx; destruct a; cbn [upd]; auto; inversion HF; subst; constructor; auto. }
  rewrite Forall_forall in HF. unfold joined. apply HU; [apply HU; auto; apply Forall_forall; auto|].
  apply Forall_app; split; apply HF; apply nth_In; auto.
Qed.

Lemma push_joined_In i gs q e : In e (push_joined i gs q) <-> In e q \/ exists o, o <> i /\ nth o gs [] <> [] /\ e = (0%N, 0, Nat.min i o, Nat.max i o).
Proof.
  unfold push_joined.
  assert (H : forall os q, In e (fold_left (fun q o => match nth o gs [] with
    | [] => q
    | _ => if o =? i then q else if i <? o then push (0%N, 0, i, o) q else push (0%N, 0, o, i) q
    end) os q) <-> In e q \/ exists o, In o os /\ o <> i /\ nth o gs [] <> [] /\ e = (0%N, 0, Nat.min i o, Nat.max i o)).
  { induction os as [|o os IH]; intros q'; cbn [fold_left]. { split; auto. intros [H|(o & [] & _)]; auto. } rewrite IH. clear IH.
    destruct (nth o gs []) eqn:Eo.
    { split; [intros [H|(o' & H & R)]; [auto|right; exists o'; split; [right|]; auto]|]. intros [H|(o' & [<-|H] & R)]; auto. { destruct R as (_ & R & _). congruence. } right. exists o'; auto. }
    destruct (Nat.eqb_spec o i) as [->|Hoi].
    { split; [intros [H|(o' & H & R)]; [auto|right; exists o'; split; [right|]; auto]|]. intros [H|(o' & [<-|H] & R)]; auto. { destruct R as (R & _). congruence. } right. exists o'; auto. }
    assert (HX : In e (if i <? o then push (0%N, 0, i, o) q' else push (0%N, 0, o, i) q') <-> e = (0%N, 0, Nat.min i o, Nat.max i o) \/ In e q').
    { destruct (Nat.ltb_spec i o); rewrite push_In.
      - rewrite Nat.min_l, Nat.max_r by lia. tauto.
      - rewrite Nat.min_r, Nat.max_l by lia. tauto. }
    rewrite HX. split.
    - intros [[H|H]|(o' & H & R)]; auto; right; [exists o|exists o']; (split; [cbn; auto|]); auto. split; auto. split; congruence.
    - intros [H|(o' & [<-|H] & R)]; auto. { left; left. apply R. } right; exists o'; auto. }
  rewrite H. split; (intros [G|(o & G)]; [auto|right; exists o]); [tauto|]. split; auto. apply in_seq. split; [lia|]. cbn. apply nth_In'. apply G.
Qed.
Lemma push_joined_sorted i gs q : qsorted q -> qsorted (push_joined i gs q).
Proof.
  unfold push_joined. generalize (seq 0 (length gs)) as os. intros os; revert q. induction os as [|o os IH]; intros q HS; cbn [fold_left]; auto.
  apply IH. destruct (nth o gs []); auto. destruct (o =? i); auto. destruct (i <? o); apply push_sorted; auto.
Qed.

Lemma join_ok gs e i j r : MI gs -> QI gs (e :: r) -> live_pair gs i j -> epair e = (i, j) ->
  exists q', join i j r gs = Some (q', joined gs i j) /\ QI (joined gs i j) q' /\ MI (joined gs i j).
Proof.
  intros HM (HS & HV & HC) (Hij & Hi & Hj) Ee. pose proof (nth_In' _ _ Hi) as Li. pose proof (nth_In' _ _ Hj) as Lj. unfold join.
  rewrite (nth_error_nth' gs [] Lj). cbn [bind]. rewrite set_at_lt by auto. cbn [bind].
  rewrite (nth_error_nth' (upd gs j []) []) by (rewrite upd_length; auto). cbn [bind]. rewrite nth_upd_neq by lia.
  rewrite set_at_lt by (rewrite upd_length; auto). cbn [bind]. eexists. split; [reflexivity|]. fold (joined gs i j). split; [|apply joined_MI; auto].
  inversion HS as [|? ? HS' HF]; subst. inversion HV as [|? ? HV1 HV']; subst. split; [|split].
  - apply push_joined_sorted. apply filter_sorted; auto.
  - rewrite Forall_forall in *. intros x Hx. apply push_joined_In in Hx. destruct Hx as [Hx|(o & Ho & Hn & ->)].
    + apply filter_In in Hx. destruct Hx as (Hx & Hf). specialize (HV' x Hx). destruct x as [[[s c] a] b].
      assert (HA : a <> i /\ a <> j /\ b <> i /\ b <> j) by lia. clear Hf. destruct HA as (A1 & A2 & B1 & B2). destruct HV' as ((P1 & P2 & P3) & P4 & P5).
      unfold VE, live_pair. rewrite !joined_nth by lia.
      rewrite (proj2 (Nat.eqb_neq a i)), (proj2 (Nat.eqb_neq a j)), (proj2 (Nat.eqb_neq b i)), (proj2 (Nat.eqb_neq b j)) by auto. auto.
    + assert (HI : nth i (joined gs i j) [] <> []). { rewrite joined_nth by lia. rewrite Nat.eqb_refl. destruct (nth i gs []); cbn; congruence. }
      unfold VE. split; [|split; [lia|reflexivity]]. unfold live_pair. split; [lia|].
      destruct (Nat.min_spec i o) as [[_ ->]|[L E1]], (Nat.max_spec i o) as [[L' E2]|[L' E2]]; rewrite ?E1, ?E2; try lia; auto.
  - intros a b (Hab & Ha & Hb).
    destruct (Nat.eq_dec a i) as [->|Nai].
    { exists (0%N, 0, Nat.min i b, Nat.max i b). split. { apply push_joined_In. right. exists b. split; [lia|auto]. } cbn. f_equal; lia. }
    destruct (Nat.eq_dec b i) as [->|Nbi].
    { exists (0%N, 0, Nat.min i a, Nat.max i a). split. { apply push_joined_In. right. exists a. split; [lia|auto]. } cbn. f_equal; lia. }
    rewrite joined_nth in Ha, Hb by lia. rewrite (proj2 (Nat.eqb_neq _ _) Nai) in Ha. rewrite (proj2 (Nat.eqb_neq _ _) Nbi) in Hb.
    destruct (Nat.eqb_spec a j) as [->|Naj]; [congruence|]. destruct (Nat.eqb_spec b j) as [->|Nbj]; [congruence|].
    destruct (HC a b) as (x & Hx & Ex). { split; auto. } exists x. split; auto. apply push_joined_In. left. apply filter_In. destruct x as [[[s c] a'] b'].
    cbn [epair] in Ex. injection Ex as -> ->. split.
    + destruct Hx as [Hx|Hx]; auto. rewrite Hx in Ee. cbn [epair] in Ee. congruence.
    + lia.
Qed.

(** ** Counting groups *)
Definition nlive (gs : list (list nat)) : nat := length (nonempty gs).
Lemma nlive_upd gs a x : a < length gs ->
  nlive (upd gs a x) + (match nth a gs [] with [] => 0 | _ => 1 end) = nlive gs + (match x with [] => 0 | _ => 1 end).
Proof.
  unfold nlive, nonempty. revert a. induction gs as [|g gs IH]; intros a Ha; cbn in Ha; [lia|]. destruct a as [|a]; cbn [upd nth filter].
  - destruct g, x; cbn [length]; lia.
  - specialize (IH a ltac:(lia)). destruct g; cbn [length]; lia.
Qed.
Lemma joined_nlive gs i j : live_pair gs i j -> nlive (joined gs i j) + 1 = nlive gs.
Proof.
  intros (Hij & Hi & Hj). pose proof (nth_In' _ _ Hi) as Li. pose proof (nth_In' _ _ Hj) as Lj. unfold joined.
  pose proof (nlive_upd (upd gs j []) i (nth i gs [] ++ nth j gs []) ltac:(rewrite upd_length; auto)) as H1.
  pose proof (nlive_upd gs j [] Lj) as H2. rewrite nth_upd_neq in H1 by lia.
  destruct (nth i gs []) eqn:E1; [congruence|]. destruct (nth j gs []) eqn:E2; [congruence|]. cbn [app] in H1 |- *. cbv beta iota in H1, H2. lia.
Qed.
Lemma joined_perm gs i j : i < length gs -> j < length gs -> i <> j -> Permutation (concat (joined gs i j)) (concat gs).
Proof.
  assert (HU : forall (l : list (list nat)) a x, a < length l -> Permutation (nth a l [] ++ concat (upd l a x)) (x ++ concat l)).
  { clear. induction l as [|y l IH]; intros a x Ha; cbn in Ha; [lia|]. destruct a as [|a]; cbn [upd nth concat].
    - rewrite !app_assoc. apply Permutation_app_tail. apply Permutation_app_comm.
    - specialize (IH a x ltac:(lia)). rewrite Permutation_app_swap_app. rewrite IH. apply Permutation_app_swap_app. }
  intros Hi Hj Hij. unfold joined. pose proof (HU (upd gs j []) i (nth i gs [] ++ nth j gs []) ltac:(rewrite upd_length; auto)) as H1.
  pose proof (HU gs j [] Hj) as H2. cbn [app] in H2. rewrite nth_upd_neq in H1 by lia. rewrite <- app_assoc in H1.
  apply Permutation_app_inv_l in H1. rewrite H1, H2. reflexivity.
Qed.
(** with a single group left there is no pair, with two there is one *)
Lemma nlive_pair gs : 2 <= nlive gs -> exists i j, live_pair gs i j.
Proof.
  unfold nlive, nonempty. induction gs as [|g gs IH]; cbn [filter]; intros H; [cbn in H; lia|].
  assert (HI : (exists i j, live_pair gs i j) -> exists i j, live_pair (g :: gs) i j).
  { intros (i & j & A & B & C). exists (S i), (S j). split; [lia|]. auto. }
  destruct g as [|x g]; [apply HI, IH, H|]. cbn [length] in H.
  destruct (filter _ gs) as [|y r] eqn:E; [cbn in H; lia|].
  assert (HY : In y (y :: r)) by (left; auto). rewrite <- E in HY. apply filter_In in HY. destruct HY as [HY HN]. apply (In_nth _ _ []) in HY.
  destruct HY as (j & Hj & Ej). exists 0, (S j). split; [lia|]. cbn [nth]. rewrite Ej. split; [congruence|]. intros ->. discriminate.
Qed.
Lemma live_nlive gs i j : live_pair gs i j -> 2 <= nlive gs.
Proof.
  intros H. pose proof (joined_nlive gs i j H) as H1. destruct H as (Hij & Hi & Hj). pose proof (nth_In' _ _ Hi) as Li. pose proof (nth_In' _ _ Hj) as Lj.
  assert (1 <= nlive (joined gs i j)); [|lia]. unfold nlive, nonempty.
  assert (HN : In (nth i (joined gs i j) []) (filter (fun g => match g with [] => false | _ => true end) (joined gs i j))).
  { apply filter_In. split. { apply nth_In. unfold joined. rewrite !upd_length; auto. } rewrite joined_nth by lia. rewrite Nat.eqb_refl. destruct (nth i gs []); cbn; congruence. }
  destruct (filter _ _); [destruct HN|cbn; lia].
Qed.

(** ** The parallel refinement of the sums *)
Definition TI (mk : N) (t : entry * tpc) : Prop := match snd t with InLoop => True | _ => ec (fst t) < m -> (mk < es (fst t))%N end.
Definition SI (mk : N) (q : list entry) (tasks : list (entry * tpc)) (gs : list (list nat)) : Prop :=
  qsorted q /\ Forall (VE gs) q /\ Forall (fun t => VE gs (fst t)) tasks /\
  covered gs (fun e => In e q \/ exists pc, In (e, pc) tasks) /\
  (forall e, In e q -> ec e < m -> (mk < es e)%N) /\ Forall (TI mk) tasks /\
  (mk = U64MAX \/ exists e, es e = mk /\ m <= ec e /\ (In e q \/ In (e, BeforePush) tasks)).
Definition topfinal (q : list entry) : Prop := match q with [] => True | e :: _ => m <= ec e end.

Lemma VE_u64 gs e : MI gs -> VE gs e -> (es e <= U64MAX)%N.
Proof.
  intros HM. destruct e as [[[s c] i] j]. intros ((_ & Hi & Hj) & Hc & ->). cbn [es]. apply gd_u64; auto; apply MI_grp; auto.
Qed.
Lemma scope_end mk q gs : MI gs -> SI mk q [] gs -> QI gs q /\ topfinal q.
Proof.
  intros HM (HS & HV & _ & HC & HQ & _ & HK). split.
  - split; [auto|split; auto]. intros i j H. destruct (HC i j H) as (e & [He|(pc & [])] & E). exists e; auto.
  - destruct q as [|e q]; cbn; auto. destruct (le_lt_dec m (ec e)) as [|Hlt]; auto. exfalso.
    specialize (HQ e ltac:(left; auto) Hlt). inversion HV; subst. pose proof (VE_u64 gs e HM H1) as HU.
    destruct HK as [->|(e' & E1 & E2 & [E3|[]])]; [lia|]. assert (HL : eleb e e' = true).
    { destruct E3 as [->|E3]; [lia|]. inversion HS as [|? ? _ HSF]; subst. rewrite Forall_forall in HSF. auto. }
    apply eleb_spec in HL. destruct e as [[[s c] i] j], e' as [[[s' c'] i'] j']. cbn [es ec] in *. lia.
Qed.
Lemma take_spec q : qsorted q -> let '(mk, todo, rest) := take_unfinished m q in
  q = todo ++ rest /\ Forall (fun e => ec e < m) todo /\ ((rest = [] /\ mk = U64MAX) \/ exists e r, rest = e :: r /\ m <= ec e /\ mk = es e).
Proof.
  induction 1 as [|e q HS IH HF]; cbn [take_unfinished]. { split; auto. }
  destruct e as [[[s c] i] j]. destruct (Nat.leb_spec m c) as [Hc|Hc].
  - split; auto. split; auto. right. exists (s, c, i, j), q. auto.
  - destruct (take_unfinished m q) as [[mk todo] rest]. destruct IH as (E & F & G). split. { cbn. congruence. } split; auto.
Qed.
Lemma take_SI gs q mk todo rest : QI gs q -> take_unfinished m q = (mk, todo, rest) -> SI mk rest (map (fun e => (e, InLoop)) todo) gs.
Proof.
  intros (HS & HV & HC) E. pose proof (take_spec q HS) as HT. rewrite E in HT. destruct HT as (-> & HF & HR). apply Forall_app in HV. destruct HV as (HV1 & HV2).
  assert (HS2 : qsorted rest). { clear -HS. induction todo; auto. inversion HS; auto. }
  split; [auto|]. split; [auto|]. split. { apply Forall_map. exact HV1. } split; [|split; [|split]].
  - intros i j H. destruct (HC i j H) as (e & He & Ee). exists e. split; auto. apply in_app_or in He. destruct He as [He|He]; auto.
    right. exists InLoop. apply in_map_iff. eauto.
  - intros e He Hlt. destruct HR as [[-> _]|(e0 & r & -> & Hf & ->)]; [destruct He|]. destruct He as [->|He]; [lia|].
    inversion HS2; subst. rewrite Forall_forall in H2. specialize (H2 e He). apply eleb_spec in H2.
    destruct e as [[[s c] i] j], e0 as [[[s' c'] i'] j']. cbn [es ec] in *. lia.
  - apply Forall_map. apply Forall_forall. intros e _. exact I.
  - destruct HR as [[-> ->]|(e0 & r & -> & Hf & ->)]; auto. right. exists e0. split; auto. split; auto. left; left; auto.
Qed.

Lemma add_square_ok s w1 w2 : (s + (N.max w1 w2 - N.min w1 w2) ^ 2 <= U64MAX)%N -> add_square s w1 w2 = Some (s + (N.max w1 w2 - N.min w1 w2) ^ 2)%N.
Proof. intros H. unfold add_square. rewrite N.pow_2_r in *. rewrite (proj2 (N.leb_le _ _) H). reflexivity. Qed.

Definition tmeas (t : entry * tpc) : nat := match snd t with InLoop => (m - ec (fst t)) + 3 | BeforeMin => 2 | BeforePush => 1 end.

Lemma task_ok mk gs t : MI gs -> VE gs (fst t) -> exists mk' o, task_step metrics m gs mk t = Some (mk', o) /\ (mk' <= mk)%N /\
  match o with
  | inl t' => VE gs (fst t') /\ epair (fst t') = epair (fst t) /\ tmeas t' < tmeas t /\ (TI mk t -> TI mk' t') /\
      snd t <> BeforePush /\ (mk' = mk \/ (es (fst t') = mk' /\ m <= ec (fst t') /\ snd t' = BeforePush))
  | inr e => e = fst t /\ mk' = mk /\ snd t = BeforePush
  end.
Proof.
  intros HM HV. destruct t as [[[[s c] i] j] pc]. cbn [fst] in HV. destruct HV as (HP & Hc & Es). unfold task_step. destruct pc.
  - destruct (Nat.ltb_spec c m) as [Hlt|Hge].
    + destruct (N.ltb_spec mk s) as [Hs|Hs].
      * exists mk, (inl ((s, c, i, j), BeforeMin)). split; auto. split; [lia|]. cbn. repeat split; auto; try lia; try congruence; apply HP.
      * destruct HP as (Hij & Hi & Hj). pose proof (MI_grp gs i HM Hi) as Gi. pose proof (MI_grp gs j HM Hj) as Gj.
        rewrite (nth_error_nth' gs [] (nth_In' _ _ Hi)). cbn [bind]. rewrite group_weight_ok by auto. cbn [bind].
        rewrite (nth_error_nth' gs [] (nth_In' _ _ Hj)). cbn [bind]. rewrite group_weight_ok by auto. cbn [bind].
        pose proof (gd_u64 (nth i gs []) (nth j gs []) (S c) Gi Gj ltac:(lia)) as HU. cbn [gdist] in HU. rewrite <- Es in HU.
        rewrite add_square_ok by exact HU. cbn [bind]. eexists mk, (inl _). split; [reflexivity|]. split; [lia|]. cbn [fst snd VE epair tmeas ec TI es].
        repeat split; auto; try lia; try congruence. cbn [gdist]. rewrite <- Es. reflexivity. 
    + exists mk, (inl ((s, c, i, j), BeforeMin)). split; auto. split; [lia|]. cbn. repeat split; auto; try lia; try congruence; apply HP.
  - destruct (Nat.leb_spec m c) as [Hle|Hgt].
    + exists (N.min mk s), (inl ((s, c, i, j), BeforePush)). split; auto. split; [lia|]. cbn. repeat split; auto; try lia; try congruence; try apply HP.
      destruct (N.min_spec mk s) as [[_ ->]|[_ ->]]; auto.
    + exists mk, (inl ((s, c, i, j), BeforePush)). split; auto. split; [lia|]. cbn. repeat split; auto; try lia; try congruence; apply HP.
  - exists mk, (inr (s, c, i, j)). split; auto. split; [lia|]. auto.
Qed.

Lemma SI_step mk q l1 t l2 gs mk' t' : MI gs -> SI mk q (l1 ++ t :: l2) gs -> task_step metrics m gs mk t = Some (mk', inl t') ->
  SI mk' q (l1 ++ t' :: l2) gs.
Proof.
  intros HM (HS & HV & HT & HC & HQ & HI & HK) E. pose proof (proj1 (Forall_forall _ _) HT t ltac:(apply in_or_app; right; left; auto)) as Vt. cbn in Vt.
  destruct (task_ok mk gs t HM Vt) as (mk1 & o & E1 & Hle & Ho). rewrite E in E1. injection E1 as <- <-. destruct Ho as (V' & P' & _ & T' & Hpc & Hmk).
  apply Forall_app in HT. destruct HT as (HT1 & HT2). inversion HT2; subst. apply Forall_app in HI. destruct HI as (HI1 & HI2). inversion HI2; subst.
  assert (HTI : forall x, TI mk x -> TI mk' x). { intros x. unfold TI. destruct (snd x); auto; intros Hx Hlt; specialize (Hx Hlt); lia. }
  split; [auto|]. split; [auto|]. split; [|split; [|split; [|split]]].
  - apply Forall_app; split; auto.
  - intros a b Hab. destruct (HC a b Hab) as (e & [He|(pc & He)] & Ee); [exists e; auto|]. apply in_app_or in He. destruct He as [He|[He|He]].
    + exists e. split; auto. right. exists pc. apply in_or_app; auto.
    + exists (fst t'). split. { right. exists (snd t'). apply in_or_app. right; left. destruct t'; auto. } rewrite P', He. auto.
    + exists e. split; auto. right. exists pc. apply in_or_app; right; right; auto.
  - intros e He Hlt. specialize (HQ e He Hlt). lia.
  - apply Forall_app; split; [eapply Forall_impl; [apply HTI|]; auto|]. constructor; auto. eapply Forall_impl; [apply HTI|]; auto.
  - destruct Hmk as [->|(A & B & C)].
    + destruct HK as [HK|(e & A & B & [C|C])]; auto; right; exists e; repeat split; auto. right. apply in_app_or in C. apply in_or_app.
      destruct C as [C|[C|C]]; auto; [|right; right; auto]. subst t. cbn in Hpc. congruence.
    + right. exists (fst t'). repeat split; auto. right. apply in_or_app. right; left. destruct t'; cbn in *; congruence.
Qed.
Lemma SI_push mk q l1 t l2 gs mk' e : MI gs -> SI mk q (l1 ++ t :: l2) gs -> task_step metrics m gs mk t = Some (mk', inr e) ->
  SI mk' (push e q) (l1 ++ l2) gs.
Proof.
  intros HM (HS & HV & HT & HC & HQ & HI & HK) E. pose proof (proj1 (Forall_forall _ _) HT t ltac:(apply in_or_app; right; left; auto)) as Vt. cbn in Vt.
  destruct (task_ok mk gs t HM Vt) as (mk1 & o & E1 & Hle & Ho). rewrite E in E1. injection E1 as <- <-. destruct Ho as (-> & -> & Hpc).
  apply Forall_app in HT. destruct HT as (HT1 & HT2). inversion HT2; subst. apply Forall_app in HI. destruct HI as (HI1 & HI2). inversion HI2; subst.
  split; [apply push_sorted; auto|]. split; [|split; [|split; [|split; [|split]]]].
  - apply Forall_forall. intros x Hx. apply push_In in Hx. destruct Hx as [->|Hx]; auto. rewrite Forall_forall in HV. auto.
  - apply Forall_app; split; auto.
  - intros a b Hab. destruct (HC a b Hab) as (x & [Hx|(pc & Hx)] & Ex); [exists x; split; auto; left; apply push_In; auto|]. apply in_app_or in Hx. destruct Hx as [Hx|[Hx|Hx]].
    + exists x. split; auto. right. exists pc. apply in_or_app; auto.
    + exists x. split; auto. left. apply push_In. left. subst t; auto.
    + exists x. split; auto. right. exists pc. apply in_or_app; auto.
  - intros x Hx Hlt. apply push_In in Hx. destruct Hx as [->|Hx]; auto. unfold TI in H3. rewrite Hpc in H3. auto.
  - apply Forall_app; split; auto.
  - destruct HK as [HK|(x & A & B & [C|C])]; auto; right; exists x; repeat split; auto. { left. apply push_In. auto. }
    apply in_app_or in C. destruct C as [C|[C|C]]; [right; apply in_or_app; auto| |right; apply in_or_app; auto]. left. apply push_In. left. subst t; auto.
Qed.

(** ** All states of merge *)
Context (target : nat).
Definition GI (gs : list (list nat)) (r : nat) : Prop :=
  MI gs /\ r = nlive gs /\ Permutation (concat gs) (seq 0 k) /\ 1 <= r <= k /\ Nat.max (Nat.min target k) 1 <= r /\ greedy metrics m (k - r) (singletons k) gs.
Definition J (s : mstate) : Prop :=
  match s with
  | Main q gs r => GI gs r /\ QI gs q
  | Scope mk q tasks gs r => GI gs r /\ SI mk q tasks gs /\ target < r
  | Ret res => exists gs, GI gs (Nat.max (Nat.min target k) 1) /\ res = nonempty gs
  | Panic => False
  end.

Lemma greedy_snoc t gs gs' i j : greedy metrics m t gs gs' -> closest metrics m gs' i j -> greedy metrics m (S t) gs (joined gs' i j).
Proof. induction 1 as [gs|t gs a b gs' HC HG IH]; intros H; econstructor; eauto. constructor. Qed.

Lemma main_J q gs r : J (Main q gs r) -> J (main_step m target q gs r).
Proof.
  intros [HG HQ]. unfold main_step. destruct HG as (HM & Er & HP & Hr & HT & HGr). destruct (Nat.leb_spec r target) as [Hle|Hgt].
  { exists gs. split; [|reflexivity]. assert (E : Nat.max (Nat.min target k) 1 = r) by lia. rewrite E. repeat split; auto; try lia; apply HM. }
  destruct q as [|[[[s c] i] j] q].
  { exists gs. split; [|reflexivity]. assert (Hr1 : r <= 1). { destruct (le_lt_dec r 1); auto. destruct (nlive_pair gs ltac:(lia)) as (i & j & H). destruct HQ as (_ & _ & HC). destruct (HC i j H) as (e & [] & _). }
    assert (E : Nat.max (Nat.min target k) 1 = r) by lia. rewrite E. repeat split; auto; try lia; apply HM. }
  destruct (Nat.leb_spec m c) as [Hc|Hc].
  - assert (HL : live_pair gs i j). { destruct HQ as (_ & HV & _). inversion HV; subst. apply H1. }
    destruct (join_ok gs (s, c, i, j) i j q HM HQ HL eq_refl) as (q' & -> & HQ' & HM'). split; auto.
    pose proof (joined_nlive gs i j HL) as HN. pose proof (live_nlive gs i j HL) as H2.
    assert (Li : i < length gs) by (apply nth_In'; apply HL). assert (Lj : j < length gs) by (apply nth_In'; apply HL).
    split; [auto|]. split; [lia|]. split. { rewrite joined_perm; auto. destruct HL; lia. } split; [lia|]. split; [lia|].
    replace (k - (r - 1)) with (S (k - r)) by lia. apply greedy_snoc; auto. eapply top_closest; eauto.
  - match goal with |- context [take_unfinished m ?Q] => destruct (take_unfinished m Q) as [[mk todo] rest] eqn:E end. split. { repeat split; auto; try lia; apply HM. }
    split; auto. eapply take_SI; eauto.
Qed.
Lemma J_step s s' : J s -> mstep metrics m target s s' -> J s'.
Proof.
  intros HJ HS. destruct HS.
  - apply main_J; auto.
  - destruct HJ as (HG & HI & Ht). split; auto. split; auto. eapply SI_step; eauto. apply HG.
  - destruct HJ as (HG & HI & Ht). split; auto. split; auto. eapply SI_push; eauto. apply HG.
  - destruct HJ as (HG & HI & Ht). destruct HI as (_ & _ & HT & _). apply Forall_app in HT. destruct HT as (_ & HT). inversion HT; subst.
    destruct (task_ok mk merged t (proj1 HG) H2) as (mk1 & o & E1 & _). congruence.
  - destruct HJ as (HG & HI & Ht). split; auto. apply (scope_end mk q merged); auto. apply HG.
Qed.
Lemma J_steps s s' : msteps metrics m target s s' -> J s -> J s'.
Proof. induction 1; intros HJ; auto. apply IHmsteps. eapply J_step; eauto. Qed.
Lemma J_progress s : J s -> (exists res, s = Ret res) \/ exists s', mstep metrics m target s s'.
Proof.
  destruct s as [q gs r|mk q tasks gs r|res|]; intros HJ; [right; eexists; constructor| |left; eauto|destruct HJ].
  right. destruct tasks as [|t l]; [eexists; constructor|]. destruct (task_step metrics m gs mk t) as [[mk' [t'|e]]|] eqn:E.
  - eexists. apply (st_task metrics m target mk q [] t l). eauto.
  - eexists. apply (st_push metrics m target mk q [] t l). eauto.
  - eexists. apply (st_panic metrics m target mk q [] t l). eauto.
Qed.

(** ** Termination *)
Local Notation halts := (Acc (fun s' s => mstep metrics m target s s')).
Lemma ret_halts res : halts (Ret res).
Proof. constructor. intros s' H. inversion H. Qed.
Definition smeas (tasks : list (entry * tpc)) : nat := fold_right Nat.add 0 (map tmeas tasks).
Lemma smeas_app l1 l2 : smeas (l1 ++ l2) = smeas l1 + smeas l2.
Proof. unfold smeas. induction l1; cbn [app map fold_right]; lia. Qed.
Lemma scope_halts r : (forall q gs, J (Main q gs r) -> topfinal q -> halts (Main q gs r)) ->
  forall n mk q tasks gs, smeas tasks < n -> J (Scope mk q tasks gs r) -> halts (Scope mk q tasks gs r).
Proof.
  intros HM. induction n as [|n IH]; intros mk q tasks gs Hn HJ; [lia|]. constructor. intros s' HS. pose proof (J_step _ _ HJ HS) as HJ'. inversion HS; subst.
  - destruct HJ as (HG & HI & Ht). destruct HI as (_ & _ & HT & _). apply Forall_app in HT. destruct HT as (_ & HT). inversion HT; subst.
    destruct (task_ok mk gs t (proj1 HG) H1) as (mk1 & o & E1 & _ & Ho). rewrite H5 in E1. injection E1 as <- <-. destruct Ho as (_ & _ & Hlt & _).
    apply IH; auto. rewrite smeas_app in *. unfold smeas in *. cbn [map fold_right] in *. lia.
  - apply IH; auto. rewrite smeas_app in *. unfold smeas in *. cbn [map fold_right] in *. 
    assert (1 <= tmeas t) by (unfold tmeas; destruct (snd t); lia). lia.
  - destruct HJ'.
  - apply HM; auto. destruct HJ as (HG & HI & _). apply (scope_end mk q gs); auto. apply HG.
Qed.
Lemma main_halts : forall r q gs, J (Main q gs r) -> halts (Main q gs r).
Proof.
  intros r. induction r as [r IH] using lt_wf_ind.
  assert (HF : forall q gs, J (Main q gs r) -> topfinal q -> halts (Main q gs r)).
  { intros q gs HJ HT. constructor. intros s' HS. pose proof (J_step _ _ HJ HS) as HJ'. inversion HS; subst. revert HJ'. unfold main_step.
    destruct (r <=? target); [intros; apply ret_halts|]. destruct q as [|[[[s c] i] j] q]; [intros; apply ret_halts|].
    destruct (Nat.leb_spec m c) as [Hc|Hc]; [|cbn in HT; lia]. destruct (join i j q gs) as [[q' gs']|]; [|intros []].
    intros HJ'. apply IH; auto. destruct HJ as ((_ & _ & _ & Hr & _) & _). lia. }
  intros q gs HJ. constructor. intros s' HS. pose proof (J_step _ _ HJ HS) as HJ'. inversion HS; subst. revert HJ'. unfold main_step.
  destruct (r <=? target); [intros; apply ret_halts|]. destruct q as [|[[[s c] i] j] q]; [intros; apply ret_halts|].
  destruct (Nat.leb_spec m c) as [Hc|Hc].
  - destruct (join i j q gs) as [[q' gs']|]; [|intros []]. intros HJ'. apply IH; auto. destruct HJ as ((_ & _ & _ & Hr & _) & _). lia.
  - match goal with |- context [take_unfinished m ?Q] => destruct (take_unfinished m Q) as [[mk todo] rest] end. intros HJ'. eapply scope_halts; eauto.
Qed.

(** ** The start *)
Lemma init_queue_In e : In e (init_queue k) <-> exists i j, i < j < k /\ e = (0%N, 0, i, j).
Proof.
  unfold init_queue. assert (H : forall ps q, In e (fold_left (fun q p => push (0%N, 0, fst p, snd p) q) ps q) <-> In e q \/ exists p, In p ps /\ e = (0%N, 0, fst p, snd p)).
  { induction ps as [|p ps IH]; intros q; cbn [fold_left]. { split; auto. intros [H|(p & [] & _)]; auto. } rewrite IH, push_In. split.
    - intros [[H|H]|(p' & H & R)]; auto; right; [exists p|exists p']; cbn; auto.
    - intros [H|(p' & [<-|H] & R)]; auto. right. exists p'; auto. }
  rewrite H. split.
  - intros [[]|(p & Hp & ->)]. apply in_flat_map in Hp. destruct Hp as (i & Hi & Hp). apply in_map_iff in Hp. destruct Hp as (j & <- & Hj).
    apply filter_In in Hj. destruct Hj as (Hj & Hl). apply in_seq in Hi, Hj. exists i, j. split; auto. lia.
  - intros (i & j & Hij & ->). right. exists (i, j). split; auto. apply in_flat_map. exists i. split. { apply in_seq. lia. }
    apply in_map_iff. exists j. split; auto. apply filter_In. split; [apply in_seq; lia|]. lia.
Qed.
Lemma init_queue_sorted : qsorted (init_queue k).
Proof.
  unfold init_queue. assert (H : forall ps q, qsorted q -> qsorted (fold_left (fun q p => push (0%N, 0, fst p, snd p) q) ps q)).
  { induction ps as [|p ps IH]; intros q Hq; cbn [fold_left]; auto. apply IH. apply push_sorted; auto. }
  apply H. constructor.
Qed.
Lemma singletons_nth i : i < k -> nth i (singletons k) [] = [i].
Proof. intros H. unfold singletons. rewrite (nth_indep _ [] ((fun a => [a]) 0)) by (rewrite map_length, seq_length; auto). rewrite (map_nth (fun a => [a])). rewrite seq_nth; auto. Qed.
Lemma start_J : 1 <= k -> J (Main (init_queue k) (init_merged k) k).
Proof.
  intros Hk. change (init_merged k) with (singletons k).
  assert (HL : length (singletons k) = k) by (unfold singletons; rewrite map_length, seq_length; auto).
  assert (HP : forall i j, live_pair (singletons k) i j <-> i < j < k).
  { intros i j. split.
    - intros (A & B & C). apply nth_In' in C. lia.
    - intros H. split; [lia|]. rewrite !singletons_nth by lia. split; congruence. }
  split.
  - split; [split; auto|].
    { unfold singletons. apply Forall_map. apply Forall_forall. intros a Ha. apply in_seq in Ha. constructor; auto. lia. }
    split. { unfold nlive, nonempty, singletons. clear. generalize 0. induction k as [|n IH]; intros a; cbn [seq map filter length]; auto. }
    split. { unfold singletons. clear. generalize 0. induction k as [|n IH]; intros a; cbn [seq map concat app]; auto. }
    split; [lia|]. split; [lia|]. rewrite Nat.sub_diag. constructor.
  - split; [apply init_queue_sorted|]. split.
    + apply Forall_forall. intros e He. apply init_queue_In in He. destruct He as (i & j & Hij & ->). split; [apply HP; auto|]. split; [lia|reflexivity].
    + intros i j H. apply HP in H. exists (0%N, 0, i, j). split; auto. apply init_queue_In. eauto.
Qed.

Lemma closest_det gs i j a b : closest metrics m gs i j -> closest metrics m gs a b -> i = a /\ j = b.
Proof. intros [H1 H2] [H3 H4]. specialize (H2 a b H3). specialize (H4 i j H1). cbv zeta in *. lia. Qed.
Lemma greedy_det t gs g1 g2 : greedy metrics m t gs g1 -> greedy metrics m t gs g2 -> g1 = g2.
Proof.
  intros H. revert g2. induction H as [gs|t gs i j gs' HC HG IH]; intros g2 H2; inversion H2; subst; auto.
  destruct (closest_det _ _ _ _ _ HC H0) as [<- <-]. auto.
Qed.
End M.
