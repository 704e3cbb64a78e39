(** MinimalNonShortestSubPaths on path unpacking potentials: the search in rank space, histories. *)
From Coq Require Import Permutation Sorting.Sorted.
From Verif Require Import Base BitVec SpecGraph LoopProof GraphProof Graph GraphSpecProof PLF CCHContractProof CCHMetricProof PropsBidir SpecUBS UBS UBSFilterProof UBSScanProof UBSTreeProof UBSProof PathPot SpecPathPot PathPotProof PathPotView.

Section Gen.
  Variable arc : nat -> nat -> N -> Prop.
  Variable path : list nat.
  Variable dists : list N.
  Hypothesis Hs : sums arc path dists.
  Notation X i := (nth i path 0).
  Notation dd i := (nth i dists 0%N).
  Lemma sums_walk i j : i <= j -> j < length path -> walk arc (X i) (X j) (dd j - dd i)%N.
  Proof.
    intros Hij Hj. destruct Hs as (L & Z & S1). remember (j - i) as k. revert i Hij Heqk. induction k as [|k IH]; intros i Hij Hk.
    - assert (i = j) by lia. subst. rewrite N.sub_diag. constructor.
    - destruct (S1 i ltac:(lia)) as (w & [HA _] & E). specialize (IH (S i) ltac:(lia) ltac:(lia)). destruct (sums_plen arc path dists (S i) j Hs ltac:(lia)).
      replace (dd j - dd i)%N with (w + (dd j - dd (S i)))%N by lia. econstructor; eauto.
  Qed.
  Lemma bad_violates_gen thr r : bad arc path dists (fun y d => (thr d <? y - d)%N) r <-> violates arc thr path r.
  Proof.
    destruct r as [a b]. unfold bad, violates. cbn [fst snd]. split.
    - intros (Hab & d & Hd & Ht). split; [lia|]. exists (X a), (X b), (dd b - dd a)%N, d. split; [apply nth_error_nth'; lia|]. split; [apply nth_error_nth'; lia|].
      split. { apply (sums_plen arc path dists a b Hs). lia. } split; auto. apply N.ltb_lt in Ht. lia.
    - intros (Hab & u & v & y & d & Ha & Hb & P & Hd & Ht). pose proof (nth_error_Some_lt _ _ _ Hb). split; [lia|]. exists d. rewrite (nth_error_nth _ _ 0 Ha), (nth_error_nth _ _ 0 Hb). split; auto.
      destruct (sums_plen arc path dists a b Hs ltac:(lia)) as [P' _]. rewrite (plen_det _ _ _ P _ P') in Ht. apply N.ltb_lt. lia.
  Qed.
End Gen.
(** the filter turns reported ranges into the minimal ones *)
Lemma filter_minimal (R : prange -> Prop) sort evs : cmp_sort rg_ltb sort -> (forall r, R r -> fst r < snd r) -> (forall r, In r evs -> R r) ->
  (forall r, inclusion_minimal R r -> In r evs) -> exists out, filter_covered sort evs = Some out /\ lists_minimal R out.
Proof.
  intros Hsort HR F5 F6. destruct (filter_covered_ok sort evs Hsort) as (out & Eo & So & Mo). { intros r Hr. specialize (HR _ (F5 r Hr)). lia. }
  exists out. split; auto. split; auto. intros r. rewrite Mo. split; intros [A B].
  - split; auto. intros r' Hr' H1 H2.
    assert (Hmin : forall k q, snd q - fst q <= k -> R q -> ~ ~ exists q', inclusion_minimal R q' /\ fst q <= fst q' /\ snd q' <= snd q).
    { clear - HR. induction k as [|k IH]; intros q Hk Hq. { apply HR in Hq. lia. } intros NE. apply NE. exists q. split; [|lia]. split; auto. intros q' Hq' H1 H2.
      pose proof (HR _ Hq). pose proof (HR _ Hq').
      destruct (Nat.eq_dec (snd q' - fst q') (snd q - fst q)) as [E|Hne]. { destruct q, q'; cbn in *. f_equal; lia. }
      exfalso. apply (IH q'); auto. { lia. } intros (z & Z1 & Z2 & Z3). apply NE. exists z. split; auto. lia. }
    destruct (Nat.eq_dec (fst r') (fst r)) as [E1|E1]; [destruct (Nat.eq_dec (snd r') (snd r)) as [E2|E2]; [destruct r, r'; cbn in *; congruence|]|];
      exfalso; apply (Hmin _ r' (le_n _) Hr'); intros (q & Hq & Q1 & Q2); assert (q = r) by (apply B; [apply F6; auto|lia|lia]); subst q; lia.
  - split; [apply F6; split; auto|]. intros r' Hr'. apply B. auto.
Qed.

(** ** Nodes and ranks *)
Section Ranks.
  Variable madj : list (list (nat * N)).
  Variables order rks : list nat.
  Notation n := (length madj).
  Notation arc := (adj_arc madj).
  Notation M := (rank_arc order arc).
  Hypothesis HV : valid_adj madj.
  Hypothesis HO : node_order n order rks.
  Definition same (x u : nat) : Prop := nth_error order x = Some u.
  Lemma same_inj x u v : same x u -> same x v -> u = v.
  Proof. unfold same. congruence. Qed.
  Lemma same_inj' x y u : same x u -> same y u -> x = y.
  Proof. unfold same. destruct HO as (_ & _ & O1 & _). intros A B. apply O1 in A, B. congruence. Qed.
  Lemma same_lt x u : same x u -> x < n /\ u < n.
  Proof. unfold same. destruct HO as (L1 & L2 & O1 & _). intros A. split. { apply nth_error_Some_lt in A. lia. } apply O1 in A. apply nth_error_Some_lt in A. lia. Qed.
  Lemma same_ex u : u < n -> exists x, nth_error rks u = Some x /\ same x u.
  Proof. destruct HO as (L1 & L2 & _ & O2). intros H. destruct (nth_error_lt rks u ltac:(lia)) as (x & E). exists x. split; auto. apply O2. auto. Qed.
  Lemma arc_same x y u v w : same x u -> same y v -> M x y w <-> arc u v w.
  Proof. intros A B. split. { intros (u' & v' & A' & B' & H). rewrite (same_inj _ _ _ A A'), (same_inj _ _ _ B B'). auto. } intros H. exists u, v. auto. Qed.
  Lemma cheapest_same x y u v w : same x u -> same y v -> cheapest M x y w <-> cheapest arc u v w.
  Proof. intros A B. unfold cheapest. rewrite (arc_same _ _ _ _ _ A B). split; intros [H1 H2]; split; auto; intros w' H; apply H2; apply (arc_same _ _ _ _ _ A B); auto. Qed.
  Lemma walk_same x y u v l : same x u -> same y v -> walk M x y l <-> walk arc u v l.
  Proof.
    intros Eu Ev. split.
    - intros W. revert u Eu. induction W as [x|x z y w l Ha Hw IH]; intros u Eu.
      + rewrite (same_inj _ _ _ Eu Ev). constructor.
      + destruct Ha as (u' & q & E1 & E2 & Ha). rewrite (same_inj _ _ _ E1 Eu) in Ha. econstructor; eauto.
    - intros W. revert x Eu. induction W as [u|u q v w l Ha Hw IH]; intros x Eu.
      + rewrite (same_inj' _ _ _ Eu Ev). constructor.
      + assert (Lq : q < n). { unfold adj_arc in Ha. eapply HV; [|exact Ha]. eapply in_nth_list; eauto. }
        destruct (same_ex q Lq) as (z & _ & Ez). econstructor; [apply (arc_same _ _ _ _ _ Eu Ez); eauto|]. apply IH; auto.
  Qed.
  Lemma is_dist_same x y u v d : same x u -> same y v -> is_dist M x y d <-> is_dist arc u v d.
  Proof. intros A B. unfold is_dist. rewrite (walk_same _ _ _ _ _ A B). split; intros [H1 H2]; split; auto; intros w' H; apply H2; apply (walk_same _ _ _ _ _ A B); auto. Qed.

  Notation sp := (Forall2 same).
  Lemma sp_ex orig : Forall (fun v => v < n) orig -> exists path, mapM (nth_error rks) orig = Some path /\ sp path orig.
  Proof.
    induction 1 as [|u orig Hu _ (path & E & S)]; cbn [mapM]. { exists []. auto. } destruct (same_ex u Hu) as (x & Ex & Sx). rewrite Ex. cbn [bind]. rewrite E. cbn [bind]. eexists. split; [reflexivity|]. constructor; auto.
  Qed.
  Lemma sp_len path orig : sp path orig -> length path = length orig.
  Proof. induction 1; cbn; auto. Qed.
  Lemma sp_at path orig i : sp path orig -> nth_error path i = None /\ nth_error orig i = None \/ exists x u, nth_error path i = Some x /\ nth_error orig i = Some u /\ same x u.
  Proof. intros S. revert i. induction S as [|x u p o Sx S IH]; intros [|i]; cbn; auto. right. eauto. Qed.
  Lemma sp_nth path orig i : sp path orig -> i < length path -> same (nth i path 0) (nth i orig 0).
  Proof. intros S Hi. destruct (sp_at _ _ i S) as [[E _]|(x & u & E1 & E2 & H)]. { apply nth_error_None in E. lia. } rewrite (nth_error_nth _ _ 0 E1), (nth_error_nth _ _ 0 E2). auto. Qed.
  Lemma sp_lt path orig : sp path orig -> Forall (fun v => v < n) path.
  Proof. induction 1 as [|x u p o Sx S IH]; constructor; auto. apply (same_lt _ _ Sx). Qed.
  Lemma sp_plen path orig y : sp path orig -> plen M path y <-> plen arc orig y.
  Proof.
    intros S. split; intros P.
    - revert orig S. induction P as [x|x z p w y H P IH]; intros orig S.
      + inversion S as [|? u ? o Sx So]; subst. inversion So; subst. constructor.
      + inversion S as [|? u ? o Sx So]; subst. inversion So as [|? v ? o' Sz So']; subst. constructor; [apply (cheapest_same _ _ _ _ _ Sx Sz); auto|auto].
    - revert path S. induction P as [x|x z p w y H P IH]; intros path S.
      + inversion S as [|u ? o ? Sx So]; subst. inversion So; subst. constructor.
      + inversion S as [|u ? o ? Sx So]; subst. inversion So as [|v ? o' ? Sz So']; subst. constructor; [apply (cheapest_same _ _ _ _ _ Sx Sz); auto|auto].
  Qed.
  Lemma sp_skipn path orig k : sp path orig -> sp (skipn k path) (skipn k orig).
  Proof. intros S. revert k. induction S as [|x u p o Sx S IH]; intros [|k]; cbn; auto. Qed.
  Lemma sp_firstn path orig k : sp path orig -> sp (firstn k path) (firstn k orig).
  Proof. intros S. revert k. induction S as [|x u p o Sx S IH]; intros [|k]; cbn; auto. Qed.
  Lemma sp_violates path orig thr r : sp path orig -> violates M thr path r <-> violates arc thr orig r.
  Proof.
    intros S. pose proof (fun y => sp_plen _ _ y (sp_firstn _ _ (snd r - fst r + 1) (sp_skipn _ _ (fst r) S))) as P. unfold violates, subpath. split; intros (H & u & v & y & d & H1 & H2 & H3 & H4 & H5); (split; [auto|]).
    - destruct (sp_at _ _ (fst r) S) as [[E _]|(x1 & u1 & E1 & F1 & S1)]; [congruence|]. destruct (sp_at _ _ (snd r) S) as [[E _]|(x2 & u2 & E2 & F2 & S2)]; [congruence|].
      rewrite E1 in H1. rewrite E2 in H2. injection H1 as ->. injection H2 as ->. exists u1, u2, y, d. split; auto. split; auto. split; [apply P; auto|]. split; auto. apply (is_dist_same _ _ _ _ _ S1 S2). auto.
    - destruct (sp_at _ _ (fst r) S) as [[_ E]|(x1 & u1 & E1 & F1 & S1)]; [congruence|]. destruct (sp_at _ _ (snd r) S) as [[_ E]|(x2 & u2 & E2 & F2 & S2)]; [congruence|].
      rewrite F1 in H1. rewrite F2 in H2. injection H1 as ->. injection H2 as ->. exists x1, x2, y, d. split; auto. split; auto. split; [apply P; auto|]. split; auto. apply (is_dist_same _ _ _ _ _ S1 S2). auto.
  Qed.
  Lemma sp_eq path orig i j : sp path orig -> nth_error path i = nth_error path j <-> nth_error orig i = nth_error orig j.
  Proof.
    intros S. destruct (sp_at _ _ i S) as [[E1 F1]|(x1 & u1 & E1 & F1 & S1)], (sp_at _ _ j S) as [[E2 F2]|(x2 & u2 & E2 & F2 & S2)]; rewrite E1, E2, F1, F2; split; intros H; try discriminate; auto; injection H as ->; f_equal.
    - apply (same_inj x2); auto.
    - apply (same_inj' _ _ u2); auto.
  Qed.
  Lemma sp_nodup path orig : sp path orig -> NoDup path <-> NoDup orig.
  Proof.
    intros S. pose proof (sp_len _ _ S) as L. rewrite !NoDup_nth_error. split; intros H i j Hi E; apply H; try lia; apply (sp_eq _ _ _ _ S); auto.
  Qed.
  Lemma sp_revisit path orig r : sp path orig -> revisit path r <-> revisit orig r.
  Proof.
    intros S. unfold revisit. split; intros (H & v & H1 & H2 & H3); (split; [auto|]).
    - destruct (sp_at _ _ (fst r) S) as [[E _]|(x & u & E & F & _)]; [congruence|]. exists u. split; auto. split. { rewrite <- F. apply (sp_eq _ _ _ _ S). congruence. }
      intros i Hi Q. apply (H3 i Hi). rewrite <- H1. apply (sp_eq _ _ _ _ S). congruence.
    - destruct (sp_at _ _ (fst r) S) as [[_ E]|(x & u & E & F & _)]; [congruence|]. exists x. split; auto. split. { rewrite <- E. apply (sp_eq _ _ _ _ S). congruence. }
      intros i Hi Q. apply (H3 i Hi). rewrite <- H1. apply (sp_eq _ _ _ _ S). congruence.
  Qed.
  Lemma sp_sums path orig dists : sp path orig -> sums arc orig dists -> sums M path dists.
  Proof.
    intros S (L & Z & H). pose proof (sp_len _ _ S) as E. split; [lia|]. split; auto. intros i Hi. destruct (H i ltac:(lia)) as (w & H1 & H2). exists w. split; auto.
    apply (cheapest_same _ _ _ _ _ (sp_nth _ _ i S ltac:(lia)) (sp_nth _ _ (Datatypes.S i) S Hi)). auto.
  Qed.
End Ranks.

Section Search.
  Variable adj : list (list (nat * N)).
  Variable madj : list (list (nat * N)).
  Variables order rks : list nat.
  Variable g : fograph N.
  Notation n := (length adj).
  Notation arc := (adj_arc madj).
  Notation M := (rank_arc order arc).
  Hypothesis Ln : length madj = n.
  Hypothesis HV : valid_adj madj.
  Hypothesis HF : fits_u32 madj.
  Hypothesis HW : forall l v w, In l madj -> In (v, w) l -> (w <= INF)%N.
  Hypothesis Hg : from_adjacency_lists madj = Some g.
  Hypothesis HO : node_order (length madj) order rks.
  Hypothesis Hpos : positive madj.
  Variable dbg : bool.
  Variables It Is : ppot -> Prop.
  Hypothesis HTt : tree_for adj dbg M It.
  Hypothesis HTs : tree_for adj dbg (flip_arc M) Is.

  Lemma tree_contract_of (A : nat -> nat -> N -> Prop) I path pr rootof : tree_for adj dbg A I -> (forall v, In v path -> v < n) ->
    (forall lo m, lo + m < length path -> lo <= rootof lo m <= lo + m) ->
    (forall lo m i, lo + m < length path -> lo <= i <= lo + m -> exists l, walk A (nth i path 0) (nth (rootof lo m) path 0) l /\ (l < INF)%N) ->
    tree_contract n path pr A I (fun _ p root _ => pp_init p root) pp_dist (pp_path dbg) pp_pred rootof.
  Proof.
    intros HT Hn Hroot Hreach. constructor. intros lo m p Hl Hp. pose proof (Hroot lo m Hl). set (r := rootof lo m) in *.
    destruct (HT (nth r path 0) p (Hn _ (nth_In path 0 (Nat.le_lt_trans r (lo + m) _ (proj2 H) Hl))) Hp) as (p' & D & K & E & HK & KI & H1). exists p', D, K, gpp. split; auto. split; auto. split; auto. split. { intros t v u _. apply gpp_pred. }
    assert (G : forall q q' : ppot, (forall v u, gpp q v = Some u -> gpp q' v = Some u) -> tgrow n A (nth r path 0) D (gpp q) (gpp q')).
    { intros q q' Hq v l Hvl. induction Hvl as [Hr|v u w l Hv Hvn HP Ha HD Hl' IH]; [constructor; auto|]. econstructor; eauto. }
    assert (H2 : forall i, lo <= i <= lo + m -> nth i path 0 < n) by (intros i Hi; apply Hn; apply nth_In; lia).
    split; [|split].
    - intros i Hi. destruct (Hreach lo m i Hl Hi) as (l & W & L). apply (H1 _ l); auto.
    - intros t i Ht Hi. destruct (Hreach lo m i Hl Hi) as (l & W & L). destruct (H1 _ l (H2 i Hi) W L) as (_ & H3 & _). destruct (H3 t Ht) as (t' & E1 & K1 & X). exists t'. auto.
    - intros t i Ht Hi. destruct (Hreach lo m i Hl Hi) as (l & W & L). destruct (H1 _ l (H2 i Hi) W L) as (_ & _ & H3). destruct (H3 t Ht) as (t' & q & E1 & K1 & X & T). exists t', q. auto.
  Qed.

  Lemma cch_tree_ok path dists pr x : (x < INF)%N -> sums M path dists -> nth (length path - 1) dists 0%N = x -> Forall (fun v => v < n) path ->
    (forall i, i < length path -> nth_error pr (nth i path 0) = Some (Some i)) -> length pr = n -> (forall v, v < n -> ~ In v path -> nth_error pr v = Some None) ->
    forall V (found : V -> prange -> N -> N -> option (V * bool)) (test : N -> N -> bool) (upd : V -> prange -> N -> V),
    (forall v a b d, a < b < length path -> is_dist M (nth a path 0) (nth b path 0) d -> (d < nth b dists 0 - nth a dists 0)%N ->
      found v (a, b) (nth b dists 0 - nth a dists 0)%N d = Some (if test (nth b dists 0 - nth a dists 0)%N d then (upd v (a, b) (nth b dists 0 - nth a dists 0)%N, true) else (v, false))) ->
    (forall y, test y y = false) -> (forall y d k, (k <= d)%N -> (d < y)%N -> test y d = true -> test (y - k)%N (d - k)%N = true) ->
    forall t s cache v, It t -> Is s -> length cache = n -> all_none cache = true ->
    exists t' s' cache' evs, cch_tree dbg found n path dists pr t s cache v = Some (t', s', cache', fold_left (fun v r => upd v r (nth (snd r) dists 0 - nth (fst r) dists 0)%N) evs v) /\
      It t' /\ Is s' /\ length cache' = n /\ all_none cache' = true /\ Forall (bad M path dists test) evs /\ forall r, inclusion_minimal (bad M path dists test) r -> In r evs.
  Proof.
    intros Hx Hs Hlast Hpn Hpr Hpl Hpo V found test upd Hfound T1 T2 t s cache v Ht Hss Lc Nc. unfold cch_tree. rewrite Forall_forall in Hpn.
    assert (Hlt : forall i j, i <= j -> j < length path -> (nth j dists 0 - nth i dists 0 < INF)%N).
    { intros i j Hij Hj. destruct (sums_plen M path dists j (length path - 1) Hs ltac:(lia)). lia. }
    apply (tree_find_ok dbg n M path dists pr) with (test := test); auto.
    - intros i Hi. apply nth_error_nth'. rewrite (proj1 Hs). auto.
    - apply Hs.
    - apply tree_contract_of; auto. { cbv beta. intros; lia. } cbv beta. intros lo m i Hl Hi. eexists. split; [apply (sums_walk M path dists Hs i (lo + m)); lia|apply Hlt; lia].
    - apply tree_contract_of; auto. { intros; lia. } intros lo m i Hl Hi. eexists. split; [apply walk_flip; apply (sums_walk M path dists Hs lo i); lia|apply Hlt; lia].
  Qed.

  Variable sort : list prange -> list prange.
  Hypothesis Hsort : cmp_sort rg_ltb sort.
  Variable thr : N -> N.
  Hypothesis Hthr : forall a b, (a <= b)%N -> (thr a <= thr b)%N.

  Record CUOK (u : cubs) : Prop := { co_t : It (cu_t u); co_s : Is (cu_s u); co_cl : length (cu_cache u) = n; co_cn : all_none (cu_cache u) = true; co_rl : length (cu_ranks u) = n; co_rn : all_none (cu_ranks u) = true }.

  Lemma M_dist_pos x y d : x <> y -> is_dist M x y d -> (0 < d)%N.
  Proof.
    intros Hne [W _]. destruct W as [|x z y w l HA W]; [congruence|]. destruct HA as (u & v & _ & _ & HA). pose proof (Hpos _ _ _ (in_nth_list _ _ _ HA) HA). lia.
  Qed.
  Lemma cubs_find_simple u orig : CUOK u -> NoDup orig -> Forall (fun v => v < n) orig -> orig = [] \/ (exists x, plen arc orig x /\ (x < INF)%N) ->
    exists u' r, cubs_find dbg g rks sort thr u orig = Some (u', r) /\ CUOK u' /\ lists_minimal (violates arc thr orig) r.
  Proof.
    intros HU NDo Hon Hlen. destruct HU as [U1 U2 U3 U4 U5 U6]. unfold cubs_find.
    destruct (sp_ex madj order rks HO orig ltac:(rewrite Ln; exact Hon)) as (path & Em & SP). rewrite Em. cbn [bind].
    pose proof (sp_lt madj order rks HO _ _ SP) as Hpn. rewrite Ln in Hpn. pose proof (proj2 (sp_nodup madj order rks HO _ _ SP) NDo) as ND. pose proof (sp_len order _ _ SP) as Lp.
    unfold dassert. rewrite U6. cbn [negb]. rewrite andb_false_r.
    destruct (note_ok n path Hpn (cu_ranks u) U5 U6) as ([pr vio] & E & [N1 N2 N3 N4]). cbn [fst snd] in *. rewrite E. cbn [bind].
    assert (Ev : vio = []). { destruct vio as [|r vio]; auto. exfalso. destruct (proj1 (N3 r) (or_introl eq_refl)) as [(Hlt & v & A & B & _) _]. rewrite NoDup_nth_error in ND. assert (fst r = snd r); [|lia]. apply ND; [eapply nth_error_Some_lt; eauto|congruence]. }
    rewrite Ev. clear Ev N3 N4 E.
    assert (Hcl : forall v, cached pr v -> In v path). { intros v (i & Hi). assert (Hv : v < n) by (apply nth_error_Some_lt in Hi; lia). destruct (N2 v Hv) as [[A _]|(j & _ & A & B & _)]; [congruence|]. eapply nth_error_In; eauto. }
    destruct (clear_ok n path pr Hpn N1 Hcl) as (pr' & Ec & C1 & C2).
    assert (Hlast : exists t' s' cache' evs dists, path_dists dbg g orig = Some dists /\ cch_tree dbg (ubs_found dbg thr) (length (cu_ranks u)) path dists pr (cu_t u) (cu_s u) (cu_cache u) [] = Some (t', s', cache', evs) /\
      It t' /\ Is s' /\ length cache' = n /\ all_none cache' = true /\ (forall r, In r evs -> violates arc thr orig r) /\ (forall r, inclusion_minimal (violates arc thr orig) r -> In r evs)).
    { rewrite U5. destruct Hlen as [->|(x & P & Hx)].
      - inversion SP; subst. exists (cu_t u), (cu_s u), (cu_cache u), [], [0%N]. split; auto. split. { unfold cch_tree, tree_find, dassert. cbn. rewrite andb_false_r. reflexivity. }
        do 4 (split; [assumption|]). split; [intros r []|]. intros r [[_ (a & b & y & d & A & _)] _]. destruct (fst r); discriminate.
      - destruct (path_dists_ok madj g HV HF HW Hg dbg orig x P Hx) as (dists & Ed & Sd & Hd). pose proof (sp_sums madj order _ _ _ SP Sd) as SM. rewrite <- Lp in Hd.
        assert (Hpr : forall i, i < length path -> nth_error pr (nth i path 0) = Some (Some i)).
        { intros i Hi. pose proof (nth_error_nth' path 0 Hi) as Ei. destruct (N2 (nth i path 0)) as [[_ A]|(j & A & B & C & _)]. { rewrite Forall_forall in Hpn. apply Hpn. apply nth_In. auto. } { exfalso. apply (A i Hi Ei). }
          assert (j = i); [|subst; auto]. rewrite NoDup_nth_error in ND. apply ND; [auto|]. rewrite Ei. auto. }
        assert (Hpo : forall v, v < n -> ~ In v path -> nth_error pr v = Some None).
        { intros v Hv Hni. destruct (N2 v Hv) as [[A _]|(j & _ & _ & A & _)]; auto. exfalso. apply Hni. eapply nth_error_In; eauto. }
        assert (Hfound : forall (vv : list prange) a b d, a < b < length path -> is_dist M (nth a path 0) (nth b path 0) d -> (d < nth b dists 0 - nth a dists 0)%N ->
          ubs_found dbg thr vv (a, b) (nth b dists 0 - nth a dists 0)%N d = Some (if (thr d <? nth b dists 0 - nth a dists 0 - d)%N then (vv ++ [(a, b)], true) else (vv, false))).
        { intros vv a b d Hab Hdd Hlt. unfold ubs_found, dassert. assert (Hc : dbg && negb ((d <=? nth b dists 0 - nth a dists 0)%N && (0 <? d)%N) = false).
          { apply andb_false_iff. right. apply negb_false_iff. apply andb_true_iff. split; [apply N.leb_le; lia|]. apply N.ltb_lt. apply (M_dist_pos (nth a path 0) (nth b path 0)); auto.
            intros Eq. apply NoDup_nth in Eq; auto; lia. }
          rewrite Hc. unfold csubN. destruct (N.leb_spec d (nth b dists 0 - nth a dists 0)%N); [|lia]. cbn [bind]. auto. }
        destruct (cch_tree_ok path dists pr x Hx SM Hd Hpn Hpr N1 Hpo (list prange) (ubs_found dbg thr) (fun y d => (thr d <? y - d)%N) (fun vv r _ => vv ++ [r])) with (t := cu_t u) (s := cu_s u) (cache := cu_cache u) (v := @nil prange)
          as (t' & s' & cache' & evs & Et & R1 & R2 & R3 & R4 & R5 & R6); auto.
        + intros y. rewrite N.sub_diag. destruct (N.ltb_spec (thr y) 0); auto. lia.
        + intros y d k Hk Hy Ht. apply N.ltb_lt in Ht. apply N.ltb_lt. pose proof (Hthr (d - k) d ltac:(lia))%N. lia.
        + assert (Ef : forall evs v0, fold_left (fun (v : list prange) (r : prange) => v ++ [r]) evs v0 = v0 ++ evs).
          { clear. induction evs as [|e evs IH]; intros v0; cbn. { rewrite app_nil_r. auto. } rewrite IH, <- app_assoc. auto. }
          rewrite Ef in Et. cbn [app] in Et. exists t', s', cache', evs, dists. do 6 (split; [assumption|]).
          split.
          * intros r Hr. rewrite Forall_forall in R5. apply (sp_violates madj order rks HV HO _ _ thr r SP). apply (bad_violates_gen M path dists SM). auto.
          * intros r Hr. apply R6. revert Hr. apply minimal_ext. intros q. rewrite (bad_violates_gen M path dists SM thr q). apply (sp_violates madj order rks HV HO _ _ thr q SP). }
    destruct Hlast as (t' & s' & cache' & evs & dists & Ed & Et & H1 & H2 & H3 & H4 & H5 & H6). rewrite Ed. cbn [bind]. rewrite Et. cbn [bind]. rewrite Ec. cbn [bind].
    destruct (filter_minimal (violates arc thr orig) sort evs Hsort) as (out & Eo & LM); auto. { intros r [H _]. auto. }
    rewrite Eo. cbn [bind]. eexists _, _. split; [reflexivity|]. split; auto. constructor; auto.
  Qed.

  (** paths that visit a node twice *)
  Lemma cubs_find_repeat u orig : CUOK u -> ~ NoDup orig -> Forall (fun v => v < n) orig ->
    exists u' r, cubs_find dbg g rks sort thr u orig = Some (u', r) /\ CUOK u' /\ r <> [] /\ StronglySorted (fun a b => snd a < snd b) r /\ forall q, In q r <-> revisit orig q.
  Proof.
    intros HU NDo Hon. destruct HU as [U1 U2 U3 U4 U5 U6]. unfold cubs_find.
    destruct (sp_ex madj order rks HO orig ltac:(rewrite Ln; exact Hon)) as (path & Em & SP). rewrite Em. cbn [bind].
    pose proof (sp_lt madj order rks HO _ _ SP) as Hpn. rewrite Ln in Hpn. assert (ND : ~ NoDup path) by (intros ND; apply NDo; apply (sp_nodup madj order rks HO _ _ SP); auto).
    unfold dassert. rewrite U6. cbn [negb]. rewrite andb_false_r.
    destruct (note_ok n path Hpn (cu_ranks u) U5 U6) as ([pr vio] & E & [N1 N2 N3 N4]). cbn [fst snd] in *. rewrite E. cbn [bind].
    assert (Hcl : forall v, cached pr v -> In v path). { intros v (i & Hi). assert (Hv : v < n) by (apply nth_error_Some_lt in Hi; lia). destruct (N2 v Hv) as [[A _]|(j & _ & A & B & _)]; [congruence|]. eapply nth_error_In; eauto. }
    destruct (clear_ok n path pr Hpn N1 Hcl) as (pr' & Ec & C1 & C2).
    assert (H3 : forall q, In q vio <-> revisit path q). { intros q. rewrite N3. split; [tauto|]. intros H. split; auto. destruct H as (_ & v & _ & H & _). eapply nth_error_Some_lt; eauto. }
    destruct vio as [|r0 vio].
    - exfalso. apply ND. apply NoDup_nth_error. intros i j Hi Eij.
      assert (G : forall k a v, nth_error path a = Some v -> nth_error path (a + S k) = Some v -> False).
      { clear - H3. induction k as [k IH] using lt_wf_ind. intros a v A B.
        assert (D : (exists c, a < c < a + S k /\ nth_error path c = Some v) \/ forall c, a < c < a + S k -> nth_error path c <> Some v).
        { clear. induction k as [|k IH]. { right. intros; lia. } destruct IH as [(c & C1 & C2)|N]. { left. exists c. split; auto. lia. }
          assert (DD : {nth_error path (a + S k) = Some v} + {nth_error path (a + S k) <> Some v}) by (repeat decide equality). destruct DD as [Y|Y]. { left. exists (a + S k). split; auto. lia. }
          right. intros c Hc. destruct (Nat.eq_dec c (a + S k)) as [->|]; auto. apply N. lia. }
        destruct D as [(c & C1 & C2)|D].
        - apply (IH (a + k - c) ltac:(lia) c v C2). replace (c + S (a + k - c)) with (a + S k) by lia. auto.
        - destruct (proj2 (H3 (a, a + S k))). split; cbn; [lia|]. exists v. auto. }
      destruct (nth_error_lt path i Hi) as [v Ev]. rewrite Ev in Eij. destruct (Nat.lt_trichotomy i j) as [H|[H|H]]; auto; exfalso.
      + apply (G (j - i - 1) i v); auto. replace (i + S (j - i - 1)) with j by lia. auto.
      + apply (G (i - j - 1) j v); auto. replace (j + S (i - j - 1)) with i by lia. auto.
    - rewrite Ec. cbn [bind]. eexists _, _. split; [reflexivity|]. split. { constructor; auto. } split; [discriminate|]. split; auto.
      intros q. rewrite H3. apply (sp_revisit madj order rks HO _ _ q SP).
  Qed.

  Lemma cubs_history_ok u paths : CUOK u -> Forall (good_path madj) paths -> exists u', cubs_history dbg g rks sort thr u paths = Some u' /\ CUOK u'.
  Proof.
    unfold cubs_history. revert u. induction paths as [|p paths IH]; intros u HU F; cbn [foldM]; [eauto|]. inversion F as [|? ? [G1 G2] F']; subst. rewrite Ln in G1.
    destruct (ListDec.NoDup_dec Nat.eq_dec p) as [ND|ND].
    - destruct (cubs_find_simple u p HU ND G1 (G2 ND)) as (u' & r & E & HU' & _). rewrite E. cbn [bind]. auto.
    - destruct (cubs_find_repeat u p HU ND G1) as (u' & r & E & HU' & _). rewrite E. cbn [bind]. auto.
  Qed.
End Search.
