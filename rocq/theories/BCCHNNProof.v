(** Bucket based nearest neighbour queries. *)
From Verif Require Import Base SpecPQ SpecGraph SpecCH SpecCCH SpecNN IndexHeap IndexHeapProof Graph Dijkstra LoopProof CCHTheory CCH CCHContractProof CCHBuildProof CCHQuery CCHQueryProof CCHPotProof RphastProof Bucket BucketProof BPotProof BCCHNN SpecBNN.
From Coq Require Import Permutation Sorting.Sorted.

(** ** The heap *)
Notation BInv := (Inv (N * nat) bh_idx bh_lt).
Notation babs := (abs (N * nat)).

Lemma bh_lt_spec x y : bh_lt x y = true <-> (fst y < fst x)%N \/ (fst y = fst x /\ snd y < snd x).
Proof. unfold bh_lt. rewrite Bool.orb_true_iff, Bool.andb_true_iff, N.ltb_lt, N.eqb_eq, Nat.ltb_lt. tauto. Qed.
Lemma bh_lt_false x y : bh_lt x y = false <-> (fst x < fst y)%N \/ (fst x = fst y /\ snd x <= snd y).
Proof. destruct (bh_lt x y) eqn:E. { apply bh_lt_spec in E. split; [discriminate|intros; exfalso; lia]. } split; auto. intros _. destruct (N.lt_trichotomy (fst x) (fst y)) as [H|[H|H]]; auto.
  - right. split; auto. destruct (Nat.le_gt_cases (snd x) (snd y)); auto. assert (bh_lt x y = true) by (apply bh_lt_spec; right; split; auto). congruence.
  - assert (bh_lt x y = true) by (apply bh_lt_spec; auto). congruence. Qed.
Lemma bh_laws : order_laws bh_lt.
Proof. constructor.
  - intros x. apply bh_lt_false. right. auto.
  - intros x y H. apply bh_lt_false. apply bh_lt_spec in H. lia.
  - intros x y z H1 H2. apply bh_lt_false in H1, H2. apply bh_lt_false. lia. Qed.

Lemma data_dom n h : BInv n h -> NoDup (map snd (data h)) /\ forall i, In i (map snd (data h)) <-> babs h i <> None.
Proof.
  intros I. destruct (data_enumerates _ _ _ n h I) as [H1 H2]. split; auto. intros i. rewrite in_map_iff. split.
  - intros (x & <- & Hx). rewrite (proj2 (H2 (snd x) x)); [discriminate|auto].
  - intros H. destruct (babs h i) as [x|] eqn:E; [|tauto]. apply H2 in E. exists x. tauto.
Qed.
Lemma data_in n h x : BInv n h -> In x (data h) <-> babs h (snd x) = Some x.
Proof. intros I. rewrite (abs_In' _ bh_idx h (snd x) x (inv_wf _ _ _ _ _ I)). unfold bh_idx. tauto. Qed.
Lemma data_uniq n h d d' i : BInv n h -> In (d, i) (data h) -> In (d', i) (data h) -> d = d'.
Proof. intros I H1 H2. apply (data_in n h _ I) in H1, H2. cbn in *. congruence. Qed.
Lemma data_none n h i : BInv n h -> babs h i = None -> ~ In i (map snd (data h)).
Proof. intros I E. rewrite (proj2 (data_dom n h I) i). tauto. Qed.

Lemma top_spec n h : BInv n h -> (hpeek h = None /\ data h = []) \/ exists x, hpeek h = Some x /\ In x (data h) /\ forall y, In y (data h) -> (fst y <= fst x)%N.
Proof.
  intros I. unfold hpeek. destruct (data h) as [|x D] eqn:E; [left; auto|right]. exists x. split; auto. split; [left; auto|]. intros y Hy. rewrite <- E in Hy. apply In_nth_error in Hy. destruct Hy as (i & Hi).
  pose proof (root_min _ bh_idx bh_lt bh_laws (data h) (inv_ord _ _ _ _ _ I) i x y ltac:(rewrite E; auto) Hi) as H. apply bh_lt_false in H. lia.
Qed.

Definition dom (k : nat) (h : bheap) (c : N) : Prop := k <= length (data h) /\ forall x, In x (data h) -> (fst x <= c)%N.
Definition cov (k : nat) (h : bheap) (i : nat) (c : N) : Prop := (exists d, In (d, i) (data h) /\ (d <= c)%N) \/ dom k h c.
Lemma dom_mono k h c c' : dom k h c -> (c <= c')%N -> dom k h c'.
Proof. intros [H1 H2] L. split; auto. intros x Hx. specialize (H2 x Hx). lia. Qed.
Lemma cov_mono k h i c c' : cov k h i c -> (c <= c')%N -> cov k h i c'.
Proof. intros [(d & H1 & H2)|H] L. { left. exists d. split; auto. lia. } right. eapply dom_mono; eauto. Qed.

(** what a step may do to the heap *)
Definition better (k : nat) (h h' : bheap) : Prop := length (data h) <= length (data h') /\ (forall c, dom k h c -> dom k h' c) /\ (forall i c, cov k h i c -> cov k h' i c).
Lemma better_refl k h : better k h h.
Proof. split; auto. Qed.
Lemma better_trans k h h' h'' : better k h h' -> better k h' h'' -> better k h h''.
Proof. intros (A1 & A2 & A3) (B1 & B2 & B3). split; [lia|]. split; auto. Qed.

Definition bnn_offer (k : nat) (h : bheap) (dist : N) (target : nat) : option bheap :=
  o <- hget h target ;;
  match o with
  | Some x => if (dist <? fst x)%N then hincrease _ bh_idx bh_lt h (dist, target) else Some h
  | None =>
      if hlen h <? k then hpush _ bh_idx bh_lt h (dist, target)
      else top <- hpeek h ;; if (dist <? fst top)%N then '(h, _) <- hpop _ bh_idx bh_lt h ;; hpush _ bh_idx bh_lt h (dist, target) else Some h
  end.

Lemma hget_abs n h i : BInv n h -> i < n -> hget h i = Some (babs h i).
Proof. intros I Hi. unfold hget, abs. destruct (nth_error_lt (positions h) i) as (p & Ep). { rewrite (inv_len _ _ _ _ _ I). auto. } rewrite Ep. cbn [bind]. destruct p; auto. Qed.

Lemma push_ok n h d i : BInv n h -> i < n -> babs h i = None ->
  exists h', hpush _ bh_idx bh_lt h (d, i) = Some h' /\ BInv n h' /\ length (data h') = S (length (data h)) /\ forall x, In x (data h') <-> x = (d, i) \/ In x (data h).
Proof.
  intros I Hi E. destruct (hpush_spec _ bh_idx bh_lt bh_laws n h (d, i) I Hi E) as (h' & E' & I' & A). exists h'. split; auto. split; auto.
  assert (IN : forall x, In x (data h') <-> x = (d, i) \/ In x (data h)).
  { intros [d' j]. rewrite (data_in n h' _ I'), (data_in n h _ I). rewrite A. unfold put. cbn [snd bh_idx]. destruct (Nat.eqb_spec j i) as [->|Ne]; cbn; split; intros H; auto.
    - injection H as <-. auto.
    - destruct H as [H|H]; congruence.
    - destruct H as [H|H]; [injection H as -> ->; tauto|auto]. }
  split; auto. destruct (data_dom n h I) as [N1 _]. destruct (data_dom n h' I') as [N2 _]. apply NoDup_map_inv in N1 as N1'. apply NoDup_map_inv in N2 as N2'.
  assert (P : Permutation (data h') ((d, i) :: data h)). { apply NoDup_Permutation; auto. { constructor; auto. intros Hin. apply (data_none n h i I E). apply in_map_iff. exists (d, i). auto. } intros x. rewrite IN. cbn. intuition. }
  apply Permutation_length in P. auto.
Qed.

Lemma offer_ok n k h d i : BInv n h -> length (data h) <= k -> 0 < k -> i < n ->
  exists h', bnn_offer k h d i = Some h' /\ BInv n h' /\ length (data h') <= k /\ better k h h' /\ cov k h' i d /\ forall x, In x (data h') -> x = (d, i) \/ In x (data h).
Proof.
  intros I L K Hi. unfold bnn_offer. rewrite (hget_abs n h i I Hi). cbn [bind]. destruct (babs h i) as [[o i']|] eqn:E.
  - assert (Hin : In (o, i') (data h) /\ i' = i). { apply (abs_In' _ bh_idx h i (o, i') (inv_wf _ _ _ _ _ I)) in E. exact E. } destruct Hin as [Hin ->]. cbn [fst]. destruct (N.ltb_spec d o) as [Ld|Ld].
    + destruct (hincrease_spec _ bh_idx bh_lt bh_laws n h (d, i) (o, i) I E) as (h' & E' & I' & A). { apply bh_lt_false. cbn. lia. }
      exists h'. split; auto. split; auto.
      assert (IN : forall x, In x (data h') <-> x = (d, i) \/ (In x (data h) /\ snd x <> i)).
      { intros [d' j]. rewrite (data_in n h' _ I'), (data_in n h _ I). rewrite A. unfold put. cbn [snd bh_idx]. destruct (Nat.eqb_spec j i) as [->|Ne]; cbn; split; intros H; auto.
        - injection H as <-. auto.
        - destruct H as [H|[_ H]]; [congruence|tauto].
        - destruct H as [H|[H _]]; [injection H as -> ->; tauto|auto]. }
      assert (EL : length (data h') = length (data h)).
      { destruct (data_dom n h I) as [N1 D1]. destruct (data_dom n h' I') as [N2 D2]. rewrite <- (map_length snd (data h')), <- (map_length snd (data h)). apply Permutation_length. apply NoDup_Permutation; auto.
        intros j. rewrite !in_map_iff. split.
        - intros ([d' j'] & <- & Hx). apply IN in Hx. destruct Hx as [Hx|[Hx _]]; [injection Hx as -> ->; exists (o, i); auto|eauto].
        - intros ([d' j'] & <- & Hx). cbn. destruct (Nat.eq_dec j' i) as [->|Ne]. { exists (d, i). split; auto. apply IN. auto. } exists (d', j'). split; auto. apply IN. auto. }
      split; [lia|].
      assert (DM : forall c, dom k h c -> dom k h' c). { intros c [D1 D2]. split; [lia|]. intros x Hx. apply IN in Hx. destruct Hx as [->|[Hx _]]; auto. cbn. specialize (D2 _ Hin). cbn in D2. lia. }
      split. { split; [lia|]. split; auto. intros j c [(d' & Hd & Lc)|H]; [|right; auto]. left. destruct (Nat.eq_dec j i) as [->|Ne]. { exists d. split; [apply IN; auto|]. assert (d' = o) by (apply (data_uniq n h _ _ i I); auto). lia. } exists d'. split; auto. apply IN. auto. }
      split. { left. exists d. split; [apply IN; auto|lia]. } intros x Hx. apply IN in Hx. tauto.
    + exists h. split; auto. split; auto. split; auto. split; [apply better_refl|]. split; auto. left. exists o. split; auto.
  - unfold hlen. destruct (Nat.ltb_spec (length (data h)) k) as [Lk|Lk].
    + destruct (push_ok n h d i I Hi E) as (h' & E' & I' & EL & IN). exists h'. split; auto. split; auto. split; [lia|].
      split. { split; [lia|]. split. { intros c [D1 _]. lia. } intros j c [(d' & Hd & Lc)|[D1 _]]; [|lia]. left. exists d'. split; auto. apply IN. auto. }
      split. { left. exists d. split; [apply IN; auto|lia]. } intros x Hx. apply IN; auto.
    + destruct (top_spec n h I) as [[_ E0]|(x & Ex & Hx & Mx)]. { rewrite E0 in Lk. cbn in Lk. lia. } rewrite Ex. cbn [bind]. destruct (N.ltb_spec d (fst x)) as [Ld|Ld].
      * destruct (hpop_spec _ bh_idx bh_lt bh_laws n h I) as [[_ E0]|(h1 & y & E1 & I1 & [M1 M2] & A)]. { rewrite E0 in Hx. destruct Hx. }
        rewrite E1. cbn [bind]. assert (Hy : In y (data h)). { apply (data_in n h y I). exact M1. }
        assert (My : forall z, In z (data h) -> (fst z <= fst y)%N). { intros z Hz. apply (data_in n h z I) in Hz. specialize (M2 _ _ Hz). apply bh_lt_false in M2. lia. }
        assert (IN1 : forall z, In z (data h1) <-> In z (data h) /\ snd z <> snd y).
        { intros z. rewrite (data_in n h1 z I1), (data_in n h z I), A. unfold del. unfold bh_idx at 1. destruct (Nat.eqb_spec (snd z) (snd y)) as [Q|Q]; split; [discriminate|tauto|auto|tauto]. }
        assert (EL1 : length (data h) = S (length (data h1))).
        { destruct (data_dom n h I) as [N1 _]. destruct (data_dom n h1 I1) as [N2 _]. apply NoDup_map_inv in N1 as N1'. apply NoDup_map_inv in N2 as N2'.
          assert (P : Permutation (data h) (y :: data h1)). { apply NoDup_Permutation; auto. { constructor; auto. intros Hin. apply IN1 in Hin. tauto. } intros z. cbn. rewrite IN1. split.
            - intros Hz. destruct (Nat.eq_dec (snd z) (snd y)) as [Q|Q]; auto. left. apply (data_in n h _ I) in Hz. rewrite Q in Hz. unfold bh_idx in M1. congruence.
            - intros [<-|[Hz _]]; auto. } apply Permutation_length in P. auto. }
        assert (E2 : babs h1 i = None). { rewrite A. unfold del. destruct (i =? bh_idx y); auto. }
        destruct (push_ok n h1 d i I1 Hi E2) as (h' & E' & I' & EL & IN). exists h'. split; auto. split; auto. split; [lia|]. specialize (My x Hx) as Mxy. specialize (Mx y Hy) as Myx.
        assert (DM : forall c, (fst y <= c)%N -> dom k h' c). { intros c Lc. split; [lia|]. intros z Hz. apply IN in Hz. destruct Hz as [->|Hz]; [cbn; lia|]. apply IN1 in Hz. specialize (My z (proj1 Hz)). lia. }
        split. { split; [lia|]. split. { intros c [_ D2]. apply DM. auto. } intros j c [(d' & Hd & Lc)|[_ D2]]; [|right; apply DM; auto]. destruct (Nat.eq_dec j (snd y)) as [->|Ne].
          - right. apply DM. destruct y as [dy jy]. cbn in *. assert (d' = dy) by (apply (data_uniq n h _ _ jy I); auto). lia.
          - left. exists d'. split; auto. apply IN. right. apply IN1. auto. }
        split. { left. exists d. split; [apply IN; auto|lia]. } intros z Hz. apply IN in Hz. destruct Hz as [->|Hz]; auto. apply IN1 in Hz. tauto.
      * exists h. split; auto. split; auto. split; auto. split; [apply better_refl|]. split; auto. right. split; auto. intros y Hy. specialize (Mx y Hy). lia.
Qed.


(** the entries before [k] *)
Lemma scan_ok n k fw : (fw <= INF)%N -> 0 < k -> forall es h, (forall i e, In (i, e) es -> i < n /\ (e <= INF)%N) -> StronglySorted le_snd es -> BInv n h -> length (data h) <= k ->
  exists h', bnn_scan k fw es h = Some h' /\ BInv n h' /\ length (data h') <= k /\ better k h h' /\ (forall i e, In (i, e) es -> cov k h' i (fw + e)) /\
  forall x, In x (data h') -> In x (data h) \/ exists i e, In (i, e) es /\ x = ((fw + e)%N, i).
Proof.
  intros Hf K. induction es as [|[i e] es IH]; intros h HE SS I L.
  { exists h. split; auto. split; auto. split; auto. split; [apply better_refl|]. split; [intros ? ? []|auto]. }
  cbn [bnn_scan]. destruct (HE i e ltac:(left; auto)) as [Hi He]. rewrite cadd_ok by (unfold INF in *; unfold U32; lia). cbn [bind]. apply StronglySorted_inv in SS as [SS FA]. rewrite Forall_forall in FA.
  destruct ((bh_top h <=? fw + e)%N && (k <=? hlen h)) eqn:EB.
  - apply andb_prop in EB. destruct EB as [B1 B2]. apply N.leb_le in B1. apply Nat.leb_le in B2. unfold hlen in B2. exists h. split; auto. split; auto. split; auto. split; [apply better_refl|]. split; auto.
    assert (DM : dom k h (fw + e)). { split; auto. intros x Hx. unfold bh_top in B1. destruct (top_spec n h I) as [[_ E0]|(y & Ey & Hy & My)]. { rewrite E0 in Hx. destruct Hx. } rewrite Ey in B1. specialize (My x Hx). lia. }
    intros j e' [Eq|Hin]. { injection Eq as <- <-. right; auto. } specialize (FA _ Hin). unfold le_snd in FA. cbn in FA. right. eapply dom_mono; eauto. lia.
  - destruct (offer_ok n k h (fw + e)%N i I L K Hi) as (h1 & E1 & I1 & L1 & B1 & C1 & S1). unfold bnn_offer in E1. destruct (hget h i) as [o|]; [|discriminate]. cbn [bind] in E1 |- *. rewrite E1. cbn [bind].
    destruct (IH h1) as (h' & E' & I' & L' & B' & C' & S'); auto. { intros; apply HE; right; auto. }
    exists h'. split; auto. split; auto. split; auto. split; [eapply better_trans; eauto|]. split.
    + intros j e' [Eq|Hin]; [|auto]. injection Eq as <- <-. apply B'. auto.
    + intros x Hx. destruct (S' x Hx) as [Hx'|(j & e' & Hin & ->)]. { destruct (S1 x Hx') as [->|]; auto. right. exists i, e. split; [left; auto|auto]. } right. exists j, e'. split; [right; auto|auto].
Qed.

Lemma firstn_in {A} k (l : list A) x : In x (firstn k l) -> In x l.
Proof. revert k. induction l as [|a l IH]; intros [|k]; cbn; auto; try tauto. intros [->|H]; eauto. Qed.
Lemma firstn_sorted {A} (R : A -> A -> Prop) k l : StronglySorted R l -> StronglySorted R (firstn k l) /\ forall x y, In x (firstn k l) -> In y (skipn k l) -> R x y.
Proof.
  revert k. induction l as [|a l IH]; intros [|k] H; cbn; try (split; [constructor|intros ? ? []]; fail). apply StronglySorted_inv in H as [H1 H2]. rewrite Forall_forall in H2. destruct (IH k H1) as [A1 A2]. split.
  - constructor; auto. apply Forall_forall. intros x Hx. apply H2. eapply firstn_in; eauto.
  - intros x y [<-|Hx] Hy; auto. apply H2. rewrite <- (firstn_skipn k l). apply in_or_app; auto.
Qed.

(** the whole bucket is covered by its first [k] entries *)
Lemma bucket_ok n k fw es h : (fw <= INF)%N -> (forall i e, In (i, e) es -> i < n /\ (e <= INF)%N) -> StronglySorted le_snd es -> NoDup (map fst es) -> BInv n h -> length (data h) <= k ->
  exists h', bnn_scan k fw (firstn k es) h = Some h' /\ BInv n h' /\ length (data h') <= k /\ better k h h' /\ (forall i e, In (i, e) es -> cov k h' i (fw + e)) /\
  forall x, In x (data h') -> In x (data h) \/ exists i e, In (i, e) es /\ x = ((fw + e)%N, i).
Proof.
  intros Hf HE SS ND I L. destruct k as [|k'].
  { cbn [firstn bnn_scan]. exists h. split; auto. split; auto. split; auto. split; [apply better_refl|]. split; auto. intros i e _. right. split; [lia|]. intros x Hx. destruct (data h); [destruct Hx|cbn in L; lia]. }
  set (k := S k') in *. destruct (firstn_sorted le_snd k es SS) as [SF FR]. destruct (scan_ok n k fw Hf ltac:(unfold k; lia) (firstn k es) h) as (h' & E & I' & L' & B & C & S'); auto. { intros i e Hin. apply HE. eapply firstn_in; eauto. }
  exists h'. split; auto. split; auto. split; auto. split; auto. split.
  - intros i e Hin. rewrite <- (firstn_skipn k es) in Hin. apply in_app_or in Hin. destruct Hin as [Hin|Hin]; auto. right.
    assert (Lf : length (firstn k es) = k). { rewrite firstn_length. destruct (Nat.le_gt_cases k (length es)); [lia|]. rewrite skipn_all2 in Hin by lia. destruct Hin. }
    (* either one of the first entries is dominated or the heap holds exactly their targets *)
    assert (DEC : (exists j e', In (j, e') (firstn k es) /\ dom k h' (fw + e')) \/ (forall j e', In (j, e') (firstn k es) -> exists d, In (d, j) (data h') /\ (d <= fw + e')%N)).
    { clear -C. induction (firstn k es) as [|[j e'] r IH]. { right. intros ? ? []. } destruct IH as [(j1 & e1 & H1 & H2)|IH].
      - intros; apply C; right; auto.
      - left. exists j1, e1. split; [right; auto|auto].
      - destruct (C j e' ltac:(left; auto)) as [H|H]; [|left; exists j, e'; split; [left; auto|auto]]. right. intros j1 e1 [Eq|H1]; [injection Eq as <- <-; auto|eauto]. }
    destruct DEC as [(j & e' & Hj & D)|AL]. { eapply dom_mono; eauto. specialize (FR _ _ Hj Hin). unfold le_snd in FR. cbn in FR. lia. }
    assert (NF : NoDup (map fst (firstn k es))). { rewrite <- (firstn_skipn k es), map_app in ND. clear -ND. induction (map fst (firstn k es)) as [|a l IH]; constructor; cbn in ND; inversion ND; subst; auto. intros H. apply H1. apply in_or_app; auto. }
    destruct (data_dom n h' I') as [ND' _].
    assert (IN1 : incl (map fst (firstn k es)) (map snd (data h'))). { intros j Hj. apply in_map_iff in Hj. destruct Hj as ([j' e'] & <- & Hj). destruct (AL _ _ Hj) as (d & Hd & _). apply in_map_iff. exists (d, j'). auto. }
    assert (LL : k <= length (data h')). { rewrite <- (map_length snd (data h')), <- Lf, <- (map_length fst (firstn k es)). apply NoDup_incl_length; auto. }
    assert (IN2 : incl (map snd (data h')) (map fst (firstn k es))). { apply NoDup_length_incl; auto. rewrite !map_length. lia. }
    split; auto. intros [d j] Hx. cbn. specialize (IN2 j ltac:(apply in_map_iff; exists (d, j); auto)). apply in_map_iff in IN2. destruct IN2 as ([j' e'] & Ej & Hj). cbn in Ej. subst j'. destruct (AL _ _ Hj) as (d' & Hd' & Le). assert (d = d') by (apply (data_uniq n h' _ _ j I'); auto).
    specialize (FR _ _ Hj Hin). unfold le_snd in FR. cbn in FR. lia.
  - intros x Hx. destruct (S' x Hx) as [H|(i & e & H & ->)]; auto. right. exists i, e. split; auto. eapply firstn_in; eauto.
Qed.

(** ** The walk to the root *)
Section Walk.
  Context (n : nat) (elim : list (option nat)).
  Hypothesis EL : length elim = n.
  Hypothesis EP : forall x p, nth_error elim x = Some (Some p) -> x < p < n.
  Context (links : idlinks).
  Hypothesis HG : up_graph n elim links.
  Context (dist : list (list (nat * N))).
  Hypothesis LD : length dist = n.
  Hypothesis HD : forall p es, nth_error dist p = Some es -> StronglySorted le_snd es /\ NoDup (map fst es) /\ forall i e, In (i, e) es -> i < n /\ (e <= INF)%N.
  Context (s k : nat).
  Hypothesis Hs : s < n.

  Record QI (P R : list nat) (gd : nat -> N) (d : list N) (h : bheap) : Prop := {
    qi_path : rpath elim s (P ++ R);
    qi_len : length d = n;
    qi_p : forall x, In x P -> nth_error d x = Some INF;
    qi_r : forall x, x < n -> ~ In x P -> nth_error d x = Some (gd x);
    qi_out : forall x, ~ In x (P ++ R) -> gd x = INF;
    qi_s : gd s = 0%N;
    qi_le : forall x, (gd x <= INF)%N;
    qi_real : forall x, (gd x < INF)%N -> walk (uarc links) s x (gd x);
    qi_inv : BInv n h;
    qi_k : length (data h) <= k;
    qi_done : forall p, In p P -> dom k h (gd p) \/
      ((forall y w, uarc links p y w -> (gd y <= gd p + w)%N) /\ forall es i e, nth_error dist p = Some es -> In (i, e) es -> cov k h i (gd p + e));
    qi_snd : forall c i, In (c, i) (data h) -> exists p es e, p < n /\ nth_error dist p = Some es /\ In (i, e) es /\ ((c < INF)%N -> exists a, walk (uarc links) s p a /\ c = (a + e)%N) }.

  (** the state after the last node *)
  Definition QDone (d : list N) (h : bheap) : Prop :=
    d = repeat INF n /\ BInv n h /\ length (data h) <= k /\
    (forall m a es i e, walk (uarc links) s m a -> nth_error dist m = Some es -> In (i, e) es -> cov k h i (a + e)) /\
    (forall c i, In (c, i) (data h) -> exists p es e, p < n /\ nth_error dist p = Some es /\ In (i, e) es /\ ((c < INF)%N -> exists a, walk (uarc links) s p a /\ c = (a + e)%N)).

  Lemma qi_end P gd d h : QI P [] gd d h -> QDone d h.
  Proof.
    intros [Q1 Q2 Q3 Q4 Q5 Q6 Q7 Q8 Q9 Q10 Q11 Q12]. rewrite app_nil_r in *. split.
    { rewrite <- Q2. apply all_repeat. intros v Hv. apply In_nth_error in Hv. destruct Hv as (x & Ex). pose proof (nth_error_Some_lt _ _ _ Ex) as Hx. destruct (in_dec Nat.eq_dec x P) as [H|H]. { pose proof (Q3 x H). congruence. } pose proof (Q4 x ltac:(lia) H). pose proof (Q5 x H). congruence. }
    split; auto. split; auto. split; auto. intros m a es i e W Ees Hin.
    assert (G : forall u m a, walk (uarc links) u m a -> In u P -> forall c, (gd u <= c)%N -> In m P /\ (dom k h (c + a) \/ (gd m <= c + a)%N)).
    { clear -Q1 Q11 EL EP HG. induction 1 as [u|u z m w a Ha W IH]; intros Hu c Lc. { split; auto. right. lia. }
      pose proof (rpath_lt n elim EL EP _ _ Q1 u Hu) as Lu. destruct (uarc_lt n elim EL EP links HG _ _ _ Ha ltac:(lia)) as (Lz & _ & Hinz). destruct (rpath_in elim _ _ _ Q1 Hu) as (r & Hr & Hi). assert (Hz : In z P) by auto.
      destruct (Q11 u Hu) as [D|[D _]].
      - destruct (IH Hz (gd z) ltac:(lia)) as [Hm _]. split; auto. left. eapply dom_mono; eauto. lia.
      - specialize (D z w Ha). destruct (IH Hz (c + w)%N ltac:(lia)) as [Hm H]. split; auto. rewrite N.add_assoc. auto. }
    destruct (rpath_hd elim _ _ Q1) as (P' & EP'). destruct (G s m a W ltac:(rewrite EP'; left; auto) 0%N ltac:(lia)) as [Hm H]. rewrite N.add_0_l in H.
    destruct H as [H|H]. { right. eapply dom_mono; eauto. lia. } destruct (Q11 m Hm) as [D|[_ D]]. { right. eapply dom_mono; eauto. lia. } eapply cov_mono; [eapply D; eauto|lia].
  Qed.

  Lemma qi_step P p R gd w h : QI P (p :: R) gd (w_dist w) h -> w_next w = Some p -> length (w_par w) = n ->
    exists w' h' gd', bnn_step links elim dist k (w, h) = Some (inl (w', h')) /\ QI (P ++ [p]) R gd' (w_dist w') h' /\ w_next w' = hd_error R /\ length (w_par w') = n.
  Proof.
    intros Q Hn Lp. pose proof Q as [Q1 Q2 Q3 Q4 Q5 Q6 Q7 Q8 Q9 Q10 Q11 Q12]. unfold bnn_step. rewrite Hn.
    assert (HpIn : In p (P ++ p :: R)) by apply in_elt. pose proof (rpath_lt n elim EL EP _ _ Q1 p HpIn) as Lpn. pose proof (rpath_asc n elim EL EP _ _ Q1) as HA.
    assert (NP : ~ In p P). { intros H. destruct (asc_split P p R p HA) as [A _]. specialize (A H). lia. }
    rewrite (Q4 p ltac:(lia) NP). cbn [bind]. destruct (rpath_mid elim _ _ _ _ Q1) as [Rp Enx].
    destruct ((hlen h <? k) || (gd p <? bh_top h)%N) eqn:EB.
    - destruct (nth_error_lt dist p) as (es & Ees); [lia|]. rewrite Ees. cbn [bind]. destruct (HD p es Ees) as (SS & ND & HE).
      destruct (bucket_ok n k (gd p) es h (Q7 p) HE SS ND Q9 Q10) as (h' & Eh & I' & L' & BT & CV & SD). rewrite Eh. cbn [bind].
      unfold etw_next. rewrite Hn, (Q4 p ltac:(lia) NP). cbn [bind]. rewrite Enx. cbn [bind]. destruct (HG p ltac:(lia)) as (ls & Els & Hls). rewrite Els. cbn [bind].
      destruct (relax_all n p (gd p) ls (Q7 p) (w_dist w) (w_par w) Q2 Lp) as (d' & par' & Ef & Ld' & Lp' & K).
      { intros y w' e Hin. destruct (Hls y w' e Hin) as (H1 & H2 & H3). split; [|auto]. specialize (H3 _ Rp). pose proof (rpath_lt n elim EL EP _ _ Rp y H3). lia. }
      rewrite Ef. cbn [bind]. unfold etw_reset. cbn [w_dist w_par w_next]. rewrite set_at_lt by lia. cbn [bind].
      exists (mkEtw (upd d' p INF) par' (hd_error R)), h'.
      assert (GD : exists gd', (forall x, x < n -> ~ In x P -> nth_error d' x = Some (gd' x)) /\ (forall x, In x P -> gd' x = gd x) /\ (forall x, n <= x -> gd' x = gd x)).
      { exists (fun x => if in_dec Nat.eq_dec x P then gd x else match nth_error d' x with Some v => v | None => gd x end). split; [|split].
        - intros x Hx Hn'. destruct (in_dec Nat.eq_dec x P); [tauto|]. destruct (nth_error_lt d' x) as (v & Ev); [lia|]. rewrite Ev. auto.
        - intros x Hx. destruct (in_dec Nat.eq_dec x P); [auto|tauto].
        - intros x Hx. destruct (in_dec Nat.eq_dec x P); auto. rewrite (proj2 (nth_error_None d' x)) by lia. auto. }
      destruct GD as (gd' & G1 & G2 & G3).
      assert (GC : forall x, (gd' x <= gd x)%N /\ (gd' x = gd x \/ exists wt e, In (x, wt, e) ls /\ gd' x = (gd p + wt)%N)).
      { intros x. destruct (in_dec Nat.eq_dec x P) as [H|H]. { rewrite (G2 x H). split; [lia|auto]. } destruct (Nat.lt_ge_cases x n) as [Hx|Hx]; [|rewrite (G3 x Hx); split; [lia|auto]].
        destruct (K x (gd x) (Q4 x Hx H)) as (v' & E1 & E2 & _ & E4). rewrite (G1 x Hx H) in E1. injection E1 as <-. split; auto. destruct E4 as [[E4 _]|[_ (wt & e & Hin & E4 & _)]]; eauto. }
      assert (GR : forall x wt e, In (x, wt, e) ls -> (gd' x <= gd p + wt)%N).
      { intros x wt e Hin. destruct (Hls x wt e Hin) as (H1 & H2 & H3). specialize (H3 _ Rp). pose proof (rpath_lt n elim EL EP _ _ Rp x H3) as Hx. assert (NX : ~ In x P). { intros H. destruct (asc_split P p R x HA) as [A _]. specialize (A H). lia. }
        destruct (K x (gd x) (Q4 x ltac:(lia) NX)) as (v' & E1 & _ & E3 & _). rewrite (G1 x ltac:(lia) NX) in E1. injection E1 as <-. eauto. }
      assert (GL : forall x, x <= p -> gd' x = gd x). { intros x Hx. destruct (GC x) as [_ [H|(wt & e & Hin & _)]]; auto. destruct (Hls _ _ _ Hin). lia. }
      exists gd'. split; [reflexivity|]. cbn [w_dist w_next w_par]. split; [|auto]. constructor; auto.
      + rewrite <- app_assoc. exact Q1.
      + rewrite upd_length; auto.
      + intros x Hx. apply in_app_or in Hx. destruct Hx as [Hx|[<-|[]]]; [|apply nth_error_upd_eq; lia]. assert (x <> p) by congruence. rewrite nth_error_upd_neq by auto.
        pose proof (Q3 x Hx) as Ex. destruct (K x INF Ex) as (v' & E1 & _ & _ & [[-> _]|[_ (wt & e & Hin & _)]]); auto. destruct (Hls _ _ _ Hin). destruct (asc_split P p R x HA) as [A _]. specialize (A Hx). lia.
      + intros x Hx Hn'. rewrite nth_error_upd_neq. { apply G1; auto. intros H. apply Hn'. apply in_or_app; auto. } intros ->. apply Hn'. apply in_or_app. right. left; auto.
      + intros x Hx. rewrite <- app_assoc in Hx. destruct (GC x) as [_ [H|(wt & e & Hin & _)]]. { rewrite H. apply Q5. auto. } exfalso. apply Hx. destruct (Hls _ _ _ Hin) as (_ & _ & H3). apply in_or_app. right. apply (H3 _ Rp).
      + rewrite GL; auto. apply (rpath_lt n elim EL EP _ _ Q1 p HpIn).
      + intros x. destruct (GC x) as [H _]. specialize (Q7 x). lia.
      + intros x Hx. destruct (GC x) as [_ [H|(wt & e & Hin & H)]]; rewrite H in Hx |- *; auto. eapply walk_app; [apply Q8; lia|]. apply walk_arc. exists e, ls. auto.
      + intros q Hq. apply in_app_or in Hq. destruct Hq as [Hq|[<-|[]]].
        * assert (Hqp : q < p) by (destruct (asc_split P p R q HA) as [A _]; auto). rewrite (GL q) by lia. destruct (Q11 q Hq) as [D|[D1 D2]]. { left. apply BT. auto. } right. split.
          -- intros y wt Ha. destruct (GC y) as [H _]. specialize (D1 y wt Ha). lia.
          -- intros es' i e He Hi. apply BT. eauto.
        * rewrite (GL p) by lia. right. split.
          -- intros y wt (e & ls' & Els' & Hin). assert (ls' = ls) by congruence. subst. eauto.
          -- intros es' i e He Hi. assert (es' = es) by congruence. subst. auto.
      + intros c i Hc. destruct (SD _ Hc) as [H|(j & e & Hin & Eq)]; [auto|]. injection Eq as -> <-. exists p, es, e. split; [lia|]. split; auto. split; auto. intros Lc. exists (gd p). split; auto. apply Q8. lia.
    - apply Bool.orb_false_iff in EB. destruct EB as [B1 B2]. apply Nat.ltb_ge in B1. apply N.ltb_ge in B2. unfold hlen in B1.
      unfold etw_skip. rewrite Hn, Enx. cbn [bind]. unfold etw_reset. cbn [w_dist w_par w_next]. rewrite set_at_lt by lia. cbn [bind].
      exists (mkEtw (upd (w_dist w) p INF) (w_par w) (hd_error R)), h, gd. split; [reflexivity|]. cbn [w_dist w_next w_par]. split; [|auto]. constructor; auto.
      + rewrite <- app_assoc. exact Q1.
      + rewrite upd_length; auto.
      + intros x Hx. apply in_app_or in Hx. destruct Hx as [Hx|[<-|[]]]; [|apply nth_error_upd_eq; lia]. assert (x <> p) by congruence. rewrite nth_error_upd_neq by auto. auto.
      + intros x Hx Hn'. rewrite nth_error_upd_neq. { apply Q4; auto. intros H. apply Hn'. apply in_or_app; auto. } intros ->. apply Hn'. apply in_or_app. right. left; auto.
      + intros x Hx. rewrite <- app_assoc in Hx. auto.
      + intros q Hq. apply in_app_or in Hq. destruct Hq as [Hq|[<-|[]]]; auto. left. split; auto. intros x Hx. unfold bh_top in B2. destruct (top_spec n h Q9) as [[_ E0]|(y & Ey & Hy & My)]. { rewrite E0 in Hx. destruct Hx. } rewrite Ey in B2. specialize (My x Hx). lia.
  Qed.

  Lemma walk_query h : BInv n h -> data h = [] ->
    exists w0 w h', etw_query elim (repeat INF n) (repeat (0, 0) n) s = Some w0 /\ loopN (N.of_nat (n + 1)) (bnn_step links elim dist k) (w0, h) = Some (w, h') /\ QDone (w_dist w) h'.
  Proof.
    intros I E. destruct (rpath_ex n elim EL EP s Hs) as (R & HR).
    destruct (side_init n elim EL EP links HG s Hs (repeat INF n) (repeat (0, 0) n)) with (R := R) as (w0 & E0 & Hn & SD); auto; try apply repeat_length.
    { intros x Hx. rewrite nth_error_repeat, (proj2 (Nat.ltb_lt x n)); auto. }
    assert (Q0 : QI [] R (fun x => if x =? s then 0%N else INF) (w_dist w0) h).
    { destruct SD. constructor; auto.
      - intros x Hx. destruct (Nat.eqb_spec x s) as [Exs|]; [rewrite Exs; constructor|lia].
      - rewrite E. cbn. lia.
      - intros p [].
      - rewrite E. intros c i []. }
    destruct (loopN_ghost (bnn_step links elim dist k) (fun (g : list nat * list nat * (nat -> N)) s => w_next (fst s) = hd_error (snd (fst g)) /\ length (w_par (fst s)) = n /\ QI (fst (fst g)) (snd (fst g)) (snd g) (w_dist (fst s)) (snd s))
      (fun r => QDone (w_dist (fst r)) (snd r)) (fun g => N.of_nat (length (snd (fst g)))) (N.of_nat (n + 1)) ([], R, fun x => if x =? s then 0%N else INF) (w0, h)) as ([w h'] & El & QD).
    - intros [[P R'] gd] [w h1]. cbn [fst snd]. intros (Hn' & Lp & Q). destruct R' as [|p R'].
      + exists (inr (w, h1)). split. { unfold bnn_step. rewrite Hn'. auto. } eapply qi_end; eauto.
      + destruct (qi_step P p R' gd w h1 Q Hn' Lp) as (w' & h2 & gd' & Es & Q' & Hn2 & Lp'). exists (inl (w', h2)). split; auto. exists (P ++ [p], R', gd'). cbn [fst snd length]. split; [auto|lia].
    - cbn [fst snd]. split; auto. split; auto. apply SD.
    - cbn [fst snd]. pose proof (rpath_len n elim EL EP _ _ HR). lia.
    - exists w0, w, h'. auto.
  Qed.
End Walk.

(** ** From the buckets to the nearest targets *)
Fixpoint ri (k0 : nat) (ans : list (option N)) : list (N * nat) :=
  match ans with [] => [] | a :: r => (match a with Some d => [(d, k0)] | None => [] end) ++ ri (S k0) r end.
Lemma ri_in ans : forall k0 d i, In (d, i) (ri k0 ans) <-> k0 <= i /\ nth_error ans (i - k0) = Some (Some d).
Proof.
  induction ans as [|a r IH]; intros k0 d i; cbn [ri]. { split; [intros []|]. intros [_ H]. destruct (i - k0); discriminate. }
  rewrite in_app_iff, IH. split.
  - intros [H|[H1 H2]]. { destruct a as [d'|]; [|destruct H]. destruct H as [H|[]]. injection H as -> ->. split; auto. rewrite Nat.sub_diag. auto. } split; [lia|]. replace (i - k0) with (S (i - S k0)) by lia. auto.
  - intros [H1 H2]. destruct (Nat.eq_dec i k0) as [->|Ne]. { rewrite Nat.sub_diag in H2. cbn in H2. injection H2 as ->. left. left; auto. } right. split; [lia|]. replace (i - k0) with (S (i - S k0)) in H2 by lia. auto.
Qed.
Lemma ri_nodup ans : forall k0, NoDup (ri k0 ans).
Proof.
  induction ans as [|a r IH]; intros k0; cbn [ri]; [constructor|]. apply NoDup_app_intro; auto. { destruct a; repeat constructor. intros []. }
  intros [d i] H1 H2. destruct a as [d'|]; [|destruct H1]. destruct H1 as [H1|[]]. injection H1 as -> ->. apply ri_in in H2. lia.
Qed.
Lemma ri_reached : forall targets ans k0, length targets = length ans -> reached targets ans = map (fun x => (fst x, nth (snd x - k0) targets 0)) (ri k0 ans).
Proof.
  induction targets as [|t targets IH]; intros [|a ans] k0 L; try discriminate; auto. unfold reached. cbn [combine flat_map fst snd ri]. rewrite map_app. f_equal.
  - destruct a; cbn; auto. rewrite Nat.sub_diag. auto.
  - fold (reached targets ans). rewrite (IH ans (S k0)) by (cbn in L; lia). apply map_ext_in. intros [d i] Hin. apply ri_in in Hin. cbn [fst snd]. f_equal. replace (i - k0) with (S (i - S k0)) by lia. auto.
Qed.
Lemma filter_length_le {A} (f : A -> bool) l : length (filter f l) <= length l.
Proof. induction l as [|a l IH]; cbn; auto. destruct (f a); cbn; lia. Qed.

Lemma nearest_of_heap arc source targets ans k (H : list (N * nat)) :
  Forall2 (fun t r => exact_answer arc source t r) targets ans -> NoDup (map snd H) -> length H <= k ->
  (forall c i, In (c, i) H -> (c < INF)%N -> nth_error ans i = Some (Some c)) ->
  (forall d i, nth_error ans i = Some (Some d) -> In (d, i) H \/ (k <= length H /\ forall x, In x H -> (fst x <= d)%N)) ->
  nearest arc source targets k (map (fun x => (fst x, nth (snd x) targets 0)) (filter (fun x => fst x <? INF)%N H)).
Proof.
  intros F2 ND LK F1 FB. assert (SM : forall d i, nth_error ans i = Some (Some d) -> (d < INF)%N).
  { intros d i E. clear -F2 E. revert i E. induction F2 as [|t r targets ans HE F2 IH]; intros [|i] E; cbn in E; try discriminate; eauto. injection E as ->. apply HE. }
  set (g := fun x : N * nat => (fst x, nth (snd x) targets 0)). set (Hf := filter (fun x => fst x <? INF)%N H).
  assert (HfI : forall c i, In (c, i) Hf -> In (c, i) H /\ (c < INF)%N). { intros c i Hin. apply filter_In in Hin. cbn in Hin. rewrite N.ltb_lt in Hin. auto. }
  assert (DE : forall x y : N * nat, {x = y} + {x <> y}) by (repeat decide equality).
  set (rest := filter (fun x => if in_dec DE x Hf then false else true) (ri 0 ans)).
  assert (RI : forall d i, In (d, i) (ri 0 ans) <-> nth_error ans i = Some (Some d)). { intros d i. rewrite ri_in, Nat.sub_0_r. split; [tauto|]. split; [lia|auto]. }
  assert (NH : NoDup Hf). { apply NoDup_filter. eapply NoDup_map_inv; eauto. }
  assert (RS : forall x, In x rest <-> In x (ri 0 ans) /\ ~ In x Hf). { intros x. unfold rest. rewrite filter_In. destruct (in_dec DE x Hf); split; intros [A B]; split; auto; try discriminate; tauto. }
  assert (P : Permutation (ri 0 ans) (Hf ++ rest)).
  { apply NoDup_Permutation; [apply ri_nodup| |].
    - apply NoDup_app_intro; auto. { apply NoDup_filter. apply ri_nodup. } intros x H1 H2. apply RS in H2. tauto.
    - intros x. rewrite in_app_iff, RS. split.
      + intros Hx. destruct (in_dec DE x Hf); auto.
      + intros [Hx|[Hx _]]; auto. destruct x as [c i]. apply RI. destruct (HfI _ _ Hx). auto. }
  assert (DOM : forall d i, In (d, i) rest -> Hf = H /\ length Hf = k /\ forall x, In x Hf -> (fst x <= d)%N).
  { intros d i Hin. apply RS in Hin. destruct Hin as [Hr Hn]. apply RI in Hr. pose proof (SM _ _ Hr) as Ld. destruct (FB d i Hr) as [Hin|[D1 D2]].
    - exfalso. apply Hn. apply filter_In. split; auto. apply N.ltb_lt. auto.
    - assert (EH : Hf = H). { unfold Hf. clear -D2 Ld. induction H as [|x H IH]; cbn; auto. rewrite (proj2 (N.ltb_lt (fst x) INF)). { f_equal. apply IH. intros; apply D2; right; auto. } specialize (D2 x ltac:(left; auto)). lia. }
      rewrite EH. split; auto. split; [lia|auto]. }
  exists ans, (map g rest). split; auto. assert (LT : length targets = length ans) by (eapply F2_length; eauto).
  assert (ER : reached targets ans = map g (ri 0 ans)). { rewrite (ri_reached targets ans 0 LT). apply map_ext. intros [d i]. cbn. rewrite Nat.sub_0_r. auto. }
  split. { rewrite ER. fold Hf. rewrite <- map_app. apply Permutation_map. auto. }
  split.
  - rewrite ER, !map_length. fold Hf. apply Permutation_length in P. rewrite app_length in P. assert (LF : length Hf <= length H) by apply filter_length_le. destruct rest as [|[d i] r] eqn:Er.
    + cbn in P. lia.
    + destruct (DOM d i ltac:(left; auto)) as (_ & L & _). cbn in P. lia.
  - intros x y Hx Hy. apply in_map_iff in Hx, Hy. destruct Hx as ([c i] & <- & Hx). destruct Hy as ([d j] & <- & Hy). cbn [fst g]. destruct (DOM d j Hy) as (_ & _ & D). apply (D (c, i)). auto.
Qed.

Lemma light_short n lb : upward n lb -> light_arcs n lb -> SHORT n lb.
Proof.
  intros UB LA u v l Hu W. assert (G : v < n /\ u <= v /\ (N.of_nat n * l <= N.of_nat (v - u) * (INF - 1))%N).
  { revert Hu. induction W as [u|u x v w l Ha W IH]; intros Hu. { split; auto. split; auto. lia. }
    destruct (up_arc n lb u x w UB Ha Hu) as (H1 & H2 & _). destruct (IH H2) as (G1 & G2 & G3). split; auto. split; [lia|]. specialize (LA _ _ _ Ha). replace (N.of_nat (v - u)) with (N.of_nat (v - x) + N.of_nat (x - u))%N by lia. rewrite N.mul_add_distr_l, N.mul_add_distr_r.
    assert (INF - 1 <= N.of_nat (x - u) * (INF - 1))%N. { rewrite <- (N.mul_1_l (INF - 1)) at 1. apply N.mul_le_mono_r. lia. } lia. }
  destruct G as (G1 & G2 & G3). apply N.nle_gt. intros L. assert (N.of_nat n * INF <= N.of_nat n * l)%N by (apply N.mul_le_mono_l; auto).
  assert (N.of_nat (v - u) * (INF - 1) <= N.of_nat n * (INF - 1))%N by (apply N.mul_le_mono_r; lia). assert (INF - 1 < INF)%N by (unfold INF; lia). assert (N.of_nat n * (INF - 1) < N.of_nat n * INF)%N by (apply N.mul_lt_mono_pos_l; lia). lia.
Qed.

Section Queries.
  Context (n : nat) (arc : nat -> nat -> N -> Prop) (order ranks : list nat) (lf lb : nat -> option (list (nat * N))).
  Hypothesis HH : hierarchy n arc order ranks lf lb.
  Context (elim : list (option nat)).
  Hypothesis EL : length elim = n.
  Hypothesis EP : forall x p, nth_error elim x = Some (Some p) -> x < p < n.
  Context (links : idlinks).
  Hypothesis HG : up_graph n elim links.
  Hypothesis HLf : forall x ls, links x = Some ls -> lf x = Some (map fst ls).
  Context (sort : list (nat * N) -> list (nat * N)).
  Hypothesis HS : bucket_sort sort.
  Hypothesis HL : light_arcs n lb.

  Definition bnR (l : list (nat * N)) : Prop := StronglySorted le_snd l /\ NoDup (map fst l).
  Definition BnOK (b : bnn) (o : option (list nat)) : Prop := clean n (bn_sel b) /\ BInv n (bn_heap b) /\ data (bn_heap b) = [] /\ bn_fd b = repeat INF n /\
    match o with None => True | Some ts => NoDup ts /\ (forall t, In t ts -> t < n) /\ exists S, BI n lf lb ts bnR n S (bn_sel b) end.

  Lemma bnn_new_ok : BnOK (bnn_new n) None.
  Proof. split; [exact (proj1 (bp_new_ok n lf lb))|]. split; [apply Inv_new|]. auto. Qed.

  Lemma bnR_filter f l : bnR l -> bnR (filter f l).
  Proof.
    intros [S1 S2]. split.
    - induction l as [|x l IH]; cbn; [constructor|]. apply StronglySorted_inv in S1 as [A1 A2]. cbn in S2. inversion S2; subst. destruct (f x); [|auto]. constructor; auto. rewrite Forall_forall in A2 |- *. intros y Hy. apply filter_In in Hy. apply A2. tauto.
    - induction l as [|x l IH]; cbn; [constructor|]. cbn in S2. inversion S2; subst. apply StronglySorted_inv in S1 as [S1 _]. destruct (f x); [|auto]. cbn. constructor; auto. intros H. apply H1. apply in_map_iff in H. destruct H as (y & E & Hy). apply in_map_iff. exists y. split; auto. apply filter_In in Hy. tauto.
  Qed.

  Lemma bnn_select_ok b o targets : BnOK b o -> NoDup targets -> (forall t, In t targets -> t < n) ->
    exists b' ts, bnn_select n ranks lf lb sort b targets = Some b' /\ mapM (fun t => nth_error ranks t) targets = Some ts /\ BnOK b' (Some ts).
  Proof.
    intros (C & I & D & F & _) ND HT. unfold bnn_select. destruct (targets_ranks n arc order ranks lf lb HH targets ND HT) as (ts & Ets & NDs & HTs & Ls). rewrite Ets. cbn [bind].
    destruct (bs_run_ok n lf lb ts sort (hi_fw _ _ _ _ _ _ HH) (hi_bw _ _ _ _ _ _ HH) NDs HTs (fun l => proj1 (HS l)) bnR) with (b := bn_sel b) as (s' & S & Eb & Cb & Bb); auto.
    { intros l NDl. destruct (HS l) as [P S]. split; auto. eapply Permutation_NoDup; [apply Permutation_map; exact P|]. apply NDl. apply light_short; auto. apply (hi_bw _ _ _ _ _ _ HH). }
    { split; constructor. } { apply bnR_filter. }
    rewrite Eb. cbn [bind]. eexists. exists ts. split; [reflexivity|]. split; auto. split; auto. split; auto. split; auto. split; auto. split; auto. split; auto. eauto.
  Qed.

  Lemma uarc_garc x y w : uarc links x y w -> garc lf x y w.
  Proof. intros (e & ls & E & Hin). exists (map fst ls). split; auto. apply in_map_iff. exists (y, w, e). auto. Qed.
  Lemma garc_uarc x y w : x < n -> garc lf x y w -> uarc links x y w.
  Proof. intros Hx (ls & E & Hin). destruct (HG x Hx) as (ls' & E' & _). rewrite (HLf _ _ E') in E. injection E as <-. apply in_map_iff in Hin. destruct Hin as ([[y' w'] e] & Eq & Hin). injection Eq as -> ->. exists e, ls'. auto. Qed.

  (** every path is seen in a bucket *)
  Lemma via_path ts R S b i t : BI n lf lb ts R n S b -> (forall t, In t ts -> t < n) -> nth_error ts i = Some t -> forall j x l, n - x < j -> x < n -> meets (garc lf) (garc lb) x t l -> (l < INF)%N ->
    exists m a es e, walk (uarc links) x m a /\ nth_error (bs_dist b) m = Some es /\ In (i, e) es /\ (a + e <= l)%N.
  Proof.
    intros HB HT Et. induction j as [|j IH]; intros x l Hj Hx M Ll; [lia|]. destruct (nth_error_lt (bs_dist b) x) as (es & Ees). { rewrite (bi_ld _ _ _ _ _ _ _ _ HB). auto. }
    destruct (bucket_split n arc order ranks lf lb ts HH R S b HB HT i t x l es Et Hx Ees M Ll) as [(e & Le & He)|(y & w & l' & Fy & My & Ly)].
    - exists x, 0%N, es, e. split; [constructor|]. split; auto.
    - destruct (up_arc n lf x y w (hi_fw _ _ _ _ _ _ HH) Fy Hx) as (H1 & H2 & _). destruct (IH y l' ltac:(lia) H2 My ltac:(lia)) as (m & a & es' & e & W & Em & He & Le). exists m, (w + a)%N, es', e. split; [|split; auto; split; auto; lia]. econstructor; eauto. apply garc_uarc; auto.
  Qed.

  (** distances exist *)
  Lemma answers targets v : NoDup targets -> (forall t, In t targets -> t < n) -> v < n -> exists ans, Forall2 (fun t r => exact_answer arc v t r) targets ans.
  Proof.
    intros ND HT Hv. destruct (bp_init_ok n arc order ranks lf lb HH (bp_new n) None targets (bp_new_ok n lf lb) ND HT) as (p & ts & _ & Ets & OK).
    destruct (bp_value_ok n arc order ranks lf lb HH p targets ts v OK Ets Hv) as (_ & row & _ & _ & Lr & HR). exists (map (fun d => if (d <? INF)%N then Some d else None) row). clear -Lr HR.
    revert row Lr HR. induction targets as [|t targets IH]; intros [|d row] Lr HR; try discriminate; cbn [map]; constructor.
    - destruct (HR 0 t eq_refl) as (d' & E & H). cbn in E. injection E as ->. auto.
    - apply IH; auto. intros i t' Ei. apply (HR (S i) t'). auto.
  Qed.

  Lemma bnn_query_ok b targets ts source k : BnOK b (Some ts) -> NoDup targets -> (forall t, In t targets -> t < n) -> mapM (fun t => nth_error ranks t) targets = Some ts -> source < n ->
    exists b' res, bnn_query n ranks links elim b targets source k = Some (b', res) /\ BnOK b' (Some ts) /\
      length res <= k /\ nearest arc source targets k (filter (fun x => fst x <? INF)%N res).
  Proof.
    intros (C & I & D & F & NDs & HTs & S & HB) ND HT Ets Hv. unfold bnn_query. destruct (rank_ok n arc order ranks lf lb HH source Hv) as (s & Es & Hs & Os). rewrite Es. cbn [bind]. rewrite F.
    pose proof (mapM_inv _ _ _ Ets) as F2.
    assert (BS : forall p es i e, nth_error (bs_dist (bn_sel b)) p = Some es -> In (i, e) es -> exists t, nth_error ts i = Some t /\ i < n /\ (e <= INF)%N /\ ((e < INF)%N -> walk (garc lb) t p e)).
    { intros p es i e Ees Hin. pose proof (nth_error_Some_lt _ _ _ Ees) as Hp. rewrite (bi_ld _ _ _ _ _ _ _ _ HB) in Hp. destruct (bucket_sound n lf lb ts bnR S (bn_sel b) HB p es i e Hp Ees Hin) as (t & Et & Le & W). exists t. split; auto. split; auto.
      apply nth_error_Some_lt in Et. assert (length ts <= length (seq 0 n)). { apply NoDup_incl_length; auto. intros r Hr. apply in_seq. specialize (HTs r Hr). lia. } rewrite seq_length in H. lia. }
    destruct (walk_query n elim EL EP links HG (bs_dist (bn_sel b)) (bi_ld _ _ _ _ _ _ _ _ HB)) with (s := s) (k := k) (h := bn_heap b) as (w0 & w & h & E0 & E1 & QD & I' & Lk & CV & SD); auto.
    { intros p es Ees. pose proof (nth_error_Some_lt _ _ _ Ees) as Hp. rewrite (bi_ld _ _ _ _ _ _ _ _ HB) in Hp. destruct (bi_r _ _ _ _ _ _ _ _ HB p es Hp Ees) as [R1 R2]. split; auto. split; auto. intros i e Hin. destruct (BS p es i e Ees Hin) as (t & _ & H1 & H2 & _). auto. }
    rewrite E0. cbn [bind]. rewrite E1. cbn [bind]. unfold hdrain. destruct (hclear_spec _ bh_idx bh_lt n h I') as (P' & EP' & IP & _). rewrite EP'. cbn [bind].
    set (H := data h) in *. assert (LT : length ts = length targets) by (symmetry; eapply F2_length; eauto).
    assert (EM : forall l, incl l H -> mapM (fun x => t <- nth_error targets (snd x) ;; Some (fst x, t)) l = Some (map (fun x => (fst x, nth (snd x) targets 0)) l)).
    { induction l as [|[c i] l IH]; intros IN; cbn [mapM map]; auto. destruct (SD c i (IN _ (or_introl eq_refl))) as (p & es & e & Hp & Ees & Hin & _). destruct (BS p es i e Ees Hin) as (t & Et & _). apply nth_error_Some_lt in Et.
      cbn [fst snd]. rewrite (nth_error_nth' targets 0) by lia. cbn [bind]. rewrite IH by (intros x Hx; apply IN; right; auto). auto. }
    rewrite (EM H (incl_refl _)). cbn [bind]. eexists. eexists. split; [reflexivity|]. split.
    { split; auto. split; auto. split; auto. split; auto. split; auto. split; auto. eauto. }
    split. { rewrite map_length. auto. }
    assert (EF : filter (fun x : N * nat => fst x <? INF)%N (map (fun x => (fst x, nth (snd x) targets 0)) H) = map (fun x => (fst x, nth (snd x) targets 0)) (filter (fun x => fst x <? INF)%N H)).
    { clear. induction H as [|x H IH]; cbn [map filter]; auto. cbn [fst]. destruct (fst x <? INF)%N; cbn [map]; rewrite IH; auto. }
    rewrite EF. destruct (answers targets source ND HT Hv) as (ans & FA).
    assert (GOT : forall i d, nth_error ans i = Some (Some d) -> (d < INF)%N /\ cov k h i d /\ forall c, In (c, i) H -> (c < INF)%N -> (d <= c)%N).
    { intros i d Ei. assert (Li : i < length targets). { apply nth_error_Some_lt in Ei. pose proof (F2_length _ _ _ FA). lia. } destruct (nth_error_lt targets i Li) as (t & Et). destruct (Forall2_nth _ _ _ i t FA Et) as (r & Er & HE). assert (r = Some d) by congruence. subst r. destruct HE as (Ld & Wd & Md).
      destruct (Forall2_nth _ _ _ i t F2 Et) as (rt & Ert & Hrt). cbn in Hrt. assert (Ot : nth_error order rt = Some t). { destruct (hi_order _ _ _ _ _ _ HH) as (_ & _ & _ & O2). auto. }
      split; auto. split.
      - destruct (hi_complete _ _ _ _ _ _ HH s rt source t d Os Ot Wd Ld) as (l' & M & Ll). destruct (via_path ts bnR S (bn_sel b) i rt HB HTs Ert (Datatypes.S n) s l' ltac:(lia) Hs M ltac:(lia)) as (m & a & es & e & W & Em & He & Le). eapply cov_mono; [eapply CV; eauto|lia].
      - intros c Hc Lc. destruct (SD c i Hc) as (p & es & e & Hp & Ees & Hin & HW). destruct (HW Lc) as (a & W & ->). destruct (BS p es i e Ees Hin) as (t' & Et' & _ & _ & W'). assert (t' = rt) by congruence. subst t'. apply Md. apply (hi_sound _ _ _ _ _ _ HH s rt source t); auto.
        exists p, a, e. split; [|split; [apply W'; lia|auto]]. revert W. apply walk_mono. apply uarc_garc. }
    apply (nearest_of_heap arc source targets ans k H FA); auto. { apply (data_dom n h I'). }
    - intros c i Hc Lc. destruct (SD c i Hc) as (p & es & e & Hp & Ees & Hin & HW). destruct (HW Lc) as (a & W & Ec). destruct (BS p es i e Ees Hin) as (rt & Ert & _ & _ & W').
      assert (Li : i < length targets). { apply nth_error_Some_lt in Ert. lia. } destruct (nth_error_lt targets i Li) as (t & Et). destruct (Forall2_nth _ _ _ i t FA Et) as (r & Er & HE). destruct (Forall2_nth _ _ _ i t F2 Et) as (rt' & Ert' & Hrt). cbn in Hrt. assert (rt' = rt) by congruence. subst rt'.
      assert (Ot : nth_error order rt = Some t). { destruct (hi_order _ _ _ _ _ _ HH) as (_ & _ & _ & O2). auto. }
      assert (Wc : walk arc source t c). { apply (hi_sound _ _ _ _ _ _ HH s rt source t); auto. exists p, a, e. split; [|split; [apply W'; lia|auto]]. revert W. apply walk_mono. apply uarc_garc. }
      destruct r as [d|]; [|cbn in HE; specialize (HE c Wc); lia]. rewrite Er. do 2 f_equal. destruct (GOT i d Er) as (Ld & CVd & Md). specialize (Md c Hc Lc). assert (c <= d)%N; [|lia]. destruct CVd as [(d' & Hd & Ldd)|[_ Dm]]; [|apply (Dm (c, i)); auto]. assert (d' = c) by (apply (data_uniq n h _ _ i I'); auto). lia.
    - intros d i Ei. destruct (GOT i d Ei) as (Ld & CVd & Md). destruct CVd as [(d' & Hd & Ldd)|Dm]; [|right; exact Dm]. left. specialize (Md d' Hd ltac:(lia)). assert (d' = d) by lia. subst. auto.
  Qed.
End Queries.
