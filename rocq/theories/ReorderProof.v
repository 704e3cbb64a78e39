(** The order made by reorder_for_seperator_based_customization: its separator tree validates for parallelization. *)
From Verif Require Import Base BitVec Graph GraphProof SpecGraph SpecCCH CCH CCHTheory CCHContractProof CCHBuildProof CCHPathTheory NodeOrder NodeOrderProof SepTree SepTreeProof CCHParTreeProof.
From Coq Require Import Sorting.Sorted.

(** contract of sort_unstable_by_key with the key num_nodes *)
Definition size_sort (sort : list septree -> list septree) : Prop :=
  forall l, Permutation (sort l) l /\ StronglySorted le (map st_num (sort l)).

Lemma asc_unique (l : list nat) : forall l', ascending_list l -> ascending_list l' -> (forall x, In x l <-> In x l') -> l = l'.
Proof.
  induction l as [|a l IH]; intros [|b l'] H H' E; auto.
  - destruct (proj2 (E b) (or_introl eq_refl)).
  - destruct (proj1 (E a) (or_introl eq_refl)).
  - apply ss_inv in H as [H1 H2]. apply ss_inv in H' as [H1' H2'].
    assert (a = b). { destruct (proj1 (E a) (or_introl eq_refl)) as [|K]; auto. destruct (proj2 (E b) (or_introl eq_refl)) as [|K']; auto. apply H2 in K'. apply H2' in K. lia. }
    subst b. f_equal. apply IH; auto. intros x. split; intros K.
    + destruct (proj1 (E x) (or_intror K)) as [->|]; auto. apply H2 in K. lia.
    + destruct (proj2 (E x) (or_intror K)) as [->|]; auto. apply H2' in K. lia.
Qed.

Lemma total_app l1 l2 : total (l1 ++ l2) = total l1 + total l2.
Proof. unfold total. rewrite map_app, list_sum_app. auto. Qed.
Lemma total_cons t l : total (t :: l) = st_num t + total l.
Proof. reflexivity. Qed.
Lemma total_perm l l' : Permutation l l' -> total l = total l'.
Proof. induction 1; rewrite ?total_cons; lia. Qed.

(** where the nodes of a tree go when its nodes get the numbers o .. o + num - 1 *)
Fixpoint lay (o : nat) (t : septree) : septree :=
  match t with Sep s l k =>
    Sep (Consecutive (o + total l) (o + k)) ((fix go (l : list septree) := match l with [] => [] | c :: l' => go l' ++ [lay (o + total l') c] end) l) k
  end.
Definition layl (o : nat) : list septree -> list septree :=
  fix go (l : list septree) := match l with [] => [] | c :: l' => go l' ++ [lay (o + total l') c] end.
Lemma lay_eq o s l k : lay o (Sep s l k) = Sep (Consecutive (o + total l) (o + k)) (layl o l) k.
Proof. reflexivity. Qed.
Lemma layl_cons o c l : layl o (c :: l) = layl o l ++ [lay (o + total l) c].
Proof. reflexivity. Qed.
Lemma lay_num o t : st_num (lay o t) = st_num t.
Proof. destruct t. reflexivity. Qed.
Lemma layl_num o l : map st_num (layl o l) = rev (map st_num l).
Proof. induction l as [|c l IH]; auto. rewrite layl_cons, map_app, IH. cbn [map rev]. rewrite lay_num. auto. Qed.
Lemma layl_total o l : total (layl o l) = total l.
Proof. induction l as [|c l IH]; auto. rewrite layl_cons, total_app, IH, !total_cons, lay_num. cbn. lia. Qed.

Section Elim.
  Variable n : nat.
  Variable elim : list (option nat).
  Hypothesis HF : forest n elim.

  Inductive psep : nat -> septree -> Prop :=
  | ps_intro r xs y s ks subs k : only elim r xs y -> length (kids elim (Some y)) <> 1 -> sn_list s = r :: xs -> Permutation ks (kids elim (Some y)) ->
      Forall2 psep ks subs -> StronglySorted le (map st_num subs) -> k = length (r :: xs) + total subs -> psep r (Sep s subs k).
  Lemma psep_inv r s subs k : psep r (Sep s subs k) -> exists xs y ks, only elim r xs y /\ length (kids elim (Some y)) <> 1 /\ sn_list s = r :: xs /\ Permutation ks (kids elim (Some y)) /\
      Forall2 psep ks subs /\ StronglySorted le (map st_num subs) /\ k = length (r :: xs) + total subs.
  Proof using. intros H. inversion H as [r' xs y s' ks subs' k' H1 H2 H3 H4 H5 H6 H7]. exists xs, y, ks. auto 10. Qed.

  Lemma reorder_list sort f ks l : Forall2 (sep_ok elim) ks l ->
    (forall t, In t l -> forall r, sep_ok elim r t -> exists t', reorder_children sort f t = Some t' /\ psep r t' /\ st_num t' = st_num t) ->
    exists l', mapM (reorder_children sort f) l = Some l' /\ Forall2 psep ks l' /\ map st_num l' = map st_num l.
  Proof using.
    induction 1 as [|r t ks l H F IH]; intros HI. { exists []. cbn. auto. }
    destruct (HI t (or_introl eq_refl) r H) as (t' & E & P & N). destruct IH as (l' & E' & F' & N'). { intros; apply HI; auto; right; auto. }
    exists (t' :: l'). cbn [mapM]. rewrite E, E'. cbn [bind map]. split; auto. split; [constructor; auto|congruence].
  Qed.
  Lemma list_max_ge l x : In x l -> x <= list_max l.
  Proof using. clear. induction l as [|a l IH]; intros []; cbn [list_max fold_right]; fold (list_max l); subst; [lia|]. apply IH in H. lia. Qed.
  Lemma sorted_kids sort ks l : size_sort sort -> Forall2 (sep_ok elim) ks l -> exists ks', Permutation ks' ks /\ Forall2 (sep_ok elim) ks' (sort l).
  Proof using.
    intros HS F. destruct (HS l) as [P _]. apply Permutation_sym in P.
    assert (F' : Forall2 (fun t r => sep_ok elim r t) l ks) by (clear -F; induction F; constructor; auto).
    destruct (Permutation_Forall2 P F') as (ks' & Pk & Fk). exists ks'. split; [apply Permutation_sym; auto|]. clear -Fk. induction Fk; constructor; auto.
  Qed.
  Lemma reorder_ok sort : size_sort sort -> forall t fuel r, sep_ok elim r t -> st_height t < fuel ->
    exists t', reorder_children sort fuel t = Some t' /\ psep r t' /\ st_num t' = st_num t.
  Proof using.
    intros HS. induction t as [s l k IH] using septree_ind2. intros [|f] r H Hf; [lia|]. rewrite Forall_forall in IH.
    inversion H as [r' xs y subs O K F Er Es]. subst r' subs s k. destruct (sorted_kids sort _ _ HS F) as (ks & Pk & Fk). destruct (HS l) as [P Srt].
    destruct (reorder_list sort f ks (sort l) Fk) as (l' & E & F' & N).
    { intros t Ht r0 H0. assert (Hl : In t l) by (eapply Permutation_in; eauto). apply IH; auto. cbn [st_height] in Hf. pose proof (list_max_ge (map st_height l) _ (in_map st_height _ _ Hl)). lia. }
    set (s := fold_left sn_push xs (sn_one r)) in *. set (k := length (r :: xs) + total l). exists (Sep s l' k). cbn [reorder_children]. rewrite E. cbn [bind]. split; auto. split; auto.
    apply (ps_intro r xs y s ks l' k); auto.
    - apply sn_one_list.
    - rewrite N. auto.
    - unfold k. f_equal. unfold total. rewrite N. apply Permutation_sym, total_perm in P. exact P.
  Qed.

  Lemma psep_list_nodes q ks subs : Permutation ks (kids elim q) -> Forall2 psep ks subs ->
    (forall t, In t subs -> forall r, psep r t -> (forall z, In z (to_ordering t) <-> ancestor elim z r) /\ NoDup (to_ordering t) /\ length (to_ordering t) = st_num t) ->
    (forall z, In z (flat_map to_ordering subs) <-> exists c, In c (kids elim q) /\ ancestor elim z c) /\ NoDup (flat_map to_ordering subs) /\ length (flat_map to_ordering subs) = total subs.
  Proof using HF.
    intros P F IH. split; [|split].
    - intros z. rewrite in_flat_map. split.
      + intros (t & Ht & Hz). destruct (Forall2_In_r _ _ _ _ F Ht) as (c & Hc & Hs). exists c. split; [eapply Permutation_in; eauto|]. apply (IH t Ht c Hs). auto.
      + intros (c & Hc & Hz). eapply Permutation_in in Hc; [|apply Permutation_sym; exact P]. destruct (Forall2_In_l _ _ _ _ F Hc) as (t & Ht & Hs). exists t. split; auto. apply (IH t Ht c Hs). auto.
    - assert (ND : NoDup ks) by (eapply Permutation_NoDup; [apply Permutation_sym, P|apply kids_NoDup]).
      assert (Dj : forall a b z, In a ks -> In b ks -> ancestor elim z a -> ancestor elim z b -> a = b).
      { intros a b z Ha Hb. apply (kids_disjoint n elim HF q); eapply Permutation_in; eauto. }
      clear -F ND Dj IH. induction F as [|c t cs ts Hs F IHF]; cbn. { constructor. } inversion ND; subst.
      rewrite NoDup_app_iff. split. { apply (IH t (or_introl eq_refl) c Hs). } split.
      { apply IHF; auto. - intros; apply IH; auto. right; auto. - intros a b z Ha Hb. apply Dj; right; auto. }
      intros z Hz Hz'. apply in_flat_map in Hz' as (t' & Ht' & Hz'). destruct (Forall2_In_r _ _ _ _ F Ht') as (c' & Hc' & Hs').
      apply (IH t (or_introl eq_refl) c Hs) in Hz. apply (IH t' (or_intror Ht') c' Hs') in Hz'.
      assert (c = c') by (eapply Dj; [left; auto|right; exact Hc'| |]; eauto). subst. auto.
    - unfold total. clear -IH F. induction F as [|c t cs ts Hs F IHF]; cbn; auto. rewrite app_length. f_equal; [|apply IHF; intros; apply IH; auto; right; auto].
      apply (IH t (or_introl eq_refl) c Hs).
  Qed.
  Lemma psep_nodes t : forall r, psep r t -> (forall z, In z (to_ordering t) <-> ancestor elim z r) /\ NoDup (to_ordering t) /\ length (to_ordering t) = st_num t.
  Proof using HF.
    induction t as [s l k IH] using septree_ind2. intros r H. apply psep_inv in H as (xs & y & ks & O & K & Es & P & F & Srt & Ek). rewrite Forall_forall in IH.
    destruct (psep_list_nodes _ _ _ P F IH) as (Hin & ND & Len). cbn [to_ordering st_num]. rewrite Es.
    split. { intros z. rewrite in_app_iff, Hin. symmetry. apply (only_anc elim); auto. }
    split.
    - destruct (only_desc n elim HF _ _ _ O) as [D1 D2].
      rewrite NoDup_app_iff. split. { clear -D1. induction D1; constructor; auto. rewrite Forall_forall in H. intros Hi. apply H in Hi. lia. }
      split; auto. intros z Hz Hz'. apply Hin in Hz' as (c & Hc & Hz'). apply kids_In, (fr_up _ _ HF) in Hc. apply (anc_le n elim HF) in Hz'. apply D2 in Hz. lia.
    - rewrite app_length, Len. auto.
  Qed.
  Lemma psep_hd t r : psep r t -> exists l, to_ordering t = r :: l.
  Proof using. destruct t as [s l k]. intros H. apply psep_inv in H as (xs & y & ks & O & K & Es & _). cbn [to_ordering]. rewrite Es. cbn [app]. eauto. Qed.
  Lemma psep_pos t r : psep r t -> 0 < st_num t.
  Proof using. destruct t as [s l k]. intros H. apply psep_inv in H as (xs & y & ks & O & K & Es & _ & _ & _ & ->). cbn [st_num st_children length]. lia. Qed.
  Lemma psep_sep t r : psep r t -> total (st_children t) < st_num t.
  Proof using. destruct t as [s l k]. intros H. apply psep_inv in H as (xs & y & ks & O & K & Es & _ & _ & _ & ->). cbn [st_num st_children length]. lia. Qed.

  (** parents come before their children *)
  Definition before (l : list nat) (a b : nat) : Prop := exists l1 l2 l3, l = l1 ++ a :: l2 ++ b :: l3.
  Lemma before_l l l' a b : before l a b -> before (l ++ l') a b.
  Proof using. clear. intros (l1 & l2 & l3 & ->). exists l1, l2, (l3 ++ l'). rewrite <- ?app_assoc. cbn [app]. rewrite <- ?app_assoc. auto. Qed.
  Lemma before_r l l' a b : before l a b -> before (l' ++ l) a b.
  Proof using. clear. intros (l1 & l2 & l3 & ->). exists (l' ++ l1), l2, l3. rewrite <- !app_assoc. auto. Qed.
  Lemma before_m l l' a b : In a l -> In b l' -> before (l ++ l') a b.
  Proof using. clear. intros H H'. apply in_split in H as (l1 & l2 & ->). apply in_split in H' as (l3 & l4 & ->). exists l1, (l2 ++ l3), l4. rewrite <- ?app_assoc. cbn [app]. rewrite <- ?app_assoc. auto. Qed.
  Lemma before_flat (l : list septree) t a b : In t l -> before (to_ordering t) a b -> before (flat_map to_ordering l) a b.
  Proof using. clear. intros H. apply in_split in H as (l1 & l2 & ->). rewrite flat_map_app. cbn [flat_map]. intros. apply before_r, before_l. auto. Qed.

  Lemma kids_parent z p p' : In z (kids elim (Some p)) -> nth_error elim z = Some p' -> p' = Some p.
  Proof using. intros H E. apply kids_In in H. congruence. Qed.
  Lemma only_before r xs y : only elim r xs y -> forall z p, In z xs -> nth_error elim z = Some (Some p) -> before (r :: xs) p z.
  Proof using.
    induction 1 as [x|x z0 xs y E O IH]; intros z p Hz Ep; [destruct Hz|]. destruct Hz as [->|Hz].
    - assert (Hk : In z (kids elim (Some x))) by (rewrite E; left; auto). pose proof (kids_parent _ _ _ Hk Ep) as [= ->]. exists [], [], xs. auto.
    - apply (before_r (z0 :: xs) [x]). auto.
  Qed.
  Lemma only_last r xs y : only elim r xs y -> In y (r :: xs).
  Proof using. induction 1; [left; auto|right; auto]. Qed.
  Lemma psep_before t : forall r, psep r t -> forall z p, In z (to_ordering t) -> In p (to_ordering t) -> nth_error elim z = Some (Some p) -> before (to_ordering t) p z.
  Proof using HF.
    induction t as [s l k IH] using septree_ind2. intros r H z p Hz Hp E. rewrite Forall_forall in IH.
    destruct (psep_nodes _ _ H) as (SN & _). apply SN in Hp. apply psep_inv in H as (xs & y & ks & O & K & Es & P & F & Srt & Ek).
    cbn [to_ordering] in *. rewrite Es in *. apply in_app_iff in Hz as [[<-|Hz]|Hz].
    - apply (anc_le n elim HF) in Hp. apply (fr_up _ _ HF) in E. lia.
    - apply before_l. eapply only_before; eauto.
    - apply in_flat_map in Hz as (t & Ht & Hz). destruct (Forall2_In_r _ _ _ _ F Ht) as (c & Hc & Hs). destruct (psep_nodes _ _ Hs) as (SNt & _).
      pose proof (proj1 (SNt z) Hz) as Ha. inversion Ha as [x|x p' y' E' Ha']; subst.
      + eapply Permutation_in in Hc; [|exact P]. pose proof (kids_parent _ _ _ Hc E) as [= ->]. apply before_m; [apply only_last; auto|]. apply in_flat_map; eauto.
      + rewrite E in E'. injection E' as ->. apply before_r. eapply before_flat; eauto. eapply IH; eauto. apply SNt. auto.
  Qed.

  (** ** validation of the laid out tree *)
  Lemma lay_high o t r : psep r t -> sn_high (st_nodes (lay o t)) = Some (o + st_num t - 1).
  Proof using.
    intros H. pose proof (psep_sep _ _ H). destruct t as [s l k]. cbn [st_children st_num] in *. rewrite lay_eq. cbn [st_nodes sn_high].
    rewrite (proj2 (Nat.ltb_lt _ _)) by lia. auto.
  Qed.
  Lemma layl_ranges o ks l : Forall2 psep ks l -> foldM child_range (layl o l) o = Some (o + total l).
  Proof using.
    induction 1 as [|r t ks l H F IH]. { cbn. f_equal. lia. } rewrite layl_cons, foldM_app, IH. cbn [bind foldM]. unfold child_range.
    rewrite (lay_high _ _ _ H), lay_num. cbn [bind]. pose proof (psep_pos _ _ H). unfold csub. rewrite (proj2 (Nat.leb_le _ _)) by lia. cbn [bind].
    rewrite (proj2 (Nat.eqb_eq _ _)) by lia. cbn [guard bind]. rewrite total_cons. f_equal. lia.
  Qed.
  Lemma descend_snoc l x : sizes_descend l = true -> (forall a, In a l -> st_num x <= st_num a) -> sizes_descend (l ++ [x]) = true.
  Proof using.
    clear. induction l as [|a [|b l] IH]; cbn [app]; intros H Hx; auto.
    - cbn. rewrite (proj2 (Nat.leb_le _ _)); auto. apply Hx. left; auto.
    - cbn in H. apply andb_prop in H as [H1 H2]. cbn [sizes_descend]. rewrite H1. cbn [andb]. apply IH; auto. intros; apply Hx. right; auto.
  Qed.
  Lemma layl_In o l a : In a (layl o l) -> exists t, In t l /\ st_num a = st_num t.
  Proof using. clear. induction l as [|c l IH]. { intros []. } rewrite layl_cons, in_app_iff. intros [H|[<-|[]]]. - destruct (IH H) as (t & ? & ?). exists t. split; auto. right; auto. - exists c. split; [left; auto|]. apply lay_num. Qed.
  Lemma layl_sizes o l : StronglySorted le (map st_num l) -> sizes_descend (layl o l) = true.
  Proof using.
    clear. induction l as [|c l IH]; intros H; auto. rewrite layl_cons. cbn [map] in H. apply StronglySorted_inv in H as [H1 H2]. rewrite Forall_forall in H2.
    apply descend_snoc; auto. intros a Ha. apply layl_In in Ha as (t & Ht & ->). rewrite lay_num. apply H2. apply in_map. auto.
  Qed.
  Lemma lay_validate t : forall o r, psep r t -> validate (lay o t) = Some tt.
  Proof using.
    induction t as [s l k IH] using septree_ind2. intros o r H. rewrite Forall_forall in IH. pose proof (lay_high o _ _ H) as Hh. pose proof (psep_pos _ _ H).
    apply psep_inv in H as (xs & y & ks & O & K & Es & P & F & Srt & Ek). rewrite lay_eq in *. cbn [st_nodes st_num] in *.
    eapply validate_intro; [reflexivity|rewrite Hh; reflexivity| | | |].
    - unfold csub. rewrite (proj2 (Nat.leb_le _ _)) by lia. reflexivity.
    - replace (o + k - 1 + 1 - k) with o by lia. eapply layl_ranges; eauto.
    - apply layl_sizes; auto.
    - clear -IH F. induction F as [|r t ks l H F IHF]. { constructor. } rewrite layl_cons. apply Forall_app. split. { apply IHF. intros; eapply IH; eauto. right; auto. }
      constructor; auto. eapply IH; eauto. left; auto.
  Qed.
  Lemma layl_valid o ks l : Forall2 psep ks l -> Forall (fun t => validate t = Some tt) (layl o l).
  Proof using.
    induction 1 as [|r t ks l H F IHF]. { constructor. } rewrite layl_cons. apply Forall_app. split; auto. constructor; auto. eapply lay_validate; eauto.
  Qed.
End Elim.

Lemma sn_consecutive a b m : fold_left sn_push (rev (seq a m)) (Consecutive (a + m) b) = Consecutive a b.
Proof.
  revert b. induction m as [|m IH]; intros b. { cbn. f_equal. lia. }
  rewrite seq_S, rev_app_distr. cbn [rev app fold_left sn_push]. rewrite (proj2 (Nat.ltb_lt 0 (a + S m))) by lia.
  rewrite (proj2 (Nat.eqb_eq (a + m) (a + S m - 1))) by lia. cbn [andb]. replace (a + S m - 1) with (a + m) by lia. apply IH.
Qed.
Lemma only_det elim r xs y : only elim r xs y -> length (kids elim (Some y)) <> 1 -> forall xs' y', only elim r xs' y' -> length (kids elim (Some y')) <> 1 -> xs = xs' /\ y = y'.
Proof.
  induction 1 as [x|x z xs y E O IH]; intros K xs' y' O' K'; inversion O' as [a|a z' xs0 b E' O0]; subst; auto.
  - rewrite E' in K. cbn in K. lia.
  - rewrite E in K'. cbn in K'. lia.
  - rewrite E in E'. injection E' as <-. destruct (IH K _ _ O0 K') as [-> ->]. auto.
Qed.
Lemma sep_list_det elim ks l : Forall2 (sep_ok elim) ks l -> forall l', Forall2 (sep_ok elim) ks l' ->
  (forall t, In t l -> forall r t', sep_ok elim r t -> sep_ok elim r t' -> t = t') -> l = l'.
Proof.
  induction 1 as [|r t ks l Ht F IH]; intros l' F' HI; inversion F'; subst; auto. f_equal. { eapply (HI t (or_introl eq_refl)); eauto. }
  apply IH; auto. intros t0 H0. apply HI. right; auto.
Qed.
Lemma sep_ok_det elim t : forall r t', sep_ok elim r t -> sep_ok elim r t' -> t = t'.
Proof.
  induction t as [s l k IH] using septree_ind2. intros r t' H H'. rewrite Forall_forall in IH.
  inversion H as [r1 xs y subs O K F Er Es]. inversion H' as [r2 xs' y' subs' O' K' F' Er' Es']. subst.
  destruct (only_det _ _ _ _ O K _ _ O' K') as [<- <-]. rewrite (sep_list_det _ _ _ F _ F' IH). auto.
Qed.

Section Iso.
  Variable n : nat.
  Variables elim elim' : list (option nat).
  Hypothesis HF : forest n elim.
  Hypothesis HF' : forest n elim'.
  Variable pi : list nat.
  Hypothesis Lpi : length pi = n.
  Hypothesis NDpi : NoDup pi.
  Hypothesis Hiso : forall i x j q, nth_error pi i = Some x -> nth_error pi j = Some q -> (nth_error elim' i = Some (Some j) <-> nth_error elim x = Some (Some q)).
  Hypothesis HisoN : forall i x, nth_error pi i = Some x -> (nth_error elim' i = Some None <-> nth_error elim x = Some None).

  Lemma pi_inj i j x : nth_error pi i = Some x -> nth_error pi j = Some x -> i = j.
  Proof using All. intros H H'. apply (proj1 (NoDup_nth_error pi) NDpi); [apply nth_error_Some; congruence|congruence]. Qed.
  Lemma pi_ex i p : nth_error elim' i = Some p -> exists x, nth_error pi i = Some x.
  Proof using All. intros H. apply nth_error_Some_lt in H. rewrite (fr_len _ _ HF') in H. destruct (nth_error pi i) eqn:E; eauto. apply nth_error_None in E. lia. Qed.
  Lemma kids_iso j q i : nth_error pi j = Some q -> (In i (kids elim' (Some j)) <-> exists x, nth_error pi i = Some x /\ In x (kids elim (Some q))).
  Proof using All.
    intros Hj. rewrite kids_In. split.
    - intros H. destruct (pi_ex _ _ H) as (x & Hx). exists x. split; auto. apply kids_In. eapply Hiso; eauto.
    - intros (x & Hx & Hk). apply kids_In in Hk. eapply Hiso; eauto.
  Qed.
  Lemma kids_isoN i : In i (kids elim' None) <-> exists x, nth_error pi i = Some x /\ In x (kids elim None).
  Proof using All.
    rewrite kids_In. split.
    - intros H. destruct (pi_ex _ _ H) as (x & Hx). exists x. split; auto. apply kids_In. eapply HisoN; eauto.
    - intros (x & Hx & Hk). apply kids_In in Hk. eapply HisoN; eauto.
  Qed.
  Lemma nth_mid {A} (l1 l2 : list A) x : nth_error (l1 ++ x :: l2) (length l1) = Some x.
  Proof using. clear. rewrite nth_error_app2, Nat.sub_diag by lia. auto. Qed.

  Lemma only_iso r xs y : only elim r xs y -> forall l1 l2, pi = l1 ++ rev (r :: xs) ++ l2 -> only elim' (length l1 + length xs) (rev (seq (length l1) (length xs))) (length l1).
  Proof using All.
    induction 1 as [x|x z xs y E O IH]; intros l1 l2 Ep.
    - cbn [length seq rev]. replace (length l1 + 0) with (length l1) by lia. constructor.
    - cbn [length]. rewrite seq_S, rev_app_distr. cbn [rev app]. apply on_cons.
      + assert (Px : nth_error pi (length l1 + S (length xs)) = Some x).
        { rewrite Ep. cbn [rev]. rewrite <- !app_assoc. cbn [app]. replace (l1 ++ rev xs ++ z :: x :: l2) with ((l1 ++ rev xs ++ [z]) ++ x :: l2) by (rewrite <- !app_assoc; auto).
          replace (length l1 + S (length xs)) with (length (l1 ++ rev xs ++ [z])) by (rewrite !app_length, rev_length; cbn; lia). apply nth_mid. }
        assert (Pz : nth_error pi (length l1 + length xs) = Some z).
        { rewrite Ep. cbn [rev]. rewrite <- !app_assoc. cbn [app]. replace (l1 ++ rev xs ++ z :: x :: l2) with ((l1 ++ rev xs) ++ z :: x :: l2) by (rewrite <- !app_assoc; auto).
          replace (length l1 + length xs) with (length (l1 ++ rev xs)) by (rewrite !app_length, rev_length; cbn; lia). apply nth_mid. }
        apply asc_unique. { apply kids_asc. } { repeat constructor. }
        intros i. rewrite (kids_iso _ _ i Px), E. cbn [In]. split.
        * intros (x0 & Hx0 & [<-|[]]). left. eapply pi_inj; eauto.
        * intros [<-|[]]. exists z. auto.
      + replace (length l1 + length xs) with (length l1 + length xs) by lia. apply (IH l1 (x :: l2)). rewrite Ep. cbn [rev]. rewrite <- !app_assoc. auto.
  Qed.

  Fixpoint roots (o : nat) (l : list septree) : list nat := match l with [] => [] | c :: l' => roots o l' ++ [o + total l' + st_num c - 1] end.
  Lemma psep_total ks l : Forall2 (psep elim) ks l -> length (flat_map to_ordering l) = total l.
  Proof using All. induction 1 as [|r t ks l H F IH]; auto. cbn [flat_map]. rewrite app_length, IH, total_cons. f_equal. apply (psep_nodes n elim HF t r H). Qed.
  Lemma asc_snoc l x : ascending_list l -> (forall a, In a l -> a < x) -> ascending_list (l ++ [x]).
  Proof using. clear. induction l as [|a l IH]; intros H Hx; cbn. { repeat constructor. } apply ss_inv in H as [H1 H2]. apply ss_cons. { apply IH; auto. intros; apply Hx; right; auto. }
    intros y Hy. apply in_app_iff in Hy as [Hy|[<-|[]]]; auto. apply Hx. left; auto. Qed.
  Lemma lay_list l1 ks l : Forall2 (psep elim) ks l ->
    (forall t, In t l -> forall r l1 l2, psep elim r t -> pi = l1 ++ rev (to_ordering t) ++ l2 -> sep_ok elim' (length l1 + st_num t - 1) (lay (length l1) t)) ->
    forall l2, pi = l1 ++ rev (flat_map to_ordering l) ++ l2 ->
    Forall2 (sep_ok elim') (roots (length l1) l) (layl (length l1) l) /\ (forall i, In i (roots (length l1) l) <-> exists q, nth_error pi i = Some q /\ In q ks) /\
    ascending_list (roots (length l1) l) /\ forall i, In i (roots (length l1) l) -> i < length l1 + total l.
  Proof using All.
    induction 1 as [|r t ks l H F IH]; intros HI l2 Ep.
    - cbn. split; [constructor|]. split. { intros i. split; [intros []|intros (q & _ & [])]. } split; [constructor|intros i []].
    - cbn [flat_map] in Ep. rewrite rev_app_distr, <- app_assoc in Ep.
      destruct (IH ltac:(intros; eapply HI; eauto; right; auto) _ Ep) as (R1 & R2 & R3 & R4). pose proof (psep_total _ _ F) as Lt.
      set (A := l1 ++ rev (flat_map to_ordering l)). assert (LA : length A = length l1 + total l) by (unfold A; rewrite app_length, rev_length; lia).
      assert (EpA : pi = A ++ rev (to_ordering t) ++ l2) by (unfold A; rewrite <- app_assoc; auto).
      pose proof (HI t (or_introl eq_refl) r A l2 H EpA) as Hs. rewrite LA in Hs. rewrite layl_cons. cbn [roots].
      destruct (psep_hd _ _ _ H) as (l0 & E0). destruct (psep_nodes n elim HF _ _ H) as (_ & _ & Lt'). rewrite E0 in Lt'. cbn [length] in Lt'.
      assert (Pr : nth_error pi (length l1 + total l + st_num t - 1) = Some r).
      { rewrite EpA, E0. cbn [rev]. rewrite <- app_assoc, app_assoc. cbn [app]. replace (length l1 + total l + st_num t - 1) with (length (A ++ rev l0)) by (rewrite app_length, rev_length; lia). apply nth_mid. }
      split; [apply Forall2_app; auto|]. split; [|split].
      + intros i. rewrite in_app_iff, R2. split.
        * intros [(q & Hq & Hk)|[<-|[]]]; [exists q; split; auto; right; auto|exists r; split; auto; left; auto].
        * intros (q & Hq & [<-|Hk]); [right; left; eapply pi_inj; eauto|left; eauto].
      + apply asc_snoc; auto. intros a Ha. apply R4 in Ha. lia.
      + intros i Hi. rewrite total_cons. apply in_app_iff in Hi as [Hi|[<-|[]]]; [apply R4 in Hi; lia|lia].
  Qed.

  Lemma lay_sep t : forall r l1 l2, psep elim r t -> pi = l1 ++ rev (to_ordering t) ++ l2 -> sep_ok elim' (length l1 + st_num t - 1) (lay (length l1) t).
  Proof using All.
    induction t as [s l k IH] using septree_ind2. intros r l1 l2 H Ep. rewrite Forall_forall in IH.
    apply psep_inv in H as (xs & y & ks & O & K & Es & P & F & Srt & Ek). cbn [to_ordering] in Ep. rewrite Es, rev_app_distr, <- app_assoc in Ep.
    destruct (lay_list l1 ks l F IH _ Ep) as (R1 & R2 & R3 & R4). rewrite lay_eq. cbn [st_num].
    set (A := l1 ++ rev (flat_map to_ordering l)). assert (LA : length A = length l1 + total l) by (unfold A; rewrite app_length, rev_length, (psep_total _ _ F); lia).
    assert (EpA : pi = A ++ rev (r :: xs) ++ l2) by (unfold A; rewrite <- app_assoc; auto).
    pose proof (only_iso _ _ _ O _ _ EpA) as O'. rewrite LA in O'.
    assert (Py : nth_error pi (length A) = Some y).
    { rewrite EpA. assert (exists l, rev (r :: xs) = y :: l) as (l0 & ->). { clear -O. induction O as [x|x z xs y E O (l & IH)]; cbn [rev]; [exists []; auto|]. cbn [rev] in IH. rewrite IH. cbn. eauto. }
      apply nth_mid. } rewrite LA in Py.
    assert (EK : kids elim' (Some (length l1 + total l)) = roots (length l1) l).
    { apply asc_unique; auto. { apply kids_asc. } intros i. rewrite (kids_iso _ _ i Py), R2. split; intros (q & Hq & Hk); exists q; (split; [auto|]); (eapply Permutation_in; [|exact Hk]); auto. apply Permutation_sym; auto. }
    cbn [length] in Ek.
    pose proof (so_intro elim' (length l1 + total l + length xs) (rev (seq (length l1 + total l) (length xs))) (length l1 + total l) (layl (length l1) l)) as G.
    rewrite EK in G. specialize (G O'). cbn [length] in G. rewrite rev_length, seq_length, layl_total in G.
    replace (S (length xs) + total l) with k in G by lia. replace (length l1 + total l + length xs) with (length l1 + k - 1) in G by lia.
    unfold sn_one in G. replace (length l1 + k - 1 + 1) with (length l1 + k) in G by lia.
    replace (length l1 + k - 1) with (length l1 + total l + length xs) in G at 2 by lia. rewrite sn_consecutive in G. apply G; auto.
    assert (Lr : length (roots (length l1) l) = length l) by (clear; induction l; cbn; auto; rewrite app_length; cbn; lia).
    rewrite Lr, <- (Forall2_len _ _ _ F), (Permutation_length P). auto.
  Qed.
End Iso.

Section Graph.
  Variable adj : list (list (nat * N)).
  Notation n := (length adj).
  Variables order order' : list nat.
  Variables nodes nodes' : list (list nat).
  Hypothesis HC : chordal n nodes.
  Hypothesis Hs : forall x y, touching adj order x y -> x <> y -> cadj nodes x y.
  Hypothesis Hl : forall r v, In v (nbh nodes r) -> low_path (touching adj order) r r v.
  Hypothesis HC' : chordal n nodes'.
  Hypothesis Hs' : forall x y, touching adj order' x y -> x <> y -> cadj nodes' x y.
  Hypothesis Hl' : forall r v, In v (nbh nodes' r) -> low_path (touching adj order') r r v.
  Variable elim : list (option nat).
  Hypothesis He : forall x, x < n -> nth_error elim x = Some (hd_error (nbh nodes x)).
  Hypothesis HF : forest n elim.
  Variable pi : list nat.
  Hypothesis Lpi : length pi = n.
  Hypothesis NDpi : NoDup pi.
  Hypothesis Rpi : forall x, x < n <-> In x pi.
  Hypothesis Lo : length order = n.
  Hypothesis Ho : forall i x, nth_error pi i = Some x -> nth_error order' i = nth_error order x.
  Hypothesis Lo' : length order' = n.
  Hypothesis Ht : forall i j x p, nth_error pi i = Some x -> nth_error pi j = Some p -> nth_error elim x = Some (Some p) -> i < j.

  Lemma pi_inj2 i j x : nth_error pi i = Some x -> nth_error pi j = Some x -> i = j.
  Proof using All. intros H H'. apply (proj1 (NoDup_nth_error pi) NDpi); [apply nth_error_Some; congruence|congruence]. Qed.
  Lemma pi_get i : i < n -> exists x, nth_error pi i = Some x.
  Proof using All. intros H. destruct (nth_error pi i) eqn:E; eauto. apply nth_error_None in E. lia. Qed.
  Lemma pi_inv x : x < n -> exists i, nth_error pi i = Some x.
  Proof using All. intros H. apply Rpi in H. apply In_nth_error in H. auto. Qed.
  Lemma pi_rng i x : nth_error pi i = Some x -> i < n /\ x < n.
  Proof using All. intros H. split. - apply nth_error_Some_lt in H. lia. - apply Rpi. eapply nth_error_In; eauto. Qed.

  Lemma anc_topo x y : ancestor elim x y -> forall i j, nth_error pi i = Some x -> nth_error pi j = Some y -> i <= j /\ (x <> y -> i < j).
  Proof using All.
    induction 1 as [x|x p y E H IH]; intros i j Hi Hj.
    - rewrite (pi_inj2 _ _ _ Hi Hj). split; [lia|congruence].
    - destruct (pi_inv p) as (k & Hk). { apply (fr_up _ _ HF) in E. lia. } pose proof (Ht _ _ _ _ Hi Hk E). destruct (IH k j Hk Hj). lia.
  Qed.
  Lemma up_anc x y : In y (nbh nodes x) -> ancestor elim x y.
  Proof using All. eapply nbh_ancestor; eauto. Qed.
  Lemma up_topo i j x y : nth_error pi i = Some x -> nth_error pi j = Some y -> In y (nbh nodes x) -> i < j.
  Proof using All. intros Hi Hj H. eapply (anc_topo x y); eauto. { apply up_anc; auto. } apply (ch_up _ _ HC) in H. lia. Qed.
  (** joined nodes: the one that comes first in the new order is also the lower one in the old order *)
  Lemma cadj_low i j x y : nth_error pi i = Some x -> nth_error pi j = Some y -> i < j -> cadj nodes x y -> In y (nbh nodes x).
  Proof using All. intros Hi Hj L [H|H]; auto. pose proof (up_topo _ _ _ _ Hj Hi H). lia. Qed.

  Lemma touching_iff i j x y : nth_error pi i = Some x -> nth_error pi j = Some y -> (touching adj order' i j <-> touching adj order x y).
  Proof using All. intros Hi Hj. unfold touching. rewrite (Ho _ _ Hi), (Ho _ _ Hj). reflexivity. Qed.
  Lemma touching_rng i j : touching adj order' i j -> i < n /\ j < n.
  Proof using All. intros (u & v & w & Hu & Hv & _). apply nth_error_Some_lt in Hu, Hv. lia. Qed.
  Lemma touching_rng_old i j : touching adj order i j -> i < n /\ j < n.
  Proof using All. intros (u & v & w & Hu & Hv & _). apply nth_error_Some_lt in Hu, Hv. lia. Qed.

  (** the old edges in the new numbering *)
  Definition oadj (i j : nat) (w : N) : Prop := (exists x y, nth_error pi i = Some x /\ nth_error pi j = Some y /\ cadj nodes x y) /\ w = 0%N.
  Lemma oadj_tri : tri_closed oadj.
  Proof using All.
    split. { intros i w [(x & y & Hx & Hy & C) _]. rewrite Hx in Hy. injection Hy as <-. destruct C as [C|C]; apply (ch_up _ _ HC) in C; lia. }
    intros i k j w1 w2 L1 L2 Ne [(x & z & Hx & Hz & C1) ->] [(z' & y & Hz' & Hy & C2) ->]. rewrite Hz in Hz'. injection Hz' as <-.
    exists 0%N. split; [|lia]. split; auto. exists x, y. split; auto. split; auto.
    assert (C1' : cadj nodes z x) by (destruct C1; [right|left]; auto). apply (cadj_low _ _ _ _ Hz Hx L1) in C1'. apply (cadj_low _ _ _ _ Hz Hy L2) in C2.
    destruct (Nat.lt_trichotomy x y) as [L|[->|L]].
    - left. eapply (ch_tri _ _ HC z); eauto.
    - destruct Ne. eapply pi_inj2; eauto.
    - right. eapply (ch_tri _ _ HC z); eauto.
  Qed.
  Lemma new_old i j x y : nth_error pi i = Some x -> nth_error pi j = Some y -> In j (nbh nodes' i) -> In y (nbh nodes x).
  Proof using All.
    intros Hi Hj H. pose proof (ch_up _ _ HC' _ _ H) as [L _]. apply Hl' in H.
    assert (G : forall u t, low_path (touching adj order') i u t -> t = j -> u = i \/ u < i ->
            exists l, walk (rest (fun v => v = i \/ v = j \/ (v < i /\ v < j)) oadj) u j l).
    { assert (Sup : forall u v, touching adj order' u v -> u <> v -> oadj u v 0%N).
      { intros u v T Ne. destruct (touching_rng _ _ T) as [Ru Rv]. destruct (pi_get u Ru) as (a & Ha), (pi_get v Rv) as (b & Hb). split; auto. exists a, b. split; auto. split; auto.
        apply Hs. { apply (touching_iff _ _ _ _ Ha Hb). auto. } intros ->. apply Ne. eapply pi_inj2; eauto. }
      induction 1 as [u t T|u z t T Hz HP IH]; intros -> Hu.
      - exists (0 + 0)%N. econstructor; [|constructor]. split. { destruct Hu; auto; right; right; lia. } split; auto. apply Sup; auto. destruct Hu; lia.
      - destruct IH as (l & Hl0); auto. destruct (Nat.eq_dec u z) as [->|Nz]. { eauto. }
        exists (0 + l)%N. econstructor; eauto. split. { destruct Hu; auto; right; right; lia. } split. { right; right; lia. } apply Sup; auto. }
    destruct (G i j H) as (l & Hw); auto. apply low_arc in Hw; [|apply oadj_tri|lia]. destruct Hw as (w & [(x' & y' & Hx' & Hy' & C) _] & _).
    rewrite Hi in Hx'. injection Hx' as <-. rewrite Hj in Hy'. injection Hy' as <-. eapply cadj_low; eauto.
  Qed.
  Lemma low_desc a : forall u t, low_path (touching adj order) a u t -> ancestor elim u a -> forall j, nth_error pi j = Some t ->
    forall i k, nth_error pi i = Some a -> nth_error pi k = Some u -> low_path (touching adj order') i k j.
  Proof using All.
    induction 1 as [u t T|u z t T Hz HP IH]; intros Hu j Hj i k Hi Hk.
    - apply lp_arc. apply (touching_iff _ _ _ _ Hk Hj). auto.
    - destruct (touching_rng_old _ _ T) as [Ru Rz]. destruct (pi_inv z Rz) as (kz & Hkz).
      assert (Az : ancestor elim z a).
      { destruct (Nat.eq_dec u z) as [<-|Ne]; auto. destruct (Hs _ _ T Ne) as [C|C]; apply up_anc in C.
        - destruct (anc_chain elim u z C a Hu) as [K|K]; auto. apply (anc_le n elim HF) in K. lia.
        - eapply (anc_trans elim); eauto. }
      eapply lp_step; [apply (touching_iff _ _ _ _ Hk Hkz); exact T| |eapply IH; eauto].
      apply (anc_topo z a Az kz i Hkz Hi). lia.
  Qed.
  Lemma old_new i j x y : nth_error pi i = Some x -> nth_error pi j = Some y -> In y (nbh nodes x) -> In j (nbh nodes' i).
  Proof using All.
    intros Hi Hj H. pose proof (up_topo _ _ _ _ Hi Hj H) as L. apply Hl in H.
    assert (P : low_path (touching adj order') i i j) by (eapply low_desc; eauto; constructor).
    destruct (chordal_low _ _ (touching adj order') i j HC' Hs') as [K|K]; auto; [lia|rewrite Nat.min_l by lia; auto|]. apply (ch_up _ _ HC') in K. lia.
  Qed.

  Lemma elim_iso elim' : (forall x, x < n -> nth_error elim' x = Some (hd_error (nbh nodes' x))) ->
    (forall i x j q, nth_error pi i = Some x -> nth_error pi j = Some q -> (nth_error elim' i = Some (Some j) <-> nth_error elim x = Some (Some q))) /\
    (forall i x, nth_error pi i = Some x -> (nth_error elim' i = Some None <-> nth_error elim x = Some None)).
  Proof using All.
    intros He'.
    assert (Fw : forall i x j q, nth_error pi i = Some x -> nth_error pi j = Some q -> nth_error elim' i = Some (Some j) -> nth_error elim x = Some (Some q)).
    { intros i x j q Hi Hj E. destruct (pi_rng _ _ Hi) as [Ri Rx]. rewrite He' in E by auto. rewrite He by auto.
      pose proof (ch_asc _ _ HC' i) as As. destruct (nbh nodes' i) as [|j' l'] eqn:En; [discriminate|]. injection E as ->.
      assert (Hj' : In j (nbh nodes' i)) by (rewrite En; left; auto). pose proof (new_old _ _ _ _ Hi Hj Hj') as Hq.
      destruct (nbh nodes x) as [|p l] eqn:Ex; [destruct Hq|]. cbn [hd_error]. f_equal. f_equal.
      assert (Hp : In p (nbh nodes x)) by (rewrite Ex; left; auto). destruct (ch_up _ _ HC _ _ Hp) as [_ Rp]. destruct (pi_inv p Rp) as (k & Hk).
      pose proof (old_new _ _ _ _ Hi Hk Hp) as Hk'. rewrite En in Hk'. assert (L1 : j <= k). { destruct Hk' as [->|Hk']; auto. apply ss_inv in As. apply Nat.lt_le_incl, As. auto. }
      rewrite <- Ex in Hq. pose proof (up_anc _ _ Hq) as A. inversion A as [x0|x0 p0 y0 Ep Ap]; subst. { apply (ch_up _ _ HC) in Hq. lia. }
      rewrite He, Ex in Ep by auto. injection Ep as <-. destruct (anc_topo _ _ Ap _ _ Hk Hj) as [L2 _]. assert (j = k) by lia. subst k. rewrite Hj in Hk. congruence. }
    assert (FwN : forall i x, nth_error pi i = Some x -> nth_error elim' i = Some None -> nth_error elim x = Some None).
    { intros i x Hi E. destruct (pi_rng _ _ Hi) as [Ri Rx]. rewrite He' in E by auto. rewrite He by auto.
      destruct (nbh nodes x) as [|p l] eqn:Ex; auto. assert (Hp : In p (nbh nodes x)) by (rewrite Ex; left; auto). destruct (ch_up _ _ HC _ _ Hp) as [_ Rp]. destruct (pi_inv p Rp) as (k & Hk).
      pose proof (old_new _ _ _ _ Hi Hk Hp) as Hk'. destruct (nbh nodes' i); [destruct Hk'|discriminate]. }
    assert (Ex : forall i, i < n -> nth_error elim' i = Some None \/ exists j q, nth_error elim' i = Some (Some j) /\ nth_error pi j = Some q).
    { intros i Ri. rewrite He' by auto. destruct (nbh nodes' i) as [|j l] eqn:En; auto. right. assert (Hj : In j (nbh nodes' i)) by (rewrite En; left; auto).
      apply (ch_up _ _ HC') in Hj. destruct (pi_get j) as (q & Hq); [lia|]. exists j, q. auto. }
    split.
    - intros i x j q Hi Hj. split; [eauto|]. intros E. destruct (pi_rng _ _ Hi) as [Ri Rx]. destruct (Ex i Ri) as [E'|(j' & q' & E' & Hj')].
      + rewrite (FwN _ _ Hi E') in E. discriminate.
      + pose proof (Fw _ _ _ _ Hi Hj' E') as E2. rewrite E in E2. injection E2 as <-. rewrite E'. do 2 f_equal. eapply pi_inj2; eauto.
    - intros i x Hi. split; [eauto|]. intros E. destruct (pi_rng _ _ Hi) as [Ri Rx]. destruct (Ex i Ri) as [E'|(j' & q' & E' & Hj')]; auto.
      rewrite (Fw _ _ _ _ Hi Hj' E') in E. discriminate.
  Qed.
  Lemma edges_same rho : (forall i x, nth_error pi i = Some x <-> nth_error rho x = Some i) -> length (concat nodes') <= length (concat nodes).
  Proof using All.
    intros Hr. set (old := flat_map (fun x => map (pair x) (nbh nodes x)) (seq 0 n)).
    assert (L : forall k, k <= n -> length (flat_map (fun x => map (pair x) (nbh nodes x)) (seq 0 k)) = off nodes k).
    { induction k as [|k IH]; intros Hk; auto. rewrite seq_S, flat_map_app, app_length, IH by lia. cbn [flat_map Nat.add]. rewrite app_nil_r, map_length.
      rewrite <- (Nat.add_1_r k). rewrite off_S by (rewrite (ch_len _ _ HC); lia). auto. }
    specialize (L n (le_n _)). fold old in L. rewrite <- (ch_len _ _ HC), off_n in L. rewrite <- L.
    rewrite <- (map_length (fun p => (nth (fst p) rho 0, nth (snd p) rho 0)) old). eapply edges_le; [exact HC'|]. intros i j H.
    pose proof (ch_up _ _ HC' _ _ H) as [L1 L2]. destruct (pi_get i) as (x & Hx); [lia|]. destruct (pi_get j L2) as (y & Hy).
    pose proof (new_old _ _ _ _ Hx Hy H) as Hn. apply in_map_iff. exists (x, y). cbn [fst snd]. apply Hr in Hx as Ex. apply Hr in Hy as Ey.
    rewrite (nth_error_nth _ _ 0 Ex), (nth_error_nth _ _ 0 Ey). split; auto. apply in_flat_map. exists x. split. { apply in_seq. pose proof (ch_up _ _ HC _ _ Hn). lia. } apply in_map. auto.
  Qed.
End Graph.

Lemma Forall2_rev' {A B} (R : A -> B -> Prop) l l' : Forall2 R l l' -> Forall2 R (rev l) (rev l').
Proof. induction 1; cbn; auto. apply Forall2_app; auto. Qed.
Lemma before_rev l a b : NoDup l -> before l a b -> forall i j, nth_error (rev l) i = Some b -> nth_error (rev l) j = Some a -> i < j.
Proof.
  intros ND (l1 & l2 & l3 & ->) i j Hi Hj. assert (NDr : NoDup (rev (l1 ++ a :: l2 ++ b :: l3))) by (apply NoDup_rev; auto).
  assert (E : rev (l1 ++ a :: l2 ++ b :: l3) = rev l3 ++ b :: rev l2 ++ a :: rev l1).
  { rewrite rev_app_distr. cbn [rev]. rewrite rev_app_distr. cbn [rev]. rewrite <- ?app_assoc. cbn [app]. rewrite <- ?app_assoc. auto. }
  rewrite E in *. pose proof (proj1 (NoDup_nth_error _) NDr) as Inj.
  assert (i = length (rev l3)). { apply Inj; [apply nth_error_Some; congruence|]. rewrite Hi. symmetry. apply nth_mid. }
  assert (j = length (rev l3 ++ b :: rev l2)).
  { apply Inj; [apply nth_error_Some; congruence|]. rewrite Hj. symmetry. change (b :: rev l2 ++ a :: rev l1) with ((b :: rev l2) ++ a :: rev l1). rewrite app_assoc. apply nth_mid. }
  subst. rewrite app_length. cbn [length]. lia.
Qed.

Section Final.
  Variable n : nat.
  Variable elim : list (option nat).
  Hypothesis HF : forest n elim.
  Variable sort : list septree -> list septree.
  Hypothesis HS : size_sort sort.
  Variables order ranks : list nat.
  Hypothesis HO : node_order n order ranks.
  Hypothesis Hn : (N.of_nat n < U32MAX)%N.

  Lemma reorder_facts debug t : sep_new elim = Some t ->
    exists pi ks l', pi = rev (flat_map to_ordering l') /\ Permutation ks (kids elim None) /\ Forall2 (psep elim) ks l' /\ StronglySorted le (map st_num l') /\ total l' = n /\
      length pi = n /\ NoDup pi /\ (forall x, x < n <-> In x pi) /\
      (forall i j x p, nth_error pi i = Some x -> nth_error pi j = Some p -> nth_error elim x = Some (Some p) -> i < j) /\
      exists o, reorder_for_sep sort debug order t = Some o /\ node_order n (no_order o) (no_ranks o) /\ forall i x, nth_error pi i = Some x -> nth_error (no_order o) i = nth_error order x.
  Proof using All.
    intros Et. destruct (sep_new_ok n elim HF) as (subs & Es & F & T & _ & _). rewrite Es in Et. injection Et as <-.
    destruct (HS subs) as [P Srt]. destruct (sorted_kids elim sort _ _ HS F) as (ks & Pk & Fk).
    destruct (reorder_list elim sort (st_height (Sep sn_new subs n)) ks (sort subs) Fk) as (l' & E & F' & N).
    { intros t Ht r0 H0. assert (Hl : In t subs) by (eapply Permutation_in; eauto). apply reorder_ok; auto. cbn [st_height]. pose proof (list_max_ge (map st_height subs) _ (in_map st_height _ _ Hl)). lia. }
    destruct (psep_list_nodes n elim HF None ks l' Pk F') as (Hin & ND & Len). { intros t _ r. apply psep_nodes with (n := n); auto. }
    assert (T' : total l' = n). { rewrite <- T. unfold total. rewrite N. apply (total_perm _ _ P). }
    assert (HI : forall x, x < n <-> In x (flat_map to_ordering l')).
    { intros x. rewrite Hin. split. { intros Hx. apply (root_of n elim HF). auto. } intros (r & Hr & Ha). apply kids_In, nth_error_Some_lt in Hr. rewrite (fr_len _ _ HF) in Hr. apply (anc_lt n elim HF) in Ha; auto. }
    exists (rev (flat_map to_ordering l')), ks, l'. split; auto. split; auto. split; auto. split. { rewrite N; auto. } split; auto.
    split. { rewrite rev_length. lia. } split. { apply NoDup_rev; auto. } split. { intros x. rewrite <- in_rev. auto. } split.
    { intros i j x p Hi Hj Ep. eapply before_rev; eauto. assert (Hx : In x (flat_map to_ordering l')) by (apply in_rev; eapply nth_error_In; eauto).
      apply in_flat_map in Hx as (t & Ht & Hx). apply (before_flat _ _ _ _ Ht). destruct (Forall2_In_r _ _ _ _ F' Ht) as (r & Hr & Hs). eapply psep_before; eauto.
      destruct (psep_nodes n elim HF _ _ Hs) as (SN & _). apply SN. apply SN in Hx. inversion Hx as [x0|x0 p0 y0 E0 A0]; subst.
      - eapply Permutation_in in Hr; [|exact Pk]. apply kids_In in Hr. congruence.
      - rewrite Ep in E0. injection E0 as <-. auto. }
    destruct HO as (Lo & Lr & H1 & H2).
    destruct (mapM_ok (fun r => nth_error order r) (flat_map to_ordering l')) as (lo & Elo & Flo).
    { intros a Ha. apply HI in Ha. destruct (nth_error order a) eqn:Ea; eauto. apply nth_error_None in Ea. lia. }
    pose proof (Forall2_len _ _ _ Flo) as Llo. pose proof (Forall2_rev' _ _ _ Flo) as Frev.
    assert (Hord : forall i x, nth_error (rev (flat_map to_ordering l')) i = Some x -> nth_error (rev lo) i = nth_error order x).
    { intros i x Hi. destruct (Forall2_nth _ _ _ _ _ Frev Hi) as (b & Hb & Hb'). congruence. }
    assert (PV : perm_vec (rev lo)).
    { apply NoDup_bound_perm.
      - apply NoDup_nth_error. intros i j Hi Heq. rewrite rev_length in Hi.
        assert (G : forall k, k < length lo -> exists x b, nth_error (rev (flat_map to_ordering l')) k = Some x /\ nth_error (rev lo) k = Some b /\ nth_error order x = Some b).
        { intros k Hk. destruct (nth_error (rev (flat_map to_ordering l')) k) as [x|] eqn:Ex. 2: { apply nth_error_None in Ex. rewrite rev_length in Ex. lia. }
          destruct (Forall2_nth _ _ _ _ _ Frev Ex) as (b & Hb & Hb'). exists x, b. auto. }
        destruct (G i Hi) as (x & b & X1 & X2 & X3). assert (Hj : j < length lo). { rewrite <- rev_length. apply nth_error_Some. congruence. }
        destruct (G j Hj) as (y & b' & Y1 & Y2 & Y3). assert (b = b') by congruence. subst b'. apply H1 in X3. apply H1 in Y3. assert (x = y) by congruence. subst y.
        apply (proj1 (NoDup_nth_error (rev (flat_map to_ordering l'))) (NoDup_rev ND)); [apply nth_error_Some; congruence|congruence].
      - intros u Hu. apply in_rev in Hu. apply In_nth_error in Hu as (k & Hk). destruct (nth_error (flat_map to_ordering l') k) as [x|] eqn:Ex. 2: { apply nth_error_None in Ex. apply nth_error_Some_lt in Hk. lia. }
        destruct (Forall2_nth _ _ _ _ _ Flo Ex) as (b & Hb & Hb'). assert (b = u) by congruence. subst b. apply H1, nth_error_Some_lt in Hb'. rewrite rev_length. lia. }
    assert (Lrl : length (rev lo) = n) by (rewrite rev_length; lia).
    destruct (invert_ok debug (rev lo) PV) as (r & Er & Lr' & Hr). { rewrite Lrl. auto. }
    exists (mkOrder (rev lo) r). unfold reorder_for_sep. cbn [reorder_children]. rewrite E. cbn [bind]. cbn [to_ordering]. change (sn_list sn_new) with (@nil nat). cbn [app].
    rewrite Elo. cbn [bind]. unfold from_node_order. rewrite Er. cbn [bind]. split; auto. cbn [no_order no_ranks]. split; auto.
    split; auto. split; [lia|]. split; intros; apply Hr; auto.
  Qed.

  Lemma validates ks l' pi elim' : 0 < n -> pi = rev (flat_map to_ordering l') -> Permutation ks (kids elim None) -> Forall2 (psep elim) ks l' -> StronglySorted le (map st_num l') -> total l' = n ->
    length pi = n -> NoDup pi -> forest n elim' ->
    (forall i x j q, nth_error pi i = Some x -> nth_error pi j = Some q -> (nth_error elim' i = Some (Some j) <-> nth_error elim x = Some (Some q))) ->
    (forall i x, nth_error pi i = Some x -> (nth_error elim' i = Some None <-> nth_error elim x = Some None)) ->
    exists sep, sep_new elim' = Some sep /\ validate sep = Some tt.
  Proof using All.
    intros Pn Epi Pk F Srt T Lpi NDpi HF' I1 I2. destruct (sep_new_ok n elim' HF') as (subs & Es & Fs & _).
    destruct (lay_list n elim elim' HF HF' pi Lpi NDpi I1 I2 [] ks l' F) with (l2 := @nil nat) as (R1 & R2 & R3 & R4).
    { intros t _ r. apply (lay_sep n elim elim' HF HF' pi Lpi NDpi I1 I2 t r). } { rewrite app_nil_r. auto. }
    assert (EK : kids elim' None = roots (length (@nil nat)) l').
    { apply asc_unique; auto. { apply kids_asc. } intros i. rewrite (kids_isoN n elim elim' HF HF' pi Lpi NDpi I1 I2 i), R2. split; intros (q & Hq & Hk); exists q; (split; [auto|]); (eapply Permutation_in; [|exact Hk]); auto. apply Permutation_sym; auto. }
    rewrite EK in Fs. assert (subs = layl 0 l'). { eapply sep_list_det; [exact Fs|exact R1|]. intros t _. apply sep_ok_det. } subst subs.
    eexists. split; [exact Es|]. eapply validate_intro; [reflexivity| | | | |].
    - cbn. unfold csub. rewrite (proj2 (Nat.leb_le 1 n)) by lia. reflexivity.
    - unfold csub. rewrite (proj2 (Nat.leb_le _ _)) by lia. reflexivity.
    - replace (n - 1 + 1 - n) with 0 by lia. eapply layl_ranges; eauto.
    - apply layl_sizes; auto.
    - eapply layl_valid; eauto.
  Qed.
End Final.

Section Cch.
  Variable adj : list (list (nat * N)).
  Variable g : fograph N.
  Variables order ranks : list nat.
  Hypothesis HV : valid_adj adj.
  Hypothesis HFit : fits_u32 adj.
  Hypothesis Hg : from_adjacency_lists adj = Some g.
  Hypothesis HO : node_order (length adj) order ranks.
  Variable sort : list septree -> list septree.
  Hypothesis HS : size_sort sort.
  Notation n := (length adj).
  Notation nbrs := (fun u => ls <- link_iter g u ;; Some (map fst ls)).

  Lemma cch_contract_nodes c : cch_contract g order ranks = Some c -> exists nodes0 nodes,
    contraction_new (num_nodes g) nbrs order ranks = Some nodes0 /\ contraction_contract nodes0 = Some nodes /\ cch_ok adj order ranks nodes c /\ c_elim c = map (@hd_error nat) nodes.
  Proof using All.
    unfold cch_contract. destruct (build_nodes adj g HV HFit Hg order ranks HO) as (nodes0 & nodes & E0 & E1 & HC & Hs & Hl). rewrite E0. cbn [bind].
    rewrite E1. cbn [bind]. destruct (contracted_graph nodes) as [cg|] eqn:Ecg; cbn [bind]; [|discriminate].
    destruct (new_from_ok adj g HV HFit Hg order ranks HO nodes HC Hs Hl cg Ecg) as (c' & -> & H). intros [= <-]. exists nodes0, nodes. split; [reflexivity|]. split; [exact E1|]. split; [exact H|].
    apply list_ext. intros x. destruct (Nat.lt_ge_cases x n) as [Hx|Hx].
    - rewrite (co_elim _ _ _ _ _ H x Hx), nth_error_map. unfold nbh. rewrite (nth_error_nth' nodes []) by (rewrite (ch_len _ _ HC); auto). auto.
    - assert (A1 : nth_error (c_elim c') x = None) by (apply nth_error_None; rewrite (co_eliml _ _ _ _ _ H); auto).
      assert (A2 : nth_error (map (@hd_error nat) nodes) x = None) by (apply nth_error_None; rewrite map_length, (ch_len _ _ HC); auto). congruence.
  Qed.

  Lemma reorder_cch debug c : 0 < n -> cch_contract g order ranks = Some c ->
    exists t o c' sep, sep_new (c_elim c) = Some t /\ reorder_for_sep sort debug order t = Some o /\ node_order n (no_order o) (no_ranks o) /\
      cch_contract g (no_order o) (no_ranks o) = Some c' /\ fix_order_and_build sort debug g order ranks = Some c' /\ cch_arcs c' <= cch_arcs c /\
      sep_new (c_elim c') = Some sep /\ validate sep = Some tt.
  Proof using All.
    intros Pn Ec. destruct (cch_contract_nodes c Ec) as (nodes0 & nodes & E0 & E1 & HK & Eel).
    pose proof (elim_forest _ _ _ _ _ HK) as HF. destruct (sep_new_ok n _ HF) as (subs & Es & _). set (t := Sep sn_new subs n) in *.
    assert (HN : (N.of_nat n < U32MAX)%N) by (destruct HFit; unfold U32MAX; lia).
    destruct (reorder_facts n (c_elim c) HF sort HS order ranks HO HN debug t Es) as (pi & ks & l' & Epi & Pk & F & Srt & T & Lpi & NDpi & Rpi & Ht & o & Eo & HO' & Hord).
    destruct (cch_contract_total adj g (no_order o) (no_ranks o) HV HFit Hg HO') as (nodes' & HC' & Hs' & Hl' & Tot).
    pose proof (co_chordal _ _ _ _ _ HK) as HC. pose proof (co_sup _ _ _ _ _ HK) as Hs. pose proof (co_low _ _ _ _ _ HK) as Hl. pose proof (co_elim _ _ _ _ _ HK) as He.
    destruct HO as (Lo & _). destruct HO' as (Lo' & HO2).
    destruct (invert_ok false pi) as (rho & _ & _ & Hrho). { apply NoDup_bound_perm; auto. intros x Hx. apply Rpi in Hx. lia. } { rewrite Lpi; auto. }
    pose proof (edges_same adj order (no_order o) nodes nodes' HC Hs Hl HC' Hs' Hl' (c_elim c) He HF pi Lpi NDpi Rpi Lo Hord Lo' Ht rho Hrho) as Le.
    destruct Tot as (c' & Ec' & HK'). { destruct (co_fit _ _ _ _ _ HK). lia. }
    destruct (elim_iso adj order (no_order o) nodes nodes' HC Hs Hl HC' Hs' Hl' (c_elim c) He HF pi Lpi NDpi Rpi Lo Hord Lo' Ht (c_elim c') (co_elim _ _ _ _ _ HK')) as [I1 I2].
    pose proof (elim_forest _ _ _ _ _ HK') as HF'.
    destruct (validates n (c_elim c) HF sort HS order ranks ltac:(auto) HN ks l' pi (c_elim c') Pn Epi Pk F Srt T Lpi NDpi HF' I1 I2) as (sep & Esep & Hv).
    exists t, o, c', sep. split; [exact Es|]. split; [exact Eo|]. split; [split; [exact Lo'|exact HO2]|]. split; [exact Ec'|]. split.
    { unfold fix_order_and_build. rewrite E0. cbn [bind]. rewrite E1. cbn [bind]. rewrite <- Eel, Es. cbn [bind]. rewrite Eo. cbn [bind]. exact Ec'. }
    split; [|split; [exact Esep|exact Hv]]. unfold cch_arcs. rewrite (co_head _ _ _ _ _ HK), (co_head _ _ _ _ _ HK'). auto.
  Qed.
End Cch.

(** ** orders from any traversal of the tree *)
Lemma order_from_list debug n order ranks l : node_order n order ranks -> (N.of_nat n < U32MAX)%N -> Permutation l (seq 0 n) ->
  exists lo o, mapM (fun r => nth_error order r) l = Some lo /\ from_node_order debug (rev lo) = Some o /\ node_order n (no_order o) (no_ranks o) /\ no_order o = rev lo.
Proof.
  intros (Lo & Lr & H1 & H2) HN P. assert (HI : forall x, In x l <-> x < n). { intros x. split; intros H. - eapply Permutation_in in H; [|exact P]. apply in_seq in H. lia. - eapply Permutation_in; [apply Permutation_sym, P|]. apply in_seq. lia. }
  assert (ND : NoDup l) by (eapply Permutation_NoDup; [apply Permutation_sym, P|apply seq_NoDup]). pose proof (Permutation_length P) as Ll. rewrite seq_length in Ll.
  destruct (mapM_ok (fun r => nth_error order r) l) as (lo & Elo & Flo).
  { intros a Ha. apply HI in Ha. destruct (nth_error order a) eqn:Ea; eauto. apply nth_error_None in Ea. lia. }
  pose proof (Forall2_len _ _ _ Flo) as Llo. assert (PV : perm_vec (rev lo)).
  { apply NoDup_bound_perm.
    - apply NoDup_rev. clear -Flo ND H1. revert ND. induction Flo as [|x b l lo E F IH]; intros ND; constructor; inversion ND; subst; auto.
      intros Hb. destruct (Forall2_In_r _ _ _ _ F Hb) as (y & Hy & Ey). apply H1 in E, Ey. assert (x = y) by congruence. subst. auto.
    - intros u Hu. apply in_rev in Hu. destruct (Forall2_In_r _ _ _ _ Flo Hu) as (x & _ & E). apply H1, nth_error_Some_lt in E. rewrite rev_length. lia. }
  assert (Lrl : length (rev lo) = n) by (rewrite rev_length; lia). destruct (invert_ok debug (rev lo) PV) as (r & Er & Lr' & Hr). { rewrite Lrl. auto. }
  exists lo, (mkOrder (rev lo) r). split; auto. unfold from_node_order. rewrite Er. cbn [bind no_order no_ranks]. split; auto. split; auto. split; auto. split; [lia|]. split; intros; apply Hr; auto.
Qed.
Lemma bfs_ok fuel : forall q acc, list_sum (map st_count q) <= fuel -> exists l, bfs_nodes fuel q acc = Some l /\ Permutation l (acc ++ flat_map to_ordering q).
Proof.
  induction fuel as [|f IH]; intros [|[s l k] q] acc H; cbn [bfs_nodes].
  - exists acc. cbn. rewrite app_nil_r. auto.
  - cbn [map list_sum fold_right st_count] in H. lia.
  - exists acc. cbn. rewrite app_nil_r. auto.
  - cbn [st_children st_nodes]. destruct (IH (q ++ l) (acc ++ sn_list s)) as (r & -> & P).
    { rewrite map_app, list_sum_app. cbn [map] in H. change (list_sum (st_count (Sep s l k) :: map st_count q)) with (S (list_sum (map st_count l)) + list_sum (map st_count q)) in H. lia. }
    exists r. split; auto. rewrite P, flat_map_app. cbn [flat_map to_ordering]. rewrite <- !app_assoc. do 2 apply Permutation_app_head. apply Permutation_app_comm.
Qed.
Lemma reorder_tree_perm rs : (forall l, Permutation (rs l) l) -> forall t level, Permutation (to_ordering (reorder_tree rs level t)) (to_ordering t).
Proof.
  intros HR. induction t as [s l k IH] using septree_ind2. intros level. cbn [reorder_tree]. destruct (2 <? level); auto. cbn [to_ordering sn_list].
  apply Permutation_app; auto. induction IH as [|t l Ht F IHF]; cbn; auto. apply Permutation_app; auto.
Qed.
