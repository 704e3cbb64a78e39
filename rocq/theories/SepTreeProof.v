(** Separator trees: what SeparatorTree::new builds. *)
From Verif Require Import Base Graph SpecGraph SpecCCH NodeOrder CCH CCHContractProof CCHBuildProof CCHPathTheory SepTree.
From Coq Require Import Sorting.Sorted.

Lemma septree_ind2 (P : septree -> Prop) : (forall s l k, Forall P l -> P (Sep s l k)) -> forall t, P t.
Proof.
  intros H. fix IH 1. intros [s l k]. apply H. induction l; constructor; [apply IH|assumption].
Qed.

Lemma combine_app_eq {A B} (l1 : list A) : forall l2 (r1 r2 : list B), length l1 = length r1 -> combine (l1 ++ l2) (r1 ++ r2) = combine l1 r1 ++ combine l2 r2.
Proof. induction l1 as [|a l1 IH]; intros l2 [|b r1] r2 H; cbn in *; try discriminate; auto. f_equal. apply IH. congruence. Qed.

(** parents come later *)
Record forest (n : nat) (elim : list (option nat)) : Prop := {
  fr_len : length elim = n;
  fr_up : forall x p, nth_error elim x = Some (Some p) -> x < p /\ p < n }.

Definition has_parent (elim : list (option nat)) (p : option nat) (x : nat) : bool :=
  match nth_error elim x with
  | Some q => match p, q with Some a, Some b => a =? b | None, None => true | _, _ => false end
  | None => false end.
Lemma has_parent_iff elim p x : has_parent elim p x = true <-> nth_error elim x = Some p.
Proof.
  unfold has_parent. destruct (nth_error elim x) as [[q|]|], p as [a|]; split; intros H; try discriminate; auto.
  - apply Nat.eqb_eq in H. congruence.
  - injection H as ->. apply Nat.eqb_refl.
Qed.
(** the children of a node (Some p), or the roots (None), in ascending order *)
Definition kids (elim : list (option nat)) (p : option nat) : list nat := filter (has_parent elim p) (seq 0 (length elim)).
Lemma kids_In elim p x : In x (kids elim p) <-> nth_error elim x = Some p.
Proof.
  unfold kids. rewrite filter_In, has_parent_iff, in_seq. split; [tauto|]. intros H. split; auto. apply nth_error_Some_lt in H. lia.
Qed.
Lemma kids_asc elim p : ascending_list (kids elim p).
Proof.
  unfold kids. generalize (length elim), 0. induction n as [|n IH]; intros k; cbn. { constructor. }
  destruct (has_parent elim p k); auto. constructor; [apply IH|]. apply Forall_forall. intros y Hy. apply filter_In in Hy. rewrite in_seq in Hy. lia.
Qed.
Lemma kids_NoDup elim p : NoDup (kids elim p).
Proof. unfold kids. apply NoDup_filter, seq_NoDup. Qed.

Section Forest.
  Variable n : nat.
  Variable elim : list (option nat).
  Hypothesis HF : forest n elim.

  Lemma child_lists_ok : exists ch, child_lists elim = Some (ch, kids elim None) /\ length ch = n /\
    forall p, p < n -> nth_error ch p = Some (kids elim (Some p)).
  Proof using HF.
    destruct HF as [L U].
    assert (G : forall k, k <= n -> exists ch, foldM child_step (combine (seq 0 k) (firstn k elim)) (repeat [] n, []) = Some (ch, filter (has_parent elim None) (seq 0 k)) /\
      length ch = n /\ forall p, p < n -> nth_error ch p = Some (filter (has_parent elim (Some p)) (seq 0 k))).
    { induction k as [|k IH]; intros Hk.
      - exists (repeat [] n). cbn. split; auto. split. { apply repeat_length. } intros p Hp. rewrite nth_error_repeat, (proj2 (Nat.ltb_lt _ _) Hp). auto.
      - destruct IH as (ch & E & Lc & Hc); [lia|].
        destruct (nth_error elim k) as [q|] eqn:Eq; [|apply nth_error_None in Eq; lia].
        assert (Es : firstn (S k) elim = firstn k elim ++ [q]). { clear -Eq. revert k Eq. induction elim as [|a l IH]; intros [|k] Eq; cbn in *; try discriminate; [injection Eq as ->; auto|]. f_equal. auto. }
        assert (Lf : length (firstn k elim) = k) by (rewrite firstn_length; lia).
        rewrite Es, seq_S. cbn [Nat.add].
        assert (Ec : combine (seq 0 k ++ [k]) (firstn k elim ++ [q]) = combine (seq 0 k) (firstn k elim) ++ [(k, q)]).
        { rewrite combine_app_eq; auto. rewrite seq_length; lia. }
        rewrite Ec, foldM_app, E. cbn [bind foldM].
        assert (Hh : forall o, has_parent elim o k = match o, q with Some a, Some b => a =? b | None, None => true | _, _ => false end) by (intros o; unfold has_parent; rewrite Eq; auto).
        rewrite !filter_app. cbn [filter]. rewrite Hh. unfold child_step. cbn [fst snd]. destruct q as [p|].
        + pose proof (U _ _ Eq) as Hp. rewrite (Hc p) by lia. cbn [bind]. unfold set_at. rewrite (proj2 (Nat.ltb_lt _ _)) by lia. cbn [bind].
          eexists. split. { rewrite app_nil_r. reflexivity. }
          rewrite upd_length. split; auto. intros p' Hp'. rewrite filter_app. cbn [filter]. rewrite Hh.
          rewrite nth_error_upd, (proj2 (Nat.ltb_lt p (length ch))) by lia. rewrite andb_true_r, (Nat.eqb_sym p' p).
          destruct (Nat.eqb_spec p p') as [->|]; auto. rewrite app_nil_r. auto.
        + eexists. split. { reflexivity. }
          split; auto. intros p' Hp'. rewrite filter_app. cbn [filter]. rewrite Hh, app_nil_r. auto. }
    destruct (G n (le_n _)) as (ch & E & Lc & Hc). exists ch. unfold child_lists, kids. rewrite L.
    rewrite <- E. rewrite firstn_all2 by lia. auto.
  Qed.

  (** from [x] along only children down to [y]; [xs] are the nodes after [x] *)
  Inductive only : nat -> list nat -> nat -> Prop :=
  | on_nil x : only x [] x
  | on_cons x z xs y : kids elim (Some x) = [z] -> only z xs y -> only x (z :: xs) y.

  (** [sep_ok r t]: [t] is the separator decomposition of the subtree with root [r] *)
  Inductive sep_ok : nat -> septree -> Prop :=
  | so_intro r xs y subs : only r xs y -> length (kids elim (Some y)) <> 1 -> Forall2 sep_ok (kids elim (Some y)) subs ->
      sep_ok r (Sep (fold_left sn_push xs (sn_one r)) subs (length (r :: xs) + total subs)).

  Lemma sn_push_list s x : (match s with Consecutive a b => a < b | _ => True end) ->
    sn_list (sn_push s x) = sn_list s ++ [x] /\ (match sn_push s x with Consecutive a b => a < b | _ => True end).
  Proof using.
    destruct s as [a b|l]; cbn [sn_push sn_list]; auto. intros H.
    destruct (Nat.ltb_spec 0 a), (Nat.eqb_spec x (a - 1)); cbn [andb sn_list]; auto. subst x.
    split; [|lia]. replace (b - (a - 1)) with (S (b - a)) by lia. cbn [seq rev]. replace (S (a - 1)) with a by lia. auto.
  Qed.
  Lemma sn_chain_list xs : forall s, (match s with Consecutive a b => a < b | _ => True end) -> sn_list (fold_left sn_push xs s) = sn_list s ++ xs.
  Proof using.
    induction xs as [|x xs IH]; intros s Hs; cbn [fold_left]. { rewrite app_nil_r; auto. }
    destruct (sn_push_list s x Hs) as [E H]. rewrite IH, E, <- app_assoc by auto. auto.
  Qed.
  Lemma sn_one_list r xs : sn_list (fold_left sn_push xs (sn_one r)) = r :: xs.
  Proof using. rewrite sn_chain_list; [|cbn; lia]. cbn [sn_one sn_list]. replace (r + 1 - r) with 1 by lia. auto. Qed.
  Lemma sn_len_list s : sn_len s = length (sn_list s).
  Proof using. destruct s; cbn; auto. rewrite rev_length, seq_length. auto. Qed.
  Lemma sn_high_list s : sn_high s = hd_error (sn_list s).
  Proof using.
    destruct s as [a b|l]; cbn [sn_high sn_list]; auto. destruct (Nat.ltb_spec a b).
    - replace (b - a) with (S (b - a - 1)) by lia. rewrite seq_S, rev_app_distr. cbn [rev app hd_error]. f_equal. lia.
    - replace (b - a) with 0 by lia. auto.
  Qed.

  Lemma only_le r xs y : only r xs y -> y <= r /\ length xs <= r - y.
  Proof using HF.
    induction 1 as [x|x z xs y E _ IH]; cbn. { lia. }
    assert (Hz : In z (kids elim (Some x))) by (rewrite E; left; auto). apply kids_In, (fr_up _ _ HF) in Hz. lia.
  Qed.
  Lemma chain_ok ch : (forall p, p < n -> nth_error ch p = Some (kids elim (Some p))) ->
    forall fuel x s, x < n -> x < fuel -> exists y xs, chain fuel ch x s = Some (y, fold_left sn_push xs s) /\ only x xs y /\ length (kids elim (Some y)) <> 1.
  Proof using HF.
    intros Hc. induction fuel as [|f IH]; intros x s Hx Hf; [lia|]. cbn [chain]. rewrite (Hc x Hx). cbn [bind].
    destruct (kids elim (Some x)) as [|z [|z2 l]] eqn:E.
    - exists x, []. rewrite E. split; auto. split; [constructor|cbn; lia].
    - assert (Hz : In z (kids elim (Some x))) by (rewrite E; left; auto). apply kids_In, (fr_up _ _ HF) in Hz.
      destruct (IH z (sn_push s z)) as (y & xs & E2 & O & K); try lia. exists y, (z :: xs). split; [exact E2|]. split; auto. econstructor; eauto.
    - exists x, []. rewrite E. split; auto. split; [constructor|cbn; lia].
  Qed.
  Lemma new_subtree_ok ch : (forall p, p < n -> nth_error ch p = Some (kids elim (Some p))) ->
    forall fuel r, r < n -> r < fuel -> exists t, new_subtree fuel ch r = Some t /\ sep_ok r t.
  Proof using HF.
    intros Hc. induction fuel as [|f IH]; intros r Hr Hf; [lia|]. unfold new_subtree; fold new_subtree.
    destruct (chain_ok ch Hc (S f) r (sn_one r) Hr Hf) as (y & xs & -> & O & K). cbn [bind].
    pose proof (only_le _ _ _ O) as [Hy _]. rewrite (Hc y) by lia. cbn [bind].
    assert (M : exists subs, mapM (fun x => _ <- guard (x <? y) ;; new_subtree f ch x) (kids elim (Some y)) = Some subs /\ Forall2 sep_ok (kids elim (Some y)) subs).
    { assert (B : forall x, In x (kids elim (Some y)) -> x < y /\ x < n). { intros x Hx. apply kids_In, (fr_up _ _ HF) in Hx. lia. }
      induction (kids elim (Some y)) as [|x l IHl]. { exists []. split; constructor. }
      cbn [mapM]. destruct (B x (or_introl eq_refl)). rewrite (proj2 (Nat.ltb_lt _ _)) by auto. cbn [guard bind].
      destruct (IH x) as (t & -> & Ht); try lia. cbn [bind]. assert (K' : exists subs, mapM (fun x => _ <- guard (x <? y) ;; new_subtree f ch x) l = Some subs /\ Forall2 sep_ok l subs).
      { clear -IH B Hy Hf. assert (B' : forall x, In x l -> x < y /\ x < n) by (intros; apply B; right; auto). clear B.
        induction l as [|a l IHl]. { exists []. split; constructor. } cbn [mapM]. destruct (B' a (or_introl eq_refl)).
        rewrite (proj2 (Nat.ltb_lt _ _)) by auto. cbn [guard bind]. destruct (IH a) as (t & -> & Ht); try lia. cbn [bind].
        destruct IHl as (s & -> & Hs). { intros; apply B'; right; auto. } cbn [bind]. eexists. split; [reflexivity|]. constructor; auto. }
      destruct K' as (s & -> & Hs). cbn [bind]. eexists. split; [reflexivity|]. constructor; auto. }
    destruct M as (subs & -> & HS). cbn [bind]. rewrite sn_len_list, sn_one_list. cbn [length Nat.add]. rewrite (proj2 (Nat.ltb_lt 0 (S _))) by lia.
    cbn [guard bind]. rewrite (proj2 (Nat.ltb_lt 0 (S _))) by lia. cbn [guard bind]. eexists. split; [reflexivity|].
    apply (so_intro r xs y subs); auto.
  Qed.

  (** ** descendants *)
  Lemma anc_le x y : ancestor elim x y -> x <= y.
  Proof using HF. induction 1; [lia|]. apply (fr_up _ _ HF) in H. lia. Qed.
  Lemma anc_lt x y : ancestor elim x y -> y < n -> x < n.
  Proof using HF. intros H Hy. apply anc_le in H. lia. Qed.
  Lemma anc_trans x y z : ancestor elim x y -> ancestor elim y z -> ancestor elim x z.
  Proof using. induction 1; auto. intros. econstructor; eauto. Qed.
  Lemma anc_kid x r : ancestor elim x r <-> x = r \/ exists c, In c (kids elim (Some r)) /\ ancestor elim x c.
  Proof using.
    split.
    - induction 1 as [x|x p y E H IH]; auto. right. destruct IH as [->|(c & Hc & Hx)].
      + exists x. split; [apply kids_In; auto|constructor].
      + exists c. split; auto. econstructor; eauto.
    - intros [->|(c & Hc & Hx)]; [constructor|]. eapply anc_trans; eauto. econstructor; [apply kids_In; eauto|constructor].
  Qed.
  Lemma anc_chain z a : ancestor elim z a -> forall b, ancestor elim z b -> ancestor elim a b \/ ancestor elim b a.
  Proof using.
    induction 1 as [z|z p a E H IH]; intros b Hb; auto. inversion Hb; subst.
    - right. econstructor; eauto.
    - rewrite E in H0. injection H0 as <-. auto.
  Qed.
  Lemma kids_disjoint q a b z : In a (kids elim q) -> In b (kids elim q) -> ancestor elim z a -> ancestor elim z b -> a = b.
  Proof using HF.
    intros Ha Hb Za Zb. apply kids_In in Ha, Hb.
    assert (K : forall a b, nth_error elim a = Some q -> nth_error elim b = Some q -> ancestor elim a b -> a = b).
    { clear -HF. intros a b Ha Hb H. inversion H; subst; auto. rewrite Ha in H0. injection H0 as ->. apply (fr_up _ _ HF) in Hb. apply anc_le in H1. lia. }
    destruct (anc_chain _ _ Za _ Zb) as [H|H]; [|symmetry]; eapply K; eauto.
  Qed.
  Lemma only_anc r xs y : only r xs y -> forall z, ancestor elim z r <-> In z (r :: xs) \/ exists c, In c (kids elim (Some y)) /\ ancestor elim z c.
  Proof using.
    induction 1 as [x|x a xs y E _ IH]; intros z.
    - rewrite anc_kid. cbn. intuition.
    - rewrite anc_kid, E. split.
      + intros [->|(c & [<-|[]] & Hz)]; [left; left; auto|]. apply IH in Hz. destruct Hz as [Hz|Hz]; auto. left; right; auto.
      + intros [[->|Hz]|Hz]; auto; right; exists a; (split; [left; auto|]); apply IH; auto.
  Qed.
  Lemma only_desc r xs y : only r xs y -> StronglySorted (fun a b => b < a) (r :: xs) /\ (forall z, In z (r :: xs) -> y <= z).
  Proof using HF.
    induction 1 as [x|x a xs y E O IH]. { split. { repeat constructor. } intros z [->|[]]; lia. }
    destruct IH as [IH1 IH2]. assert (Ha : In a (kids elim (Some x))) by (rewrite E; left; auto). apply kids_In, (fr_up _ _ HF) in Ha.
    split. 2: { intros z [->|Hz]; auto. specialize (IH2 a (or_introl eq_refl)). lia. }
    constructor; auto. inversion IH1; subst. constructor; [lia|]. eapply Forall_impl; [|eauto]. cbn. intros; lia.
  Qed.

  Lemma Forall2_In_l {A B} (R : A -> B -> Prop) l l' x : Forall2 R l l' -> In x l -> exists y, In y l' /\ R x y.
  Proof using. induction 1; intros []; subst; eauto using in_eq. destruct IHForall2 as (z & ? & ?); eauto using in_cons. Qed.
  Lemma Forall2_In_r {A B} (R : A -> B -> Prop) l l' y : Forall2 R l l' -> In y l' -> exists x, In x l /\ R x y.
  Proof using. induction 1; intros []; subst; eauto using in_eq. destruct IHForall2 as (z & ? & ?); eauto using in_cons. Qed.

  (** the nodes of the subtree are exactly the descendants, each once *)
  Lemma sep_nodes t : forall r, sep_ok r t -> (forall z, In z (to_ordering t) <-> ancestor elim z r) /\ NoDup (to_ordering t) /\ length (to_ordering t) = st_num t.
  Proof using HF.
    induction t as [s l k IH] using septree_ind2. intros r H. inversion H as [r' xs y subs O K F Er Es]; subst. rewrite Forall_forall in IH.
    cbn [to_ordering st_num]. rewrite sn_one_list.
    assert (Hin : forall z, In z (flat_map to_ordering l) <-> exists c, In c (kids elim (Some y)) /\ ancestor elim z c).
    { intros z. rewrite in_flat_map. split.
      - intros (t & Ht & Hz). destruct (Forall2_In_r _ _ _ _ F Ht) as (c & Hc & Hs). exists c. split; auto. apply (IH t Ht c Hs). auto.
      - intros (c & Hc & Hz). destruct (Forall2_In_l _ _ _ _ F Hc) as (t & Ht & Hs). exists t. split; auto. apply (IH t Ht c Hs). auto. }
    split. { intros z. rewrite in_app_iff, Hin. symmetry. apply only_anc; auto. }
    split.
    - destruct (only_desc _ _ _ O) as [D1 D2].
      rewrite NoDup_app_iff. split. { clear -D1. induction D1; constructor; auto. rewrite Forall_forall in H. intros Hi. apply H in Hi. lia. }
      split.
      + pose proof (kids_NoDup elim (Some y)) as ND. assert (Dj : forall a b z, In a (kids elim (Some y)) -> In b (kids elim (Some y)) -> ancestor elim z a -> ancestor elim z b -> a = b) by (intros a b z; apply kids_disjoint).
        clear -F ND Dj IH. induction F as [|c t cs ts Hs F IHF]; cbn. { constructor. } inversion ND; subst.
        rewrite NoDup_app_iff. split. { apply (IH t (or_introl eq_refl) c Hs). } split.
        { apply IHF; auto. - intros; apply IH; auto. right; auto. - intros a b z Ha Hb. apply Dj; right; auto. }
        intros z Hz Hz'. apply in_flat_map in Hz' as (t' & Ht' & Hz'). destruct (Forall2_In_r _ _ _ _ F Ht') as (c' & Hc' & Hs').
        apply (IH t (or_introl eq_refl) c Hs) in Hz. apply (IH t' (or_intror Ht') c' Hs') in Hz'.
        assert (c = c') by (eapply Dj; [left; auto|right; exact Hc'| |]; eauto). subst. auto.
      + intros z Hz Hz'. apply Hin in Hz' as (c & Hc & Hz'). apply kids_In, (fr_up _ _ HF) in Hc. apply anc_le in Hz'. apply D2 in Hz. lia.
    - cbn [app length]. rewrite app_length. cbn [Nat.add]. f_equal. f_equal. unfold total. clear -IH F.
      induction F as [|c t cs ts Hs F IHF]; cbn; auto. rewrite app_length. f_equal; [|apply IHF; intros; apply IH; auto; right; auto].
      apply (IH t (or_introl eq_refl) c Hs).
  Qed.

  Lemma sep_high t r : sep_ok r t -> sn_high (st_nodes t) = Some r.
  Proof using. intros H. inversion H; subst. cbn [st_nodes]. rewrite sn_high_list, sn_one_list. auto. Qed.

  (** every node has a root above it *)
  Lemma root_of x : x < n -> exists r, In r (kids elim None) /\ ancestor elim x r.
  Proof using HF.
    intros Hx. assert (G : forall k x, n - x < k -> x < n -> exists r, In r (kids elim None) /\ ancestor elim x r).
    2: { apply (G (S (n - x))); auto. } clear x Hx. induction k as [|k IH]; intros x Hk Hx; [lia|].
    destruct (nth_error elim x) as [[p|]|] eqn:E.
    - destruct (fr_up _ _ HF _ _ E). destruct (IH p) as (r & Hr & Ha); try lia. exists r. split; auto. econstructor; eauto.
    - exists x. split; [apply kids_In; auto|constructor].
    - apply nth_error_None in E. rewrite (fr_len _ _ HF) in E. lia.
  Qed.

  Lemma sep_new_ok : exists subs, sep_new elim = Some (Sep sn_new subs n) /\ Forall2 sep_ok (kids elim None) subs /\ total subs = n /\
    NoDup (flat_map to_ordering subs) /\ forall x, In x (flat_map to_ordering subs) <-> x < n.
  Proof using HF.
    unfold sep_new. destruct child_lists_ok as (ch & -> & Lc & Hc). cbn [bind]. rewrite (fr_len _ _ HF).
    assert (B : forall r, In r (kids elim None) -> r < n). { intros r Hr. apply kids_In, nth_error_Some_lt in Hr. rewrite (fr_len _ _ HF) in Hr. auto. }
    assert (M : exists subs, mapM (new_subtree (S n) ch) (kids elim None) = Some subs /\ Forall2 sep_ok (kids elim None) subs).
    { revert B. induction (kids elim None) as [|x l IHl]; intros B. { exists []. split; constructor. }
      cbn [mapM]. pose proof (B x (or_introl eq_refl)) as Hx. destruct (new_subtree_ok ch Hc (S n) x Hx) as (t & -> & Ht); [lia|].
      destruct IHl as (s & -> & Hs). { intros; apply B; right; auto. } cbn [bind]. eexists. split; [reflexivity|]. constructor; auto. }
    destruct M as (subs & -> & HS). cbn [bind].
    assert (HI : forall x, In x (flat_map to_ordering subs) <-> x < n).
    { intros x. rewrite in_flat_map. split.
      - intros (t & Ht & Hx). destruct (Forall2_In_r _ _ _ _ HS Ht) as (r & Hr & Hs). apply (sep_nodes t r Hs) in Hx. eapply anc_lt; eauto.
      - intros Hx. destruct (root_of x Hx) as (r & Hr & Ha). destruct (Forall2_In_l _ _ _ _ HS Hr) as (t & Ht & Hs). exists t. split; auto. apply (sep_nodes t r Hs). auto. }
    assert (HD : NoDup (flat_map to_ordering subs)).
    { pose proof (kids_NoDup elim None) as ND. assert (Dj : forall a b z, In a (kids elim None) -> In b (kids elim None) -> ancestor elim z a -> ancestor elim z b -> a = b) by (intros a b z; apply kids_disjoint).
      pose proof sep_nodes as SN. clear -HS ND Dj SN. induction HS as [|c t cs ts Hs F IHF]; cbn. { constructor. } inversion ND; subst.
      rewrite NoDup_app_iff. split. { apply (SN t c Hs). } split.
      { apply IHF; auto. intros a b z Ha Hb. apply Dj; right; auto. }
      intros z Hz Hz'. apply in_flat_map in Hz' as (t' & Ht' & Hz'). destruct (Forall2_In_r _ _ _ _ F Ht') as (c' & Hc' & Hs').
      apply (SN t c Hs) in Hz. apply (SN t' c' Hs') in Hz'.
      assert (c = c') by (eapply Dj; [left; auto|right; exact Hc'| |]; eauto). subst. auto. }
    assert (HL : length (flat_map to_ordering subs) = total subs).
    { pose proof sep_nodes as SN. clear -HS SN. unfold total. induction HS as [|c t cs ts Hs F IHF]; cbn; auto. rewrite app_length. f_equal; auto. apply (SN t c Hs). }
    assert (HT : total subs = n).
    { rewrite <- HL. assert (P : Permutation (flat_map to_ordering subs) (seq 0 n)).
      { apply NoDup_Permutation; auto. apply seq_NoDup. intros x. rewrite HI, in_seq. lia. }
      apply Permutation_length in P. rewrite seq_length in P. auto. }
    exists subs. rewrite HT, Nat.eqb_refl. cbn [guard bind]. auto.
  Qed.
End Forest.
