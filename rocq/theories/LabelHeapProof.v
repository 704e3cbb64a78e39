(** Proof that the heap of LabelHeap.v refines SpecLabelHeap.v. *)
From Verif Require Import Base SpecLabelHeap LabelHeap.

Section Proof.
Context {T : Type} (le : T -> T -> bool) (TP : total_preorder le).
Local Ltac Zify.zify_post_hook ::= Z.to_euclidean_division_equations.

Notation par i := (((i) - 1) / 2).
Definition R (D : list T) (i : nat) : Prop :=
  forall x p, nth_error D i = Some x -> nth_error D (par i) = Some p -> le x p = true.
Definition below (D : list T) (c k : nat) : Prop :=
  forall x p, nth_error D c = Some x -> nth_error D k = Some p -> le x p = true.

Lemma upd_swap_perm (l : list T) i j a b : nth_error l i = Some a -> nth_error l j = Some b ->
  Permutation (upd (upd l i b) j a) l.
Proof.
  revert i j. induction l as [|y l IH]; intros [|i] [|j] Ha Hb; cbn in *; try discriminate.
  - injection Ha as <-. injection Hb as <-. auto.
  - injection Ha as <-. clear IH. revert j Hb. induction l as [|z l IH]; intros [|j] Hb; cbn in *; try discriminate.
    + injection Hb as <-. apply perm_swap.
    + rewrite perm_swap. rewrite (perm_swap z y). apply perm_skip. apply IH; auto.
  - injection Hb as <-. clear IH. revert i Ha. induction l as [|z l IH]; intros [|i] Ha; cbn in *; try discriminate.
    + injection Ha as <-. apply perm_swap.
    + rewrite perm_swap. rewrite (perm_swap z y). apply perm_skip. apply IH; auto.
  - apply perm_skip. eapply IH; eauto.
Qed.

(** moving the hole = swapping in the filled vector *)
Lemma fill_move (data : list T) pos c x elt : pos < length data -> c < length data -> c <> pos -> nth_error data c = Some x ->
  Permutation (upd (upd data pos x) c elt) (upd data pos elt).
Proof.
  intros Hp Hc Hn Hx.
  assert (E : upd (upd data pos x) c elt = upd (upd (upd data pos elt) pos x) c elt) by (rewrite upd_upd; auto).
  rewrite E. apply upd_swap_perm.
  - apply nth_error_upd_eq; auto.
  - rewrite nth_error_upd_neq; auto.
Qed.

Lemma get_fill (data : list T) pos elt i : pos < length data ->
  nth_error (upd data pos elt) i = if pos =? i then Some elt else nth_error data i.
Proof. intros H. rewrite nth_error_upd. assert (E : (pos <? length data) = true) by (apply Nat.ltb_lt; auto). rewrite E, andb_true_r. reflexivity. Qed.
Lemma get_fill2 (data : list T) pos c x elt i : pos < length data -> c < length data ->
  nth_error (upd (upd data pos x) c elt) i = if c =? i then Some elt else if pos =? i then Some x else nth_error data i.
Proof. intros H1 H2. rewrite get_fill by (rewrite upd_length; auto). destruct (c =? i); auto. apply get_fill; auto. Qed.

Definition su (e : nat) (D : list T) (pos : nat) : Prop :=
  (forall i, 0 < i < e -> i <> pos -> R D i) /\
  (0 < pos -> forall c, 0 < c < e -> par c = pos -> below D c (par pos)).
Definition heap (n e : nat) (D : list T) : Prop := forall i, 0 < i < e -> n <= par i -> R D i.
Definition outside (e : nat) (d d' : list T) : Prop := length d' = length d /\ forall i, e <= i -> nth_error d' i = nth_error d i.

Ltac cases := repeat match goal with |- context [?a =? ?b] => destruct (Nat.eqb_spec a b); try lia end.

Lemma sift_up_loop_ok e elt : forall fuel data pos, pos < fuel -> pos < e -> e <= length data -> su e (upd data pos elt) pos ->
  exists d' pos', sift_up_loop le fuel 0 data elt pos = Some (d', pos') /\ pos' <= pos /\
    heap 0 e (upd d' pos' elt) /\ Permutation (upd d' pos' elt) (upd data pos elt) /\ outside (S pos) data d'.
Proof.
  induction fuel as [|fuel IH]; intros data pos Hf He Hl [H1 H2]; [lia|]. cbn [sift_up_loop].
  destruct (Nat.leb_spec pos 0) as [Hp|Hp].
  { exists data, pos. repeat split; auto. intros i Hi _. apply H1; lia. }
  assert (Hpar : par pos < pos) by lia.
  rewrite (proj2 (Nat.eqb_neq _ _)) by lia. cbn [negb guard bind].
  destruct (nth_error_lt data (par pos)) as [p Ep]; [lia|]. rewrite Ep. cbn [bind].
  destruct (le elt p) eqn:Hle.
  { exists data, pos. repeat split; auto. intros i Hi _. destruct (Nat.eq_dec i pos) as [->|Hn]; [|apply H1; auto].
    intros x q. rewrite !get_fill by lia. rewrite Nat.eqb_refl. cases. congruence. }
  assert (Hge : le p elt = true) by (destruct (tp_total _ TP p elt); congruence).
  rewrite set_at_lt by lia. cbn [bind].
  destruct (IH (upd data pos p) (par pos)) as (d' & pos' & E & Hle' & HH & HP & HO); try (rewrite ?upd_length; lia).
  { assert (V : forall i, nth_error (upd data pos elt) i = if pos =? i then Some elt else nth_error data i) by (intros; apply get_fill; lia).
    assert (V' : forall i, nth_error (upd (upd data pos p) (par pos) elt) i =
       if par pos =? i then Some elt else if pos =? i then Some p else nth_error data i) by (intros; apply get_fill2; lia).
    assert (RV : forall i x q, 0 < i < e -> i <> pos -> par i <> pos -> nth_error data i = Some x -> nth_error data (par i) = Some q -> le x q = true).
    { intros i x q Hi Hn Hn2 Ex Eq. apply (H1 i Hi Hn); rewrite V; cases; auto. }
    split.
    - intros i Hi Hn x q. rewrite !V'. rewrite (proj2 (Nat.eqb_neq (par pos) i)) by lia.
      destruct (Nat.eqb_spec pos i) as [<-|Hpi].
      + rewrite Nat.eqb_refl. congruence.
      + destruct (Nat.eqb_spec (par pos) (par i)) as [Hs|Hs].
        * intros Ex [= <-]. apply (tp_trans _ TP x p elt); auto. apply (RV i x p); auto; try lia. rewrite <- Hs. auto.
        * destruct (Nat.eqb_spec pos (par i)) as [Hc|Hc].
          -- intros Ex [= <-]. apply (H2 Hp i Hi); [auto| |]; rewrite V; cases; auto.
          -- intros Ex Eq. apply (RV i x q); auto.
    - intros Hpp c Hc Hcp x q. rewrite !V'. cases; intros Ex Eq.
      + assert (x = p) by congruence. subst x. apply (RV (par pos) p q); auto; lia.
      + apply (tp_trans _ TP x p q); [|apply (RV (par pos) p q); auto; lia].
        apply (RV c x p); auto; try lia. rewrite Hcp. auto. }
  exists d', pos'. rewrite E. destruct HO as [HO1 HO2]. rewrite upd_length in HO1. repeat split; auto; try lia.
  - rewrite HP. apply fill_move; auto; lia.
  - intros i Hi. rewrite HO2 by lia. rewrite nth_error_upd_neq; auto; lia.
Qed.

Lemma sift_up_ok e data pos : pos < e -> e <= length data -> su e data pos ->
  exists d', sift_up le 0 pos data = Some d' /\ heap 0 e d' /\ Permutation d' data /\ outside (S pos) data d'.
Proof.
  intros Hp Hl H. unfold sift_up. destruct (nth_error_lt data pos) as [elt Ee]; [lia|]. rewrite Ee. cbn [bind].
  assert (Eu : upd data pos elt = data) by (apply upd_same; auto).
  destruct (sift_up_loop_ok e elt (S pos) data pos) as (d' & pos' & E & Hle & HH & HP & HO1 & HO2); auto.
  { rewrite Eu; auto. }
  rewrite E. cbn [bind]. rewrite set_at_lt by lia. eexists; split; [reflexivity|]. rewrite Eu in HP.
  repeat split; auto; [rewrite upd_length; auto|]. intros i Hi. rewrite nth_error_upd_neq by lia. auto.
Qed.

Lemma greater_child_ok data pos e : 2 * pos + 1 <= e - 2 -> e <= length data ->
  exists c x, greater_child le data pos (2 * pos + 1) = Some c /\ (c = 2 * pos + 1 \/ c = 2 * pos + 2) /\ nth_error data c = Some x /\
    forall k y, 0 < k < e -> par k = pos -> nth_error data k = Some y -> le y x = true.
Proof.
  intros He Hl. unfold greater_child.
  rewrite (proj2 (Nat.eqb_neq (2 * pos + 1) pos)) by lia. rewrite (proj2 (Nat.eqb_neq (2 * pos + 1 + 1) pos)) by lia.
  cbn [negb andb guard bind].
  destruct (nth_error_lt data (2 * pos + 1)) as [a Ea]; [lia|]. destruct (nth_error_lt data (2 * pos + 1 + 1)) as [b Eb]; [lia|].
  rewrite Ea, Eb. cbn [bind].
  assert (K : forall k, 0 < k -> par k = pos -> k = 2 * pos + 1 \/ k = 2 * pos + 1 + 1) by (intros; lia).
  destruct (le a b) eqn:Hab.
  - exists (2 * pos + 1 + 1), b. repeat split; auto; try lia. intros k y Hk Hp Ey. destruct (K k) as [-> | ->]; try lia; try congruence.
    replace y with b by congruence. apply (tp_refl _ TP).
  - assert (le b a = true) by (destruct (tp_total _ TP a b); congruence).
    exists (2 * pos + 1), a. repeat split; auto; try lia. intros k y Hk Hp Ey. destruct (K k) as [-> | ->]; try lia; try congruence.
    replace y with a by congruence. apply (tp_refl _ TP).
Qed.

Definition sd (n e : nat) (D : list T) (pos : nat) : Prop :=
  (forall i, 0 < i < e -> n <= par i -> par i <> pos -> R D i) /\
  (0 < pos -> n <= par pos -> forall c, 0 < c < e -> par c = pos -> below D c (par pos)).

Lemma sd_step n e data pos elt c x : n <= pos -> e <= length data -> 0 < c < e -> par c = pos -> nth_error data c = Some x ->
  (forall k y, 0 < k < e -> par k = pos -> nth_error data k = Some y -> le y x = true) ->
  le elt x = true -> sd n e (upd data pos elt) pos -> sd n e (upd (upd data pos x) c elt) c.
Proof.
  intros Hn Hl Hc Hcp Hx Hmax Hle [H1 H2].
  assert (Hpc : pos < c) by lia.
  assert (V : forall i, nth_error (upd data pos elt) i = if pos =? i then Some elt else nth_error data i) by (intros; apply get_fill; lia).
  assert (V' : forall i, nth_error (upd (upd data pos x) c elt) i =
       if c =? i then Some elt else if pos =? i then Some x else nth_error data i) by (intros; apply get_fill2; lia).
  split.
  - intros i Hi Hni Hnc y q. rewrite !V'. cases; intros; try congruence.
    + assert (y = x) by congruence. subst y. apply (H2 ltac:(lia) ltac:(subst; lia) c Hc Hcp); rewrite V; cases; auto. subst; auto.
    + assert (q = x) by congruence. subst q. apply (Hmax i y); auto.
    + apply (H1 i); auto; rewrite V; cases; auto.
  - intros Hcz Hnc k Hk Hkc y q. rewrite !V'. cases; intros; try congruence.
    + assert (q = x) by congruence. subst q. apply (H1 k); try lia; rewrite V; cases; auto. rewrite Hkc; auto.
Qed.

Lemma sift_down_loop_ok n e elt : forall fuel data pos, e <= pos + fuel -> n <= pos -> pos < e -> e <= length data -> sd n e (upd data pos elt) pos ->
  exists d' pos', sift_down_loop le fuel e data elt pos = Some (d', pos') /\ pos' < e /\
    heap n e (upd d' pos' elt) /\ Permutation (upd d' pos' elt) (upd data pos elt) /\ outside e data d'.
Proof.
  induction fuel as [|fuel IH]; intros data pos Hf Hn He Hl HS; [lia|]. cbn [sift_down_loop]. cbv zeta.
  assert (V : forall i, nth_error (upd data pos elt) i = if pos =? i then Some elt else nth_error data i) by (intros; apply get_fill; lia).
  destruct (Nat.leb_spec (2 * pos + 1) (e - 2)) as [Hc|Hc].
  - destruct (greater_child_ok data pos e) as (c & x & E & Hcc & Ex & Hmax); auto. rewrite E. cbn [bind]. rewrite Ex. cbn [bind].
    assert (Hcr : 0 < c < e /\ par c = pos) by lia. destruct Hcr as [Hc1 Hc2].
    destruct (le x elt) eqn:Hle.
    + exists data, pos. split; [reflexivity|]. split; auto. split; [|repeat split; auto].
      intros i Hi Hni. destruct (Nat.eq_dec (par i) pos) as [Hip|Hip]; [|apply HS; auto].
      intros y q. rewrite !V. cases. intros Ey [= <-]. apply (tp_trans _ TP y x elt); auto. apply (Hmax i); auto.
    + rewrite set_at_lt by lia. cbn [bind].
      destruct (IH (upd data pos x) c) as (d' & pos' & E' & Hl' & HH & HP & HO1 & HO2); try (rewrite ?upd_length; lia).
      { apply (sd_step n e data pos elt c x); auto. destruct (tp_total _ TP x elt); congruence. }
      exists d', pos'. rewrite E'. rewrite upd_length in HO1. repeat split; auto.
      * rewrite HP. apply fill_move; auto; lia.
      * intros i Hi. rewrite HO2 by lia. apply nth_error_upd_neq; lia.
  - assert (E1 : (1 <=? e) = true) by (apply Nat.leb_le; lia). rewrite E1. cbn [guard bind].
    destruct (Nat.eqb_spec (2 * pos + 1) (e - 1)) as [Hce|Hce].
    + destruct (nth_error_lt data (2 * pos + 1)) as [x Ex]; [lia|]. rewrite Ex. cbn [bind].
      assert (K : forall k, 0 < k < e -> par k = pos -> k = 2 * pos + 1) by (intros; lia).
      assert (Hmax : forall k y, 0 < k < e -> par k = pos -> nth_error data k = Some y -> le y x = true).
      { intros k y Hk Hp Ey. rewrite (K k) in Ey; auto. replace y with x by congruence. apply (tp_refl _ TP). }
      destruct (le x elt) eqn:Hle; cbn [negb].
      * exists data, pos. split; [reflexivity|]. split; auto. split; [|repeat split; auto].
        intros i Hi Hni. destruct (Nat.eq_dec (par i) pos) as [Hip|Hip]; [|apply HS; auto].
        intros y q. rewrite !V. cases. intros Ey [= <-]. apply (tp_trans _ TP y x elt); auto. apply (Hmax i); auto.
      * rewrite set_at_lt by lia. cbn [bind]. eexists _, _. split; [reflexivity|]. split; [lia|].
        assert (HS' : sd n e (upd (upd data pos x) (2 * pos + 1) elt) (2 * pos + 1)).
        { apply (sd_step n e data pos elt _ x); auto; try lia. destruct (tp_total _ TP x elt); congruence. }
        split; [|split; [apply fill_move; auto; lia|split; [rewrite upd_length; auto|]]].
        -- intros i Hi Hni. apply HS'; auto. lia.
        -- intros i Hi. apply nth_error_upd_neq; lia.
    + exists data, pos. split; [reflexivity|]. split; auto. split; [|repeat split; auto].
      intros i Hi Hni. apply HS; auto. lia.
Qed.

Lemma sift_down_ok n e data : n < e -> e <= length data -> heap (S n) e data ->
  exists d', sift_down le e n data = Some d' /\ heap n e d' /\ Permutation d' data /\ outside e data d'.
Proof.
  intros Hp Hl H. unfold sift_down. destruct (nth_error_lt data n) as [elt Ee]; [lia|]. rewrite Ee. cbn [bind].
  assert (Eu : upd data n elt = data) by (apply upd_same; auto).
  destruct (sift_down_loop_ok n e elt (S e) data n) as (d' & pos' & E & Hle & HH & HP & HO1 & HO2); auto; try lia.
  { rewrite Eu. split; [|lia]. intros i Hi H1 H2. apply H; auto. lia. }
  rewrite E. cbn [bind]. rewrite set_at_lt by lia. eexists; split; [reflexivity|]. rewrite Eu in HP.
  repeat split; auto; [rewrite upd_length; auto|]. intros i Hi. rewrite nth_error_upd_neq by lia. auto.
Qed.

Definition tb (e : nat) (D : list T) (pos : nat) : Prop :=
  (forall i, 0 < i < e -> i <> pos -> par i <> pos -> R D i) /\
  (0 < pos -> forall c, 0 < c < e -> par c = pos -> below D c (par pos)).

Lemma tb_step e data pos elt c x : e <= length data -> 0 < c < e -> par c = pos -> nth_error data c = Some x ->
  (forall k y, 0 < k < e -> par k = pos -> nth_error data k = Some y -> le y x = true) ->
  tb e (upd data pos elt) pos -> tb e (upd (upd data pos x) c elt) c.
Proof.
  intros Hl Hc Hcp Hx Hmax [H1 H2].
  assert (Hpc : pos < c) by lia.
  assert (V : forall i, nth_error (upd data pos elt) i = if pos =? i then Some elt else nth_error data i) by (intros; apply get_fill; lia).
  assert (V' : forall i, nth_error (upd (upd data pos x) c elt) i =
       if c =? i then Some elt else if pos =? i then Some x else nth_error data i) by (intros; apply get_fill2; lia).
  split.
  - intros i Hi Hn Hnc y q. rewrite !V'. cases; intros; try congruence.
    + assert (y = x) by congruence. subst y. apply (H2 ltac:(lia) c Hc Hcp); rewrite V; cases; auto. subst; auto.
    + assert (q = x) by congruence. subst q. apply (Hmax i y); auto.
    + apply (H1 i); auto; rewrite V; cases; auto.
  - intros Hcz k Hk Hkc y q. rewrite !V'. cases; intros; try congruence.
    + assert (q = x) by congruence. subst q. apply (H1 k); try lia; rewrite V; cases; auto. rewrite Hkc; auto.
Qed.

Lemma to_bottom_ok e elt : forall fuel data pos, e <= pos + fuel -> pos < e -> e <= length data -> tb e (upd data pos elt) pos ->
  exists d' pos', to_bottom_loop le fuel e data pos = Some (d', pos') /\ pos' < e /\
    su e (upd d' pos' elt) pos' /\ Permutation (upd d' pos' elt) (upd data pos elt) /\ outside e data d'.
Proof.
  induction fuel as [|fuel IH]; intros data pos Hf He Hl HS; [lia|]. cbn [to_bottom_loop]. cbv zeta.
  assert (V : forall i, nth_error (upd data pos elt) i = if pos =? i then Some elt else nth_error data i) by (intros; apply get_fill; lia).
  assert (LEAF : forall D p, p < e -> tb e D p -> (forall k, 0 < k < e -> par k <> p) -> su e D p).
  { intros D p Hp [A B] C. split; auto. }
  destruct (Nat.leb_spec (2 * pos + 1) (e - 2)) as [Hc|Hc].
  - destruct (greater_child_ok data pos e) as (c & x & E & Hcc & Ex & Hmax); auto. rewrite E. cbn [bind]. rewrite Ex. cbn [bind].
    assert (Hcr : 0 < c < e /\ par c = pos) by lia. destruct Hcr as [Hc1 Hc2].
    rewrite set_at_lt by lia. cbn [bind].
    destruct (IH (upd data pos x) c) as (d' & pos' & E' & Hl' & HH & HP & HO1 & HO2); try (rewrite ?upd_length; lia).
    { apply (tb_step e data pos elt c x); auto. }
    exists d', pos'. rewrite E'. rewrite upd_length in HO1. repeat split; auto; try apply HH.
    * rewrite HP. apply fill_move; auto; lia.
    * intros i Hi. rewrite HO2 by lia. apply nth_error_upd_neq; lia.
  - assert (E1 : (1 <=? e) = true) by (apply Nat.leb_le; lia). rewrite E1. cbn [guard bind].
    destruct (Nat.eqb_spec (2 * pos + 1) (e - 1)) as [Hce|Hce].
    + destruct (nth_error_lt data (2 * pos + 1)) as [x Ex]; [lia|]. rewrite Ex. cbn [bind].
      assert (Hmax : forall k y, 0 < k < e -> par k = pos -> nth_error data k = Some y -> le y x = true).
      { intros k y Hk Hp Ey. replace k with (2 * pos + 1) in Ey by lia. replace y with x by congruence. apply (tp_refl _ TP). }
      rewrite set_at_lt by lia. cbn [bind]. eexists _, _. split; [reflexivity|]. split; [lia|].
      assert (HS' : tb e (upd (upd data pos x) (2 * pos + 1) elt) (2 * pos + 1)).
      { apply (tb_step e data pos elt _ x); auto; lia. }
      split; [apply LEAF; auto; try lia; intros; lia|split; [apply fill_move; auto; lia|split; [rewrite upd_length; auto|]]].
      intros i Hi. apply nth_error_upd_neq; lia.
    + exists data, pos. split; [reflexivity|]. split; auto. split; [apply LEAF; auto; intros; lia|repeat split; auto].
Qed.

Lemma sift_down_to_bottom_ok e data : 0 < e -> e <= length data -> tb e data 0 ->
  exists d', sift_down_to_bottom le e 0 data = Some d' /\ heap 0 e d' /\ Permutation d' data /\ outside e data d'.
Proof.
  intros Hp Hl H. unfold sift_down_to_bottom. destruct (nth_error_lt data 0) as [elt Ee]; [lia|]. rewrite Ee. cbn [bind].
  assert (Eu : upd data 0 elt = data) by (apply upd_same; auto).
  destruct (to_bottom_ok e elt (S e) data 0) as (d' & pos' & E & Hle & HH & HP & HO1 & HO2); auto; try lia.
  { rewrite Eu; auto. }
  rewrite E. cbn [bind]. rewrite set_at_lt by lia. cbn [bind]. rewrite Eu in HP.
  destruct (sift_up_ok e (upd d' pos' elt) pos') as (d2 & E2 & H2 & P2 & O1 & O2); auto; [rewrite upd_length; lia|].
  exists d2. rewrite E2. repeat split; auto.
  - rewrite P2; auto.
  - rewrite O1, upd_length; auto.
  - intros i Hi. rewrite O2 by lia. rewrite nth_error_upd_neq by lia. auto.
Qed.

(** the root is largest *)
Lemma root_max e D r : heap 0 e D -> e <= length D -> nth_error D 0 = Some r -> forall i x, i < e -> nth_error D i = Some x -> le x r = true.
Proof.
  intros H Hl Hr i. induction i as [i IH] using lt_wf_ind. intros x Hi Hx.
  destruct (Nat.eq_dec i 0) as [->|Hn]; [replace x with r by congruence; apply (tp_refl _ TP)|].
  destruct (nth_error_lt D (par i)) as [p Ep]; [lia|].
  apply (tp_trans _ TP x p r); [apply (H i); auto; lia|]. apply (IH (par i)); auto; lia.
Qed.

Lemma outside_skipn e d d' : outside e d d' -> skipn e d' = skipn e d.
Proof.
  intros [H1 H2]. apply list_ext. intros i.
  assert (S : forall (l : list T) k j, nth_error (skipn k l) j = nth_error l (k + j)).
  { clear. induction l as [|a l IH]; intros [|k] j; cbn; auto. destruct j; auto. }
  rewrite !S. apply H2. lia.
Qed.
Lemma outside_perm e d d' : outside e d d' -> Permutation d' d -> Permutation (firstn e d') (firstn e d).
Proof.
  intros HO HP. apply (Permutation_app_inv_r (skipn e d)). rewrite firstn_skipn.
  rewrite <- (outside_skipn e d d' HO), firstn_skipn. auto.
Qed.

Lemma heap_firstn e d d' : firstn e d = firstn e d' -> heap 0 e d -> heap 0 e d'.
Proof.
  intros E H i Hi Hn x p Hx Hp.
  assert (F : forall (l : list T) k j, j < k -> nth_error (firstn k l) j = nth_error l j).
  { clear. induction l as [|a l IH]; intros [|k] [|j] Hj; cbn; auto; try lia. apply IH; lia. }
  apply (H i); auto.
  - rewrite <- (F d e i) by lia. rewrite E, F by lia. auto.
  - rewrite <- (F d e (par i)) by lia. rewrite E, F by lia. auto.
Qed.

Lemma rebuild_ok e : forall k d, k <= e -> e <= length d -> heap k e d ->
  exists d', foldM (fun d i => sift_down le e i d) (rev (seq 0 k)) d = Some d' /\ heap 0 e d' /\ Permutation d' d /\ outside e d d'.
Proof.
  induction k as [|k IH]; intros d Hk Hl H.
  - exists d. cbn. repeat split; auto.
  - rewrite seq_S, rev_app_distr. cbn [rev app foldM Nat.add].
    destruct (sift_down_ok k e d) as (d1 & E1 & H1 & P1 & O1); auto. rewrite E1. cbn [bind].
    destruct (IH d1) as (d2 & E2 & H2 & P2 & O2); auto; try lia. { destruct O1; lia. }
    exists d2. rewrite E2. repeat split; auto.
    + rewrite P2; auto.
    + destruct O1, O2; lia.
    + intros i Hi. rewrite (proj2 O2) by auto. apply O1; auto.
Qed.

Lemma sift_ups_ok : forall k s d, s + k <= length d -> heap 0 s d ->
  exists d', foldM (fun d i => sift_up le 0 i d) (seq s k) d = Some d' /\ heap 0 (s + k) d' /\ Permutation d' d /\ outside (s + k) d d'.
Proof.
  induction k as [|k IH]; intros s d Hl H; cbn [seq foldM].
  - exists d. rewrite Nat.add_0_r. repeat split; auto.
  - destruct (sift_up_ok (S s) d s) as (d1 & E1 & H1 & P1 & O1); try lia.
    { split; [|intros; lia]. intros i Hi Hn. apply H; lia. }
    rewrite E1. cbn [bind]. destruct (IH (S s) d1) as (d2 & E2 & H2 & P2 & O2); auto. { destruct O1; lia. }
    replace (s + S k) with (S s + k) by lia. exists d2. rewrite E2. repeat split; auto.
    + rewrite P2; auto.
    + destruct O1, O2; lia.
    + intros i Hi. rewrite (proj2 O2) by auto. apply O1; lia.
Qed.

Lemma rebuild_tail_ok e s d : s <= e -> e <= length d -> heap 0 s d ->
  exists d', rebuild_tail le e s d = Some d' /\ heap 0 e d' /\ Permutation d' d /\ outside e d d'.
Proof.
  intros Hs Hl H. unfold rebuild_tail. destruct (Nat.eqb_spec s e) as [->|Hn].
  { exists d. repeat split; auto. }
  assert (Eg : (s <=? e) = true) by (apply Nat.leb_le; auto). rewrite Eg. cbn [guard bind]. cbv zeta.
  match goal with |- context [if ?b then rebuild _ _ _ else _] => destruct b end.
  - unfold rebuild. apply rebuild_ok; auto; try lia. intros i Hi Hp. lia.
  - destruct (sift_ups_ok (e - s) s d) as (d' & E & H' & P & O); auto; try lia.
    replace (s + (e - s)) with e in * by lia. eauto.
Qed.

(** invariant *)
Definition LInv (h : lheap T) : Prop := l_split h <= length (l_data h) /\ heap 0 (l_split h) (l_data h).
Definition queue (h : lheap T) : list T * list T := (firstn (l_split h) (l_data h), skipn (l_split h) (l_data h)).

Lemma swap_ok (l : list T) i j : i < length l -> j < length l -> exists a b, nth_error l i = Some a /\ nth_error l j = Some b /\
  swap l i j = Some (upd (upd l i b) j a).
Proof.
  intros Hi Hj. destruct (nth_error_lt l i Hi) as [a Ea]. destruct (nth_error_lt l j Hj) as [b Eb]. exists a, b.
  unfold swap. rewrite Ea, Eb. cbn [bind]. rewrite set_at_lt by auto. cbn [bind]. rewrite set_at_lt by (rewrite upd_length; auto). auto.
Qed.

Lemma firstn_S_snoc (l : list T) i x : nth_error l i = Some x -> firstn (S i) l = firstn i l ++ [x].
Proof. revert i. induction l as [|a l IH]; intros [|i] H; cbn in *; try discriminate. - congruence. - rewrite <- IH; auto. Qed.
Lemma skipn_cons_at (l : list T) i x : nth_error l i = Some x -> skipn i l = x :: skipn (S i) l.
Proof. revert i. induction l as [|a l IH]; intros [|i] H; cbn in *; try discriminate. - congruence. - apply IH; auto. Qed.

Lemma firstn_nth_if (l : list T) : forall k j, nth_error (firstn k l) j = if j <? k then nth_error l j else None.
Proof.
  induction l as [|a l IH]; intros [|k] [|j]; cbn [firstn nth_error]; auto.
  - destruct (S j <? S k); auto.
  - rewrite IH. reflexivity.
Qed.

Lemma push_ok h x : LInv h -> exists h', lh_push le h x = Some h' /\ LInv h' /\ lh_spec le (queue h) (LPush x) LUnit (queue h').
Proof.
  destruct h as [d s]. intros [Hs HH]. cbn in Hs, HH. unfold lh_push. cbn [l_data l_split].
  assert (Hla : length (d ++ [x]) = S (length d)) by (rewrite app_length; cbn; lia).
  destruct (swap_ok (d ++ [x]) s (length (d ++ [x]) - 1)) as (a & b & Ea & Eb & E); try lia. rewrite E. cbn [bind].
  rewrite Hla in *. replace (S (length d) - 1) with (length d) in * by lia.
  assert (b = x). { rewrite nth_error_app2 in Eb by lia. rewrite Nat.sub_diag in Eb. cbn in Eb. congruence. } subst b.
  set (d1 := upd (upd (d ++ [x]) s x) (length d) a) in *.
  assert (L1 : length d1 = S (length d)) by (unfold d1; rewrite !upd_length; auto).
  assert (V : forall i, i < s -> nth_error d1 i = nth_error d i).
  { intros i Hi. unfold d1. rewrite !nth_error_upd_neq by lia. rewrite nth_error_app1 by lia. auto. }
  assert (Vs : nth_error d1 s = Some x).
  { unfold d1. rewrite nth_error_upd. rewrite upd_length, Hla.
    destruct (Nat.eqb_spec (length d) s) as [e|e]; cbn [andb].
    - assert (E0 : (length d <? S (length d)) = true) by (apply Nat.ltb_lt; lia). rewrite E0. f_equal.
      rewrite e in Eb. congruence.
    - rewrite nth_error_upd_eq by lia. auto. }
  destruct (sift_up_ok (s + 1) d1 s) as (d2 & E2 & H2 & P2 & O2); try lia.
  { split.
    - intros i Hi Hn y p Hy Hp. apply (HH i ltac:(lia) ltac:(lia)); rewrite <- V; auto; lia.
    - intros. lia. }
  rewrite E2. cbn [bind]. eexists; split; [reflexivity|].
  split. { split; cbn; auto. destruct O2; lia. }
  unfold queue. cbn [l_data l_split]. constructor.
  - rewrite (outside_perm (s + 1) d1 d2); auto.
    + replace (s + 1) with (S s) by lia. rewrite (firstn_S_snoc d1 s x Vs).
      replace (firstn s d1) with (firstn s d). { symmetry. apply Permutation_cons_append. }
      apply list_ext. intros i.
      rewrite !firstn_nth_if. destruct (Nat.ltb_spec i s); auto. symmetry; auto.
    + replace (s + 1) with (S s) by lia. auto.
  - rewrite (outside_skipn (s + 1) d1 d2) by (replace (s + 1) with (S s) by lia; auto).
    apply (Permutation_app_inv_l (firstn (s + 1) d1)). rewrite firstn_skipn.
    replace (s + 1) with (S s) by lia. rewrite (firstn_S_snoc d1 s x Vs).
    assert (P1 : Permutation d1 (d ++ [x])) by (apply upd_swap_perm; auto).
    replace (firstn s d1) with (firstn s d).
    + rewrite P1. rewrite <- app_assoc. cbn [app]. rewrite <- (firstn_skipn s d) at 1. rewrite <- app_assoc. apply Permutation_app_head.
      symmetry. apply Permutation_cons_append.
    + apply list_ext. intros i.
      rewrite !firstn_nth_if. destruct (Nat.ltb_spec i s); auto. symmetry; auto.
Qed.

Lemma firstn_In_nth (l : list T) k x : In x (firstn k l) -> exists i, i < k /\ nth_error l i = Some x.
Proof.
  intros H. apply In_nth_error in H. destruct H as [i Hi].
  assert (i < k). { apply nth_error_Some_lt in Hi. rewrite firstn_length in Hi. lia. }
  exists i. split; auto. revert k i Hi H. induction l as [|a l IH]; intros [|k] [|i] Hi H; cbn in *; try lia; auto; try discriminate.
  apply (IH k i); auto; lia.
Qed.

Lemma largest_root d s r : s <= length d -> 0 < s -> heap 0 s d -> nth_error d 0 = Some r -> largest le r (firstn s d).
Proof.
  intros Hs H0 HH Hr. split.
  - destruct d; cbn in Hr; [discriminate|]. destruct s; [lia|]. cbn. left; congruence.
  - intros y Hy. destruct (firstn_In_nth d s y Hy) as (i & Hi & Ey). apply (root_max s d r HH Hs Hr i y Hi Ey).
Qed.

Lemma pop_ok h : LInv h -> exists h' o, lh_pop le h = Some (h', o) /\ LInv h' /\ lh_spec le (queue h) LPop (LElem o) (queue h').
Proof.
  destruct h as [d s]. intros [Hs HH]. cbn in Hs, HH. unfold lh_pop. cbn [l_data l_split].
  destruct s as [|[|s]].
  - eexists _, _. split; [reflexivity|]. split; [split; auto|]. unfold queue. cbn. constructor.
  - destruct d as [|x d]; cbn in Hs; [lia|]. cbn [nth_error bind]. eexists _, _. split; [reflexivity|].
    split. { split; cbn; [lia|]. intros i Hi; lia. }
    unfold queue. cbn. constructor; auto. split; cbn; auto. intros y [-> | []]. apply (tp_refl _ TP).
  - set (m := S s) in *.
    destruct (swap_ok d 0 m) as (a & b & Ea & Eb & E); try (unfold m; lia). rewrite E. cbn [bind].
    set (d1 := upd (upd d 0 b) m a).
    assert (L1 : length d1 = length d) by (unfold d1; rewrite !upd_length; auto).
    assert (V : forall i, 0 < i < m -> nth_error d1 i = nth_error d i).
    { intros i Hi. unfold d1. rewrite !nth_error_upd_neq by lia. auto. }
    assert (Vm : nth_error d1 m = Some a) by (unfold d1; apply nth_error_upd_eq; rewrite upd_length; lia).
    assert (P1 : Permutation d1 d) by (apply upd_swap_perm; auto).
    destruct (sift_down_to_bottom_ok m d1) as (d2 & E2 & H2 & P2 & O2); try (unfold m in *; lia).
    { split; [|intros; lia]. intros i Hi _ Hp x p Hx Hq. apply (HH i ltac:(lia) ltac:(lia)); rewrite <- V; auto; lia. }
    rewrite E2. cbn [bind].
    assert (V2 : nth_error d2 m = Some a) by (rewrite (proj2 O2) by lia; auto).
    rewrite V2. cbn [bind]. eexists _, _. split; [reflexivity|].
    split. { split; cbn; auto. destruct O2; lia. }
    unfold queue. cbn [l_data l_split].
    assert (Tail : skipn (S m) d2 = skipn (S m) d).
    { apply outside_skipn. split; [destruct O2; lia|]. intros i Hi. rewrite (proj2 O2) by lia. unfold d1. rewrite !nth_error_upd_neq by lia. auto. }
    constructor.
    + apply largest_root; auto; lia.
    + assert (firstn (S m) d2 = firstn m d2 ++ [a]) by (apply firstn_S_snoc; auto).
      apply (Permutation_app_inv_r (skipn (S m) d)). rewrite firstn_skipn. rewrite <- Tail.
      rewrite Permutation_cons_append, <- H, firstn_skipn. rewrite P2. auto.
    + rewrite (skipn_cons_at d2 m a V2), Tail. auto.
Qed.

Lemma retain_fold (keep : T -> bool) split (l : list T) : let '(first, i, removed) := fold_left (retain_count keep split) l (split, 0, 0) in
  i = length l /\ removed + length (filter keep (firstn split l)) = length (firstn split l) /\
  ((first = split /\ forallb keep (firstn split l) = true) \/
   (first < split /\ first < length l /\ forallb keep (firstn first l) = true)).
Proof.
  induction l as [|e l IH] using rev_ind; cbn [fold_left].
  - cbn. rewrite firstn_nil. cbn. auto.
  - rewrite fold_left_app. cbn [fold_left]. destruct (fold_left _ l _) as [[first i] removed]. destruct IH as (Ei & Er & Ef).
    unfold retain_count. rewrite app_length. cbn [length]. subst i.
    destruct (Nat.ltb_spec (length l) split) as [Hlt|Hge].
    + assert (F1 : firstn split l = l) by (apply firstn_all2; lia).
      assert (F2 : firstn split (l ++ [e]) = l ++ [e]) by (apply firstn_all2; rewrite app_length; cbn; lia).
      rewrite F1 in Er, Ef. rewrite F2. rewrite filter_app, !app_length, forallb_app. cbn [filter length forallb].
      destruct (keep e); cbn [negb andb length].
      * split; [lia|]. split; [lia|]. destruct Ef as [[-> A]|(A & B & C)]; [left; rewrite A; auto|right].
        split; auto. split; [lia|]. rewrite firstn_app. replace (first - length l) with 0 by lia. cbn. rewrite app_nil_r. auto.
      * split; [lia|]. split; [lia|].
        destruct Ef as [[-> A]|(A & B & C)].
        -- assert (E0 : (length l <? split) = true) by (apply Nat.ltb_lt; auto). rewrite E0. right. split; [lia|]. split; [lia|].
           rewrite firstn_app, firstn_all. replace (length l - length l) with 0 by lia. cbn. rewrite app_nil_r. auto.
        -- assert (E0 : (length l <? first) = false) by (apply Nat.ltb_ge; lia). rewrite E0. right. split; [lia|]. split; [lia|].
           rewrite firstn_app. replace (first - length l) with 0 by lia. cbn. rewrite app_nil_r. auto.
    + rewrite firstn_app. replace (split - length l) with 0 by lia. cbn [firstn]. rewrite app_nil_r.
      rewrite andb_false_r. split; [lia|]. split; [auto|].
      destruct Ef as [[-> A]|(A & B & C)].
      * assert (E0 : (length l <? split) = false) by (apply Nat.ltb_ge; lia). rewrite E0, andb_false_r. left; auto.
      * assert (E0 : (length l <? first) = false) by (apply Nat.ltb_ge; lia). rewrite E0, andb_false_r. right. split; [lia|]. split; [lia|].
        rewrite firstn_app. replace (first - length l) with 0 by lia. cbn. rewrite app_nil_r. auto.
Qed.

Lemma forallb_filter (f : T -> bool) l : forallb f l = true -> filter f l = l.
Proof. induction l as [|a l IH]; cbn; auto. intros H. apply andb_prop in H. destruct H as [-> H]. rewrite IH; auto. Qed.

Lemma retain_ok h keep : LInv h -> exists h', lh_retain le h keep = Some h' /\ LInv h' /\ lh_spec le (queue h) (LRetain keep) LUnit (queue h').
Proof.
  destruct h as [d s]. intros [Hs HH]. cbn in Hs, HH. unfold lh_retain. cbn [l_data l_split].
  pose proof (retain_fold keep s d) as HF. destruct (fold_left _ d _) as [[first i] removed]. destruct HF as (_ & Er & Ef).
  assert (Lf : length (firstn s d) = s) by (rewrite firstn_length; lia).
  assert (Hr : removed <= s) by lia.
  assert (Eg : (removed <=? s) = true) by (apply Nat.leb_le; auto). rewrite Eg. cbn [guard bind].
  set (s' := s - removed).
  assert (Es : s' = length (filter keep (firstn s d))) by (unfold s'; lia).
  assert (Efl : filter keep d = filter keep (firstn s d) ++ filter keep (skipn s d)).
  { rewrite <- filter_app, firstn_skipn. auto. }
  assert (Hs' : s' <= length (filter keep d)) by (rewrite Efl, app_length; lia).
  assert (HP : first <= s' /\ firstn first (filter keep d) = firstn first d).
  { destruct Ef as [[-> A]|(A & B & C)].
    - rewrite (forallb_filter keep _ A) in *. split; [lia|].
      rewrite Efl, firstn_app, Lf, Nat.sub_diag. cbn. rewrite app_nil_r. rewrite firstn_firstn, Nat.min_id. auto.
    - assert (F : filter keep (firstn s d) = firstn first d ++ filter keep (skipn first (firstn s d))).
      { rewrite <- (forallb_filter keep _ C) at 1. replace (firstn first d) with (firstn first (firstn s d)).
        - rewrite <- filter_app, firstn_skipn. auto.
        - rewrite firstn_firstn. f_equal. lia. }
      split. { rewrite Es, F, app_length, firstn_length. lia. }
      rewrite Efl, F, <- app_assoc. rewrite firstn_app.
      replace (first - length (firstn first d)) with 0 by (rewrite firstn_length; lia). cbn. rewrite app_nil_r.
      rewrite firstn_firstn, Nat.min_id. auto. }
  destruct HP as [HP1 HP2].
  assert (Hfs : first <= s) by lia.
  destruct (rebuild_tail_ok s' first (filter keep d)) as (d' & E & H' & P & O); auto.
  { apply (heap_firstn first d); auto. intros k Hk _. apply HH; lia. }
  rewrite E. cbn [bind]. eexists; split; [reflexivity|]. split. { split; cbn; auto. destruct O; lia. }
  unfold queue. cbn [l_data l_split]. constructor.
  - rewrite (outside_perm _ _ _ O P). rewrite Efl, firstn_app. rewrite Es, Nat.sub_diag. cbn. rewrite app_nil_r, firstn_all. auto.
  - rewrite (outside_skipn _ _ _ O). rewrite Efl, skipn_app. rewrite Es, Nat.sub_diag, skipn_all. cbn. auto.
Qed.

Lemma step_ok h op : LInv h -> exists h' o, lh_step le h op = Some (h', o) /\ LInv h' /\ lh_spec le (queue h) op o (queue h').
Proof.
  intros H. destruct op as [x| | | | |keep]; cbn [lh_step].
  - destruct (push_ok h x H) as (h' & E & HI & S). rewrite E. cbn [bind]. eauto.
  - destruct (pop_ok h H) as (h' & o & E & HI & S). rewrite E. cbn [bind]. eauto.
  - eexists _, _. split; [reflexivity|]. split; auto. destruct h as [d s]. destruct H as [Hs HH]. cbn in Hs, HH.
    unfold lh_peek, queue. cbn [l_data l_split]. destruct (Nat.ltb_spec 0 s) as [H0|H0].
    + destruct (nth_error_lt d 0) as [r Er]; [lia|]. rewrite Er. constructor. apply largest_root; auto.
    + replace s with 0 by lia. cbn. constructor.
  - destruct h as [d s]. destruct H as [Hs HH]. cbn in Hs, HH. unfold lh_popped. cbn [l_data l_split].
    assert (E : (s <=? length d) = true) by (apply Nat.leb_le; auto). rewrite E. cbn [bind].
    eexists _, _. split; [reflexivity|]. split; [split; auto|]. constructor. auto.
  - eexists _, _. split; [reflexivity|]. split; [split; cbn; auto; intros i Hi; lia|]. constructor.
  - destruct (retain_ok h keep H) as (h' & E & HI & S). rewrite E. cbn [bind]. eauto.
Qed.

Lemma run_ok : forall ops h, LInv h -> exists os, lh_run le h ops = Some os /\ length os = length ops /\ lh_trace le (queue h) (combine ops os).
Proof.
  induction ops as [|op ops IH]; intros h H; cbn [lh_run].
  - exists []. repeat split; constructor.
  - destruct (step_ok h op H) as (h' & o & E & HI & S). rewrite E. cbn [bind].
    destruct (IH h' HI) as (os & E' & L & Tr). rewrite E'. cbn [bind]. exists (o :: os). repeat split; cbn; auto.
    econstructor; eauto.
Qed.

Lemma new_ok : LInv lh_new.
Proof. split; cbn; auto. intros i Hi; lia. Qed.
End Proof.
