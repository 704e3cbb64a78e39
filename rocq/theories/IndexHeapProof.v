From Verif Require Import Base SpecPQ IndexHeap.
Ltac Zify.zify_post_hook ::= Z.div_mod_to_equations.

Section Proof.
  Variable T : Type.
  Variable idx : T -> nat.
  Variable ltb : T -> T -> bool.
  Hypothesis OL : order_laws ltb.

  Notation le a b := (ltb b a = false).

  Lemma le_trans' a b c : le a b -> le b c -> le a c.
  Proof. intros; eapply ol_trans; eauto. Qed.

  Definition Wf (P : list (option nat)) (D : list T) : Prop :=
    (forall i x, nth_error D i = Some x -> nth_error P (idx x) = Some (Some i)) /\
    (forall j i, nth_error P j = Some (Some i) -> exists x, nth_error D i = Some x /\ idx x = j).

  Definition Ordered (D : list T) : Prop :=
    forall i x y, 0 < i -> nth_error D i = Some x -> nth_error D ((i - 1) / 4) = Some y -> le y x.

  Definition OrdUp (D : list T) (pos : nat) : Prop :=
    (forall i x y, i <> pos -> 0 < i -> nth_error D i = Some x -> nth_error D ((i - 1) / 4) = Some y -> le y x) /\
    (forall i x y, 0 < i -> (i - 1) / 4 = pos -> 0 < pos -> nth_error D i = Some x -> nth_error D ((pos - 1) / 4) = Some y -> le y x).

  Definition OrdDown (D : list T) (pos : nat) : Prop :=
    (forall i x y, (i - 1) / 4 <> pos -> 0 < i -> nth_error D i = Some x -> nth_error D ((i - 1) / 4) = Some y -> le y x) /\
    (forall i x y, 0 < i -> (i - 1) / 4 = pos -> 0 < pos -> nth_error D i = Some x -> nth_error D ((pos - 1) / 4) = Some y -> le y x).

  Definition abs (h : heap T) : content T := fun j =>
    match nth_error (positions h) j with Some (Some i) => nth_error (data h) i | _ => None end.

  Record Inv (n : nat) (h : heap T) : Prop := {
    inv_len : length (positions h) = n;
    inv_wf : Wf (positions h) (data h);
    inv_ord : Ordered (data h) }.

  Lemma wf_inj P D i j x y : Wf P D -> nth_error D i = Some x -> nth_error D j = Some y -> idx x = idx y -> i = j.
  Proof. intros [W1 _] Hx Hy E. apply W1 in Hx. apply W1 in Hy. rewrite E in Hx. congruence. Qed.

  Lemma abs_In P D j x : Wf P D -> (abs (mkHeap P D) j = Some x <-> In x D /\ idx x = j).
  Proof.
    intros W. unfold abs; cbn [positions data]. split.
    - destruct (nth_error P j) as [[i|]|] eqn:E; try discriminate. intros Hx.
      apply (proj2 W) in E. destruct E as (y & Hy & Ej). rewrite Hx in Hy. injection Hy as <-.
      split; auto. eapply nth_error_In; eauto.
    - intros [HI E]. apply In_nth_error in HI. destruct HI as [i Hi].
      pose proof (proj1 W _ _ Hi) as HP. rewrite E in HP. rewrite HP. exact Hi.
  Qed.

  Lemma abs_ext P D P' D' : Wf P D -> Wf P' D' -> (forall x, In x D <-> In x D') ->
    forall j, abs (mkHeap P D) j = abs (mkHeap P' D') j.
  Proof.
    intros W W' H j.
    assert (Hiff : forall x, abs (mkHeap P D) j = Some x <-> abs (mkHeap P' D') j = Some x).
    { intros x. rewrite (abs_In P D), (abs_In P' D') by auto. rewrite H. tauto. }
    destruct (abs (mkHeap P D) j) as [x|].
    - symmetry. apply Hiff; auto.
    - destruct (abs (mkHeap P' D') j) as [x|]; auto. apply (Hiff x); auto.
  Qed.

  Lemma swap_some {A} (l : list A) i j a b : nth_error l i = Some a -> nth_error l j = Some b ->
    swap_at l i j = Some (upd (upd l i b) j a).
  Proof. intros H1 H2. unfold swap_at. rewrite H1; simpl. rewrite H2; simpl. reflexivity. Qed.

  Lemma nth_error_swap {A} (l : list A) i j a b k : nth_error l i = Some a -> nth_error l j = Some b ->
    nth_error (upd (upd l i b) j a) k = if k =? j then Some a else if k =? i then Some b else nth_error l k.
  Proof.
    intros H1 H2. apply nth_error_Some_lt in H1. apply nth_error_Some_lt in H2.
    rewrite !nth_error_upd, upd_length.
    destruct (Nat.eqb_spec j k), (Nat.eqb_spec k j), (Nat.eqb_spec i k), (Nat.eqb_spec k i),
      (Nat.ltb_spec i (length l)), (Nat.ltb_spec j (length l)); simpl; auto; lia.
  Qed.

  Lemma swap_In (l : list T) i j a b x : nth_error l i = Some a -> nth_error l j = Some b ->
    (In x (upd (upd l i b) j a) <-> In x l).
  Proof.
    intros H1 H2. split; intros H.
    - apply In_upd in H. destruct H as [->|H]; [eapply nth_error_In; eauto|].
      apply In_upd in H. destruct H as [->|H]; [eapply nth_error_In; eauto|auto].
    - apply In_nth_error in H. destruct H as [k Hk].
      destruct (Nat.eqb_spec k i) as [->|Hi].
      + rewrite H1 in Hk; injection Hk as <-. apply nth_error_In with j. rewrite (nth_error_swap l i j a b) by auto.
        rewrite Nat.eqb_refl; auto.
      + destruct (Nat.eqb_spec k j) as [->|Hj].
        * rewrite H2 in Hk; injection Hk as <-. apply nth_error_In with i. rewrite (nth_error_swap l i j a b) by auto.
          destruct (Nat.eqb_spec i j); try lia. rewrite Nat.eqb_refl; auto.
        * apply nth_error_In with k. rewrite (nth_error_swap l i j a b) by auto.
          destruct (Nat.eqb_spec k i), (Nat.eqb_spec k j); try lia; auto.
  Qed.

  Lemma swap_Wf P D i j a b :
    Wf P D -> nth_error D i = Some a -> nth_error D j = Some b -> i <> j ->
    Wf (upd (upd P (idx a) (Some j)) (idx b) (Some i)) (upd (upd D i b) j a).
  Proof.
    intros W Ha Hb Hij.
    assert (Hab : idx a <> idx b). { intros E. apply Hij. eapply wf_inj; eauto. }
    pose proof (proj1 W _ _ Ha) as Pa. pose proof (proj1 W _ _ Hb) as Pb.
    assert (HP : forall k, nth_error (upd (upd P (idx a) (Some j)) (idx b) (Some i)) k =
       if k =? idx b then Some (Some i) else if k =? idx a then Some (Some j) else nth_error P k).
    { intros k. apply (nth_error_swap P (idx a) (idx b) (Some i) (Some j) k Pa Pb). }
    split.
    - intros k x. rewrite (nth_error_swap D i j a b) by auto. rewrite HP.
      destruct (Nat.eqb_spec k j) as [->|].
      { intros [= <-]. destruct (Nat.eqb_spec (idx a) (idx b)); try lia. rewrite Nat.eqb_refl; auto. }
      destruct (Nat.eqb_spec k i) as [->|].
      { intros [= <-]. rewrite Nat.eqb_refl; auto. }
      intros Hk. destruct (Nat.eqb_spec (idx x) (idx b)) as [E|].
      { exfalso. assert (k = j) by (eapply wf_inj; eauto). lia. }
      destruct (Nat.eqb_spec (idx x) (idx a)) as [E|].
      { exfalso. assert (k = i) by (eapply wf_inj; eauto). lia. }
      apply W; auto.
    - intros k m. rewrite HP. destruct (Nat.eqb_spec k (idx b)) as [->|].
      { intros [= <-]. exists b. split; auto. rewrite (nth_error_swap D i j a b) by auto.
        destruct (Nat.eqb_spec i j); try lia. rewrite Nat.eqb_refl; auto. }
      destruct (Nat.eqb_spec k (idx a)) as [->|].
      { intros [= <-]. exists a. split; auto. rewrite (nth_error_swap D i j a b) by auto. rewrite Nat.eqb_refl; auto. }
      intros Hk. apply W in Hk. destruct Hk as (x & Hx & E). exists x. split; auto.
      rewrite (nth_error_swap D i j a b) by auto.
      destruct (Nat.eqb_spec m j) as [->|]. { rewrite Hb in Hx. injection Hx as <-. lia. }
      destruct (Nat.eqb_spec m i) as [->|]. { rewrite Ha in Hx. injection Hx as <-. lia. }
      auto.
  Qed.

  Lemma move_up_spec fuel : forall P D pos,
    pos < fuel -> pos < length D -> Wf P D -> OrdUp D pos ->
    exists h', move_up T idx ltb fuel P D pos = Some h' /\ length (positions h') = length P /\
      Wf (positions h') (data h') /\ Ordered (data h') /\ (forall x, In x (data h') <-> In x D) /\ length (data h') = length D.
  Proof.
    induction fuel as [|fuel IH]; intros P D pos Hf Hpos W [O1 O2]; [lia|].
    cbn [move_up]. destruct (Nat.eqb_spec pos 0) as [->|Hp0].
    { eexists; split; [reflexivity|]. cbn [positions data]. repeat split; auto; try apply W.
      intros i x y Hi. apply O1; auto; lia. }
    change ARITY with 4 in *.
    set (parent := (pos - 1) / 4) in *.
    assert (Hpar : parent < pos) by (unfold parent; lia).
    destruct (nth_error_lt D parent) as [p Ep]; [lia|].
    destruct (nth_error_lt D pos) as [c Ec]; [lia|].
    rewrite Ep; cbn [bind]. rewrite Ec; cbn [bind].
    destruct (ltb p c) eqn:Elt.
    { eexists; split; [reflexivity|]. cbn [positions data]. repeat split; auto; try apply W.
      intros i x y Hi Hx Hy. destruct (Nat.eq_dec i pos) as [->|Hne].
      - fold parent in Hy. replace x with c in * by congruence. replace y with p in * by congruence. apply (ol_asym _ OL); auto.
      - apply (O1 i x y); auto. }
    rewrite (swap_some P (idx p) (idx c) (Some parent) (Some pos)) by (apply W; auto). cbn [bind].
    rewrite (swap_some D parent pos p c) by auto. cbn [bind].
    pose proof (swap_Wf P D parent pos p c W Ep Ec ltac:(lia)) as W'.
    assert (HL : parent < length (upd (upd D parent c) pos p)) by (rewrite !upd_length; lia).
    assert (Hfu : parent < fuel) by lia.
    destruct (IH _ _ parent Hfu HL W') as (h' & E & L & Wh & Oh & Ih & Lh).
    { split.
      - intros i x y Hne Hi. rewrite !(nth_error_swap D parent pos p c) by auto.
        destruct (Nat.eqb_spec i pos) as [->|Hip].
        + fold parent. intros [= <-]. destruct (Nat.eqb_spec parent pos); try lia. rewrite Nat.eqb_refl. intros [= <-]. auto.
        + destruct (Nat.eqb_spec i parent); try lia. intros Hx.
          destruct (Nat.eqb_spec ((i-1)/4) pos) as [Ei|]. { intros [= <-]. eapply O2; eauto. lia. }
          destruct (Nat.eqb_spec ((i-1)/4) parent) as [Ei|].
          { intros [= <-]. apply le_trans' with p; auto. eapply (O1 i _ _); [..|eassumption|]; auto. congruence. }
          intros Hy. apply (O1 i x y); auto.
      - intros i x y Hi Ei Hpp. rewrite !(nth_error_swap D parent pos p c) by auto.
        destruct (Nat.eqb_spec ((parent - 1) / 4) pos); try lia.
        destruct (Nat.eqb_spec ((parent - 1) / 4) parent); try lia.
        destruct (Nat.eqb_spec i pos) as [->|].
        + intros [= <-] Hy. eapply O1 with (i:=parent); eauto; lia.
        + destruct (Nat.eqb_spec i parent); try lia. intros Hx Hy.
          apply le_trans' with p. { eapply O1 with (i:=parent); eauto; lia. }
          eapply (O1 i _ _); [..|eassumption|]; auto. congruence. }
    exists h'. split; [exact E|]. rewrite L, Lh, !upd_length. repeat split; auto; try apply Wh.
    - intros H. apply Ih in H. rewrite (swap_In D parent pos p c) in H by auto; auto.
    - intros H. apply Ih. rewrite (swap_In D parent pos p c) by auto; auto.
  Qed.

  Lemma min_child_spec D count : forall i best,
    (count = 0 \/ i + count <= length D) -> (forall b, best = Some b -> b < length D) ->
    exists r, min_child T ltb D i count best = Some r /\
      match r with
      | None => best = None /\ count = 0
      | Some m => ((exists b, best = Some b /\ m = b) \/ (i <= m < i + count)) /\
          exists x, nth_error D m = Some x /\
          (forall b y, best = Some b -> nth_error D b = Some y -> le x y) /\
          (forall k y, i <= k < i + count -> nth_error D k = Some y -> le x y)
      end.
  Proof.
    induction count as [|count IH]; intros i best Hl Hb.
    - exists best. split; auto. destruct best as [b|]; auto.
      split. { left; eauto. }
      destruct (nth_error_lt D b) as [x Hx]; [apply Hb; auto|]. exists x. split; auto. split.
      + intros b' y [= <-] Hy. replace y with x by congruence. apply OL.
      + intros; lia.
    - cbn [min_child]. destruct (nth_error_lt D i) as [x Hx]; [lia|]. rewrite Hx; cbn [bind].
      destruct best as [b|].
      + destruct (nth_error_lt D b) as [y Hy]; [apply Hb; auto|]. rewrite Hy; cbn [bind].
        destruct (IH (S i) (Some (if ltb x y then i else b))) as (r & E & Hr); try lia.
        { intros b' [= <-]. destruct (ltb x y); [lia|apply Hb; auto]. }
        exists r. split; auto. destruct r as [m|]; [|destruct Hr; discriminate].
        destruct Hr as (Hm & z & Hz & H1 & H2). split.
        { destruct Hm as [(b' & [= <-] & ->)|]; [|right; lia]. destruct (ltb x y); [right; lia|left; eauto]. }
        exists z. split; auto. split.
        * intros b' y' [= <-] Hy'. replace y' with y by congruence.
          destruct (ltb x y) eqn:Exy.
          -- apply le_trans' with x; [eapply H1; eauto|]. apply OL; auto.
          -- eapply H1; eauto.
        * intros k y' Hk Hy'. destruct (Nat.eq_dec k i) as [->|]; [|eapply H2; eauto; lia].
          replace y' with x by congruence. destruct (ltb x y) eqn:Exy.
          -- eapply H1; eauto.
          -- apply le_trans' with y; [eapply H1; eauto|auto].
      + destruct (IH (S i) (Some i)) as (r & E & Hr); try lia. { intros b' [= <-]; lia. }
        exists r. split; auto. destruct r as [m|]; [|destruct Hr; discriminate].
        destruct Hr as (Hm & z & Hz & H1 & H2). split.
        { right. destruct Hm as [(b' & [= <-] & ->)|]; lia. }
        exists z. split; auto. split; [discriminate|].
        intros k y' Hk Hy'. destruct (Nat.eq_dec k i) as [->|]; [eapply H1; eauto|eapply H2; eauto; lia].
  Qed.

  (** The hole state (P, D, elt, pos) stands for the heap in which the hole is filled with [elt]. *)
  Lemma move_down_loop_spec fuel : forall P D elt pos,
    length D < fuel + pos -> pos < length D -> idx elt < length P ->
    Wf (upd P (idx elt) (Some pos)) (upd D pos elt) -> OrdDown (upd D pos elt) pos ->
    exists h', move_down_loop T idx ltb fuel P D elt pos = Some h' /\ length (positions h') = length P /\
      Wf (positions h') (data h') /\ Ordered (data h') /\
      (forall x, In x (data h') <-> In x (upd D pos elt)) /\ length (data h') = length D.
  Proof.
    induction fuel as [|fuel IH]; intros P D elt pos Hf Hpos Hidx W [O1 O2]; [lia|].
    cbn [move_down_loop].
    unfold first_child, children_end. change ARITY with 4.
    destruct (min_child_spec D (Nat.min (4 * pos + 4 + 1) (length D) - (4 * pos + 1)) (4 * pos + 1) None) as (r & E & Hr).
    { lia. }
    { discriminate. }
    rewrite E. cbn [bind].
    assert (Hself : nth_error (upd D pos elt) pos = Some elt) by (apply nth_error_upd_eq; auto).
    destruct r as [child|].
    - destruct Hr as ([(b & Hb & _)|Hm] & c & Hc & _ & Hmin); [discriminate|].
      rewrite Hc; cbn [bind].
      assert (Hcl : child < length D) by (eapply nth_error_Some_lt; eauto).
      assert (Hc' : nth_error (upd D pos elt) child = Some c) by (rewrite nth_error_upd_neq by lia; auto).
      destruct (ltb c elt) eqn:Ece; cbn [negb].
      + (* move hole *)
        assert (Hic : idx c <> idx elt).
        { intros Eq. assert (child = pos) by (eapply (wf_inj _ _ child pos c elt W); eauto). lia. }
        pose proof (proj1 W _ _ Hc') as HPc. rewrite nth_error_upd_neq in HPc by auto.
        assert (Hicl : idx c < length P) by (eapply nth_error_Some_lt; eauto).
        rewrite set_at_lt by auto. cbn [bind]. rewrite set_at_lt by auto. cbn [bind].
        assert (EP : upd (upd P (idx c) (Some pos)) (idx elt) (Some child) =
                     upd (upd (upd P (idx elt) (Some pos)) (idx elt) (Some child)) (idx c) (Some pos)).
        { rewrite upd_upd. rewrite upd_comm by auto. reflexivity. }
        assert (ED : upd (upd D pos c) child elt = upd (upd (upd D pos elt) pos c) child elt).
        { rewrite (upd_upd D). reflexivity. }
        pose proof (swap_Wf _ _ pos child elt c W Hself Hc' ltac:(lia)) as W'.
        rewrite <- EP, <- ED in W'.
        assert (Hsw : forall k, nth_error (upd (upd D pos c) child elt) k =
           if k =? child then Some elt else if k =? pos then Some c else nth_error (upd D pos elt) k).
        { intros k. rewrite ED. apply nth_error_swap; auto. }
        destruct (IH (upd P (idx c) (Some pos)) (upd D pos c) elt child) as (h' & Eh & L & Wh & Oh & Ih & Lh);
          rewrite ?upd_length; auto; try lia.
        { split.
          - intros i x y Hne Hi. rewrite !Hsw.
            destruct (Nat.eqb_spec i child) as [->|Hic'].
            + intros [= <-]. destruct (Nat.eqb_spec ((child - 1)/4) child); try lia.
              destruct (Nat.eqb_spec ((child - 1)/4) pos); try lia. intros [= <-]. apply OL; auto.
            + destruct (Nat.eqb_spec i pos) as [->|Hip].
              * intros [= <-]. destruct (Nat.eqb_spec ((pos - 1)/4) child); try lia.
                destruct (Nat.eqb_spec ((pos - 1)/4) pos); try lia. intros Hy.
                eapply O2 with (i:=child); eauto; lia.
              * intros Hx. destruct (Nat.eqb_spec ((i - 1)/4) child); try lia.
                destruct (Nat.eqb_spec ((i - 1)/4) pos) as [Ei|].
                -- intros [= <-]. rewrite nth_error_upd_neq in Hx by lia.
                   apply (Hmin i x); auto.
                   assert (i < length D) by (eapply nth_error_Some_lt; eauto). lia.
                -- intros Hy. apply (O1 i x y); auto.
          - intros i x y Hi Ei Hch. rewrite !Hsw.
            replace ((child - 1)/4) with pos by lia. destruct (Nat.eqb_spec pos child); try lia.
            rewrite Nat.eqb_refl. destruct (Nat.eqb_spec i child); try lia. destruct (Nat.eqb_spec i pos); try lia.
            intros Hx [= <-]. eapply (O1 i _ _); [..|eassumption|]; auto; try lia. rewrite Ei; auto. }
        exists h'. split; [exact Eh|]. rewrite !upd_length in *. repeat split; auto; try apply Wh.
        * intros H. apply Ih in H. rewrite ED in H. apply swap_In in H; auto.
        * intros H. apply Ih. rewrite ED. apply swap_In; auto.
      + rewrite set_at_lt by auto. cbn [bind]. rewrite set_at_lt by auto. cbn [bind].
        eexists; split; [reflexivity|]. cbn [positions data]. rewrite !upd_length. repeat split; auto; try apply W.
        intros i x y Hi Hx Hy. destruct (Nat.eq_dec ((i-1)/4) pos) as [Ei|]; [|apply (O1 i x y); auto].
        rewrite Ei, Hself in Hy. injection Hy as <-. rewrite nth_error_upd_neq in Hx by lia.
        apply le_trans' with c; auto. apply (Hmin i x); auto.
        assert (i < length D) by (eapply nth_error_Some_lt; eauto). lia.
    - destruct Hr as [_ Hr].
      rewrite set_at_lt by auto. cbn [bind]. rewrite set_at_lt by auto. cbn [bind].
      eexists; split; [reflexivity|]. cbn [positions data]. rewrite !upd_length. repeat split; auto; try apply W.
      intros i x y Hi Hx Hy. destruct (Nat.eq_dec ((i-1)/4) pos) as [Ei|]; [|apply (O1 i x y); auto].
      exfalso. assert (i < length (upd D pos elt)) by (eapply nth_error_Some_lt; eauto).
      rewrite upd_length in *. lia.
  Qed.

  (** ** Operations *)

  Lemma Inv_new n : Inv n (hnew n).
  Proof.
    constructor; cbn [hnew positions data].
    - apply repeat_length.
    - split.
      + intros i x H. destruct i; discriminate.
      + intros j i H. rewrite nth_error_repeat in H. destruct (j <? n); discriminate.
    - intros i x y _ H. destruct i; discriminate.
  Qed.

  Lemma abs_new n i : abs (hnew n) i = None.
  Proof. unfold abs, hnew; cbn [positions data]. rewrite nth_error_repeat. destruct (i <? n); auto. Qed.

  Lemma ext_put h (m : content T) x : (forall i, abs h i = m i) -> forall i, put T idx (abs h) x i = put T idx m x i.
  Proof. intros H i. unfold put. rewrite H; auto. Qed.

  (** pointwise equality of contents from an In characterisation *)
  Lemma content_eq (m1 m2 : content T) j : (forall x, m1 j = Some x <-> m2 j = Some x) -> m1 j = m2 j.
  Proof.
    intros H. destruct (m1 j) as [x|] eqn:E1.
    - symmetry; apply H; auto.
    - destruct (m2 j) as [x|] eqn:E2; auto. apply H; auto.
  Qed.

  Lemma abs_none_not_in P D j : Wf P D -> abs (mkHeap P D) j = None -> forall x, In x D -> idx x <> j.
  Proof. intros W H x HI E. assert (abs (mkHeap P D) j = Some x) by (apply abs_In; auto). congruence. Qed.

  Lemma heap_eta (h : heap T) : mkHeap (positions h) (data h) = h.
  Proof. destruct h; auto. Qed.

  Lemma abs_In' h j x : Wf (positions h) (data h) -> (abs h j = Some x <-> In x (data h) /\ idx x = j).
  Proof. intros W. rewrite <- (abs_In (positions h) (data h)) by auto. rewrite heap_eta. tauto. Qed.

  Lemma hcontains_abs n h i : Inv n h -> i < n ->
    hcontains h i = Some (match abs h i with Some _ => true | None => false end).
  Proof.
    intros [L W O] Hi. unfold hcontains, abs.
    destruct (nth_error_lt (positions h) i) as [p Hp]; [lia|]. rewrite Hp. cbn [bind].
    destruct p as [k|]; auto. apply W in Hp. destruct Hp as (x & Hx & _). rewrite Hx; auto.
  Qed.

  Lemma hpush_spec n h x : Inv n h -> idx x < n -> abs h (idx x) = None ->
    exists h', hpush T idx ltb h x = Some h' /\ Inv n h' /\ forall i, abs h' i = put T idx (abs h) x i.
  Proof.
    intros I Hx Habs. unfold hpush. rewrite (hcontains_abs n) by auto. rewrite Habs. cbn [bind negb guard].
    destruct I as [L W O]. unfold hlen.
    rewrite set_at_lt by lia. cbn [bind].
    assert (HN : forall y, In y (data h) -> idx y <> idx x).
    { apply (abs_none_not_in (positions h) (data h)); auto. }
    set (P := upd (positions h) (idx x) (Some (length (data h)))). set (D := data h ++ [x]).
    assert (HD : forall i, nth_error D i = if i =? length (data h) then Some x else nth_error (data h) i).
    { intros i. unfold D. destruct (Nat.eqb_spec i (length (data h))) as [->|].
      - rewrite nth_error_app2 by lia. rewrite Nat.sub_diag; auto.
      - destruct (Nat.lt_ge_cases i (length (data h))).
        + apply nth_error_app1; auto.
        + rewrite nth_error_app2 by lia. rewrite (proj2 (nth_error_None (data h) i)) by lia.
          destruct (i - length (data h)) as [|k] eqn:E; try lia. destruct k; auto. }
    assert (W' : Wf P D).
    { split.
      - intros i y. rewrite HD. unfold P. destruct (Nat.eqb_spec i (length (data h))) as [->|].
        + intros [= <-]. apply nth_error_upd_eq. lia.
        + intros Hy. rewrite nth_error_upd_neq. { apply W; auto. }
          apply not_eq_sym, HN. eapply nth_error_In; eauto.
      - intros j i. unfold P. rewrite nth_error_upd. destruct (Nat.eqb_spec (idx x) j) as [<-|]; cbn [andb].
        + destruct (Nat.ltb_spec (idx x) (length (positions h))); try lia. intros [= <-]. exists x. rewrite HD, Nat.eqb_refl; auto.
        + intros H. apply W in H. destruct H as (y & Hy & E). exists y. split; auto. rewrite HD.
          apply nth_error_Some_lt in Hy as Hlt. destruct (Nat.eqb_spec i (length (data h))); try lia; auto. }
    destruct (move_up_spec (S (length (data h))) P D (length (data h))) as (h' & E & L' & Wh & Oh & Ih & Lh).
    - lia.
    - unfold D. rewrite app_length; simpl; lia.
    - exact W'.
    - split.
      + intros i y z Hne Hi. rewrite !HD. destruct (Nat.eqb_spec i (length (data h))); try lia. intros Hy.
        apply nth_error_Some_lt in Hy as Hlt.
        destruct (Nat.eqb_spec ((i-1)/4) (length (data h))); try lia. intros Hz. apply (O i y z); auto.
      + intros i y z Hi Ei Hpos Hy. apply nth_error_Some_lt in Hy. unfold D in Hy. rewrite app_length in Hy; simpl in Hy. lia.
    - exists h'. split; [exact E|]. split.
      + constructor; auto. rewrite L'. unfold P. rewrite upd_length; auto.
      + intros j. apply content_eq. intros y. rewrite abs_In' by auto. rewrite Ih.
        unfold D, put. rewrite in_app_iff; simpl. destruct (Nat.eqb_spec j (idx x)) as [->|].
        * split; [intros [[Hy|[->|[]]] Ey]; auto; exfalso; apply (HN y); auto | intros [= ->]; auto].
        * rewrite abs_In' by auto. split; [intros [[Hy|[->|[]]] Ey]; auto; congruence | tauto].
  Qed.

  (** replacing the element at its position *)
  Lemma replace_Wf h x y pos : Wf (positions h) (data h) ->
    nth_error (data h) pos = Some y -> idx x = idx y -> Wf (positions h) (upd (data h) pos x).
  Proof.
    intros W Hy E. apply nth_error_Some_lt in Hy as Hlt. split.
    - intros i z. rewrite nth_error_upd. destruct (Nat.eqb_spec pos i) as [->|]; cbn [andb].
      + destruct (Nat.ltb_spec i (length (data h))); try lia. intros [= <-]. rewrite E. apply W; auto.
      + apply W.
    - intros j i H. apply W in H as H'. destruct H' as (z & Hz & Ez). rewrite nth_error_upd.
      destruct (Nat.eqb_spec pos i) as [->|]; cbn [andb]; eauto.
      destruct (Nat.ltb_spec i (length (data h))); try lia. exists x. split; auto. congruence.
  Qed.

  Lemma replace_abs h h' x y pos : Wf (positions h) (data h) -> Wf (positions h') (data h') ->
    nth_error (data h) pos = Some y -> idx x = idx y ->
    (forall z, In z (data h') <-> In z (upd (data h) pos x)) ->
    forall i, abs h' i = put T idx (abs h) x i.
  Proof.
    intros W W' Hy E HI j. apply nth_error_Some_lt in Hy as Hlt. apply content_eq. intros z.
    rewrite abs_In' by auto. rewrite HI. unfold put. destruct (Nat.eqb_spec j (idx x)) as [->|Hj].
    - split.
      + intros [Hz Ez]. f_equal.
        apply In_nth_error in Hz. destruct Hz as [k Hk]. rewrite nth_error_upd in Hk.
        destruct (Nat.eqb_spec pos k) as [->|]; cbn [andb] in Hk.
        * destruct (Nat.ltb_spec k (length (data h))); try lia. congruence.
        * exfalso. assert (k = pos); [|lia]. apply (wf_inj (positions h) (data h) k pos z y); auto. congruence.
      + intros [= ->]. split; auto. apply nth_error_In with pos. apply nth_error_upd_eq; auto.
    - rewrite abs_In' by auto. split; intros [Hz Ez]; split; auto.
      + apply In_upd in Hz. destruct Hz as [->|]; auto. congruence.
      + apply In_nth_error in Hz. destruct Hz as [k Hk]. apply nth_error_In with k.
        rewrite nth_error_upd_neq; auto. intros ->. rewrite Hy in Hk. congruence.
  Qed.

  Lemma abs_pos h j y : Wf (positions h) (data h) -> abs h j = Some y ->
    exists pos, nth_error (positions h) j = Some (Some pos) /\ nth_error (data h) pos = Some y /\ idx y = j.
  Proof.
    intros W H. apply abs_In' in H as H1; auto. destruct H1 as [_ E]. unfold abs in H.
    destruct (nth_error (positions h) j) as [[pos|]|]; try discriminate. eauto.
  Qed.

  Lemma hdecrease_spec n h x y : Inv n h -> abs h (idx x) = Some y -> le x y ->
    exists h', hdecrease T idx ltb h x = Some h' /\ Inv n h' /\ forall i, abs h' i = put T idx (abs h) x i.
  Proof.
    intros [L W O] Hy Hle. destruct (abs_pos h (idx x) y W Hy) as (pos & Hp & Hd & E).
    unfold hdecrease. rewrite Hp. cbn [bind]. apply nth_error_Some_lt in Hd as Hlt.
    rewrite set_at_lt by auto. cbn [bind].
    pose proof (replace_Wf h x y pos W Hd ltac:(auto)) as W'.
    destruct (move_up_spec (S pos) (positions h) (upd (data h) pos x) pos) as (h' & Eh & L' & Wh & Oh & Ih & Lh); auto.
    - rewrite upd_length; auto.
    - split.
      + intros i a b Hne Hi. rewrite nth_error_upd_neq by auto. intros Ha. rewrite nth_error_upd.
        destruct (Nat.eqb_spec pos ((i-1)/4)) as [Ep|]; cbn [andb].
        * destruct (Nat.ltb_spec pos (length (data h))); try lia. intros [= <-].
          apply le_trans' with y; auto. apply (O i a y); auto. rewrite <- Ep; auto.
        * intros Hb. apply (O i a b); auto.
      + intros i a b Hi Ep Hpos. rewrite !nth_error_upd_neq by lia. intros Ha Hb.
        apply le_trans' with y. { apply (O pos y b); auto. } apply (O i a y); auto. rewrite Ep; auto.
    - exists h'. split; [exact Eh|]. split; [constructor; auto; congruence|].
      eapply replace_abs; eauto.
  Qed.

  Lemma move_down_spec P D pos : pos < length D -> Wf P D -> OrdDown D pos ->
    exists h', move_down T idx ltb P D pos = Some h' /\ length (positions h') = length P /\
      Wf (positions h') (data h') /\ Ordered (data h') /\ (forall x, In x (data h') <-> In x D) /\ length (data h') = length D.
  Proof.
    intros Hpos W O. unfold move_down. destruct (nth_error_lt D pos Hpos) as [e He]. rewrite He; cbn [bind].
    pose proof (proj1 W _ _ He) as HP.
    assert (E1 : upd P (idx e) (Some pos) = P) by (apply upd_same; auto).
    assert (E2 : upd D pos e = D) by (apply upd_same; auto).
    pose proof (move_down_loop_spec (S (length D)) P D e pos) as H.
    rewrite E1, E2 in H. apply H; auto; try lia. eapply nth_error_Some_lt; eauto.
  Qed.

  Lemma hincrease_spec n h x y : Inv n h -> abs h (idx x) = Some y -> le y x ->
    exists h', hincrease T idx ltb h x = Some h' /\ Inv n h' /\ forall i, abs h' i = put T idx (abs h) x i.
  Proof.
    intros [L W O] Hy Hle. destruct (abs_pos h (idx x) y W Hy) as (pos & Hp & Hd & E).
    unfold hincrease. rewrite Hp. cbn [bind]. apply nth_error_Some_lt in Hd as Hlt.
    rewrite set_at_lt by auto. cbn [bind].
    pose proof (replace_Wf h x y pos W Hd ltac:(auto)) as W'.
    destruct (move_down_spec (positions h) (upd (data h) pos x) pos) as (h' & Eh & L' & Wh & Oh & Ih & Lh); auto.
    - rewrite upd_length; auto.
    - split.
      + intros i a b Hne Hi. rewrite (nth_error_upd_neq _ _ ((i-1)/4)) by auto. rewrite nth_error_upd.
        destruct (Nat.eqb_spec pos i) as [->|]; cbn [andb].
        * destruct (Nat.ltb_spec i (length (data h))); try lia. intros [= <-] Hb.
          apply le_trans' with y; auto. apply (O i y b); auto.
        * intros Ha Hb. apply (O i a b); auto.
      + intros i a b Hi Ep Hpos. rewrite !nth_error_upd_neq by lia. intros Ha Hb.
        apply le_trans' with y. { apply (O pos y b); auto. } apply (O i a y); auto. rewrite Ep; auto.
    - exists h'. split; [exact Eh|]. split; [constructor; auto; congruence|].
      eapply replace_abs; eauto.
  Qed.

  Lemma root_min D : Ordered D -> forall i r x, nth_error D 0 = Some r -> nth_error D i = Some x -> le r x.
  Proof.
    intros O i. induction i as [i IH] using lt_wf_ind. intros r x Hr Hx.
    destruct (Nat.eq_dec i 0) as [->|Hi]. { replace x with r by congruence. apply OL. }
    apply nth_error_Some_lt in Hx as Hlt.
    destruct (nth_error_lt D ((i-1)/4)) as [y Hy]; [lia|].
    apply le_trans' with y. { apply (IH ((i-1)/4)); auto; lia. } apply (O i x y); auto; lia.
  Qed.

  Lemma nth_error_removelast {A} (l : list A) i : i < length l - 1 -> nth_error (removelast l) i = nth_error l i.
  Proof.
    revert i; induction l as [|a [|b l] IH]; intros i Hi; try (simpl in Hi; lia).
    destruct i; auto. change (removelast (a :: b :: l)) with (a :: removelast (b :: l)).
    cbn [nth_error]. apply IH. simpl in *; lia.
  Qed.

  Lemma length_removelast {A} (l : list A) : length (removelast l) = length l - 1.
  Proof. induction l as [|a [|b l] IH]; auto. change (removelast (a :: b :: l)) with (a :: removelast (b :: l)). cbn [length] in *. lia. Qed.

  Lemma hpop_empty n h : Inv n h -> (forall i, abs h i = None) -> hpop T idx ltb h = Some (h, None).
  Proof.
    intros [L W O] H. unfold hpop. destruct (data h) as [|x l] eqn:E; auto.
    exfalso. rewrite <- E in W. assert (abs h (idx x) = Some x). { apply abs_In'; auto. rewrite E; simpl; auto. } congruence.
  Qed.

  Lemma hpop_spec n h : Inv n h ->
    (hpop T idx ltb h = Some (h, None) /\ data h = []) \/
    exists h' x, hpop T idx ltb h = Some (h', Some x) /\ Inv n h' /\ is_min T idx ltb (abs h) x /\
      forall i, abs h' i = del T (abs h) (idx x) i.
  Proof.
    intros [L W O]. unfold hpop, hlen. destruct (data h) as [|r0 l0] eqn:ED; [left; auto|right].
    rewrite <- ED in *. assert (Hlen : length (data h) = S (length l0)) by (rewrite ED; auto). clear ED.
    set (D := data h) in *. set (k := length D - 1).
    destruct (nth_error_lt D k) as [item Hitem]; [unfold k; lia|]. rewrite Hitem. cbn [bind].
    pose proof (proj1 W _ _ Hitem) as Pitem. apply nth_error_Some_lt in Pitem as Hil.
    rewrite set_at_lt by auto. cbn [bind].
    assert (HR : forall i, nth_error (removelast D) i = if i <? k then nth_error D i else None).
    { intros i. destruct (Nat.ltb_spec i k). - apply nth_error_removelast; auto.
      - apply nth_error_None. rewrite length_removelast. unfold k in *; lia. }
    assert (LR : length (removelast D) = k) by apply length_removelast.
    destruct (removelast D) as [|root D1] eqn:ER.
    - (* single element *)
      simpl in LR. assert (Hk : k = 0) by lia. rewrite Hk in Hitem.
      exists (mkHeap (upd (positions h) (idx item) None) []), item. split; [reflexivity|].
      assert (HD1 : forall i y, nth_error D i = Some y -> y = item).
      { intros i y Hy. apply nth_error_Some_lt in Hy as Hlt. assert (i = 0) by (unfold k in *; lia). subst i. congruence. }
      split; [|split].
      + constructor; cbn [positions data].
        * rewrite upd_length; auto.
        * split. { intros i x Hx. destruct i; discriminate. }
          intros j i. rewrite nth_error_upd. destruct (Nat.eqb_spec (idx item) j) as [<-|]; cbn [andb].
          { destruct (Nat.ltb_spec (idx item) (length (positions h))); try lia. discriminate. }
          intros Hj. apply W in Hj. destruct Hj as (x & Hx & Ex). apply HD1 in Hx. congruence.
        * intros i x y _ Hx. destruct i; discriminate.
      + split.
        * apply abs_In'; auto. split; auto. eapply nth_error_In; eauto.
        * intros i y Hy. apply abs_In' in Hy; auto. destruct Hy as [Hy _]. apply In_nth_error in Hy. destruct Hy as [j Hj].
          apply HD1 in Hj. subst y. apply OL.
      + intros j. unfold abs at 1. cbn [positions data]. unfold del.
        destruct (Nat.eqb_spec j (idx item)) as [->|].
        * rewrite nth_error_upd_eq by auto. auto.
        * rewrite nth_error_upd_neq by auto.
          destruct (nth_error (positions h) j) as [[i|]|] eqn:Ej.
          -- apply W in Ej. destruct Ej as (x & Hx & Ex). apply HD1 in Hx. congruence.
          -- unfold abs. rewrite Ej; auto.
          -- unfold abs. rewrite Ej; auto.
    - simpl in LR.
      assert (Hroot : nth_error D 0 = Some root). { specialize (HR 0). destruct (Nat.ltb_spec 0 k); try lia. rewrite <- HR; reflexivity. } assert (H : 0 < k) by lia.
      pose proof (proj1 W _ _ Hroot) as Proot. apply nth_error_Some_lt in Proot as Hrl.
      assert (Hne : idx item <> idx root). { intros E. assert (k = 0) by (eapply (wf_inj _ D k 0); eauto). lia. }
      rewrite set_at_lt by (rewrite upd_length; auto). cbn [bind].
      rewrite set_at_lt by (rewrite !upd_length; auto). cbn [bind].
      rewrite set_at_lt by (cbn [length]; lia). cbn [bind].
      rewrite upd_upd.
      set (P2 := upd (upd (positions h) (idx item) (Some 0)) (idx root) None).
      rewrite <- ER in *. set (D' := upd (removelast D) 0 item).
      assert (HD' : forall i, nth_error D' i = if i =? 0 then Some item else if i <? k then nth_error D i else None).
      { intros i. unfold D'. rewrite nth_error_upd, HR. rewrite ER. cbn [length]. destruct (Nat.eqb_spec 0 i), (Nat.eqb_spec i 0); try lia; auto. }
      assert (HP2 : forall j, nth_error P2 j = if j =? idx root then Some None else if j =? idx item then Some (Some 0) else nth_error (positions h) j).
      { intros j. unfold P2. rewrite !nth_error_upd, upd_length.
        destruct (Nat.eqb_spec (idx root) j), (Nat.eqb_spec j (idx root)), (Nat.eqb_spec (idx item) j), (Nat.eqb_spec j (idx item)),
          (Nat.ltb_spec (idx root) (length (positions h))), (Nat.ltb_spec (idx item) (length (positions h))); cbn [andb]; try lia; auto. }
      assert (W' : Wf P2 D').
      { split.
        - intros i x. rewrite HD', HP2. destruct (Nat.eqb_spec i 0) as [->|].
          + intros [= <-]. destruct (Nat.eqb_spec (idx item) (idx root)); try lia. rewrite Nat.eqb_refl; auto.
          + destruct (Nat.ltb_spec i k); [|discriminate]. intros Hx.
            destruct (Nat.eqb_spec (idx x) (idx root)). { exfalso. assert (i = 0) by (eapply (wf_inj _ D i 0); eauto). lia. }
            destruct (Nat.eqb_spec (idx x) (idx item)). { exfalso. assert (i = k) by (eapply (wf_inj _ D i k); eauto). lia. }
            apply W; auto.
        - intros j i. rewrite HP2. destruct (Nat.eqb_spec j (idx root)); [discriminate|].
          destruct (Nat.eqb_spec j (idx item)) as [->|]. { intros [= <-]. exists item. rewrite HD'. auto. }
          intros Hj. apply W in Hj. destruct Hj as (x & Hx & Ex). exists x. split; auto. rewrite HD'.
          fold D in Hx. apply nth_error_Some_lt in Hx as Hlt.
          destruct (Nat.eqb_spec i 0) as [->|]. { congruence. }
          destruct (Nat.ltb_spec i k); auto. assert (i = k) by (unfold k in *; lia). subst i. congruence. }
      destruct (move_down_spec P2 D' 0) as (h' & Eh & L' & Wh & Oh & Ih & Lh); auto.
      + unfold D'. rewrite upd_length, ER. cbn [length]. lia.
      + split.
        * intros i x y Hpi Hi. rewrite !HD'. destruct (Nat.eqb_spec i 0); try lia. destruct (Nat.ltb_spec i k); [|discriminate].
          destruct (Nat.eqb_spec ((i-1)/4) 0); try lia. destruct (Nat.ltb_spec ((i-1)/4) k); try lia.
          intros Hx Hy. apply (O i x y); auto.
        * intros; lia.
      + rewrite Eh. cbn [bind]. exists h', root. split; [reflexivity|]. split; [|split].
        * constructor; auto. rewrite L'. unfold P2. rewrite !upd_length. auto.
        * split. { apply abs_In'; auto. split; auto. eapply nth_error_In; eauto. }
          intros i y Hy. apply abs_In' in Hy; auto. destruct Hy as [Hy _]. apply In_nth_error in Hy. destruct Hy as [j Hj].
          eapply (root_min D); eauto.
        * intros j. apply content_eq. intros x. rewrite abs_In' by auto. rewrite Ih. unfold del.
          destruct (Nat.eqb_spec j (idx root)) as [->|Hj].
          -- split; [|discriminate]. intros [Hx Ex]. exfalso. apply In_nth_error in Hx. destruct Hx as [i Hi].
             apply (proj1 W') in Hi. rewrite Ex, HP2, Nat.eqb_refl in Hi. discriminate.
          -- rewrite abs_In' by auto. fold D. split; intros [Hx Ex]; split; auto.
             ++ apply In_nth_error in Hx. destruct Hx as [i Hi]. rewrite HD' in Hi.
                destruct (Nat.eqb_spec i 0). { injection Hi as <-. eapply nth_error_In; eauto. }
                destruct (Nat.ltb_spec i k); [|discriminate]. eapply nth_error_In; eauto.
             ++ apply In_nth_error in Hx. destruct Hx as [i Hi]. apply nth_error_Some_lt in Hi as Hlt.
                destruct (Nat.eq_dec i k) as [->|].
                { apply nth_error_In with 0. rewrite HD'. cbn. congruence. }
                destruct (Nat.eq_dec i 0) as [->|]. { exfalso; apply Hj. congruence. }
                apply nth_error_In with i. rewrite HD'. destruct (Nat.eqb_spec i 0); try lia.
                destruct (Nat.ltb_spec i k); auto. unfold k in *; lia.
  Qed.

  Lemma invalidate_spec D : forall P, (forall x, In x D -> idx x < length P) ->
    exists P', invalidate T idx P D = Some P' /\ length P' = length P /\
      forall j, nth_error P' j = if existsb (fun x => idx x =? j) D then (if j <? length P then Some None else None) else nth_error P j.
  Proof.
    induction D as [|x D IH]; intros P H; cbn [invalidate existsb].
    - exists P. auto.
    - rewrite set_at_lt by (apply H; simpl; auto). cbn [bind].
      destruct (IH (upd P (idx x) None)) as (P' & E & L & HP). { intros y Hy. rewrite upd_length. apply H; simpl; auto. }
      exists P'. split; auto. rewrite upd_length in L. split; auto. intros j. rewrite HP, upd_length, nth_error_upd.
      destruct (existsb _ D). { rewrite orb_true_r. auto. } rewrite orb_false_r.
      destruct (Nat.eqb_spec (idx x) j) as [<-|]; cbn [andb]; auto.
      destruct (Nat.ltb_spec (idx x) (length P)); auto. exfalso. specialize (H x ltac:(simpl; auto)). lia.
  Qed.

  Lemma hclear_spec n h : Inv n h ->
    exists P', invalidate T idx (positions h) (data h) = Some P' /\ Inv n (mkHeap P' []) /\ forall i, abs (mkHeap P' []) i = None.
  Proof.
    intros [L W O].
    destruct (invalidate_spec (data h) (positions h)) as (P' & E & L' & HP).
    { intros x Hx. apply In_nth_error in Hx. destruct Hx as [i Hi]. apply W in Hi. eapply nth_error_Some_lt; eauto. }
    exists P'. split; auto.
    assert (HN : forall j i, nth_error P' j <> Some (Some i)).
    { intros j i. rewrite HP. destruct (existsb _ _) eqn:Eb.
      - destruct (j <? length (positions h)); discriminate.
      - intros Hj. apply W in Hj. destruct Hj as (x & Hx & Ex).
        assert (Et : existsb (fun x => idx x =? j) (data h) = true).
        { apply existsb_exists. exists x. split. { eapply nth_error_In; eauto. } apply Nat.eqb_eq; auto. }
        congruence. }
    split.
    - constructor; cbn [positions data]; [congruence| |].
      + split. { intros i x Hx; destruct i; discriminate. } intros j i Hj. exfalso; eapply HN; eauto.
      + intros i x y _ Hx; destruct i; discriminate.
    - intros j. unfold abs; cbn [positions data]. destruct (nth_error P' j) as [[i|]|] eqn:Ej; auto. exfalso; eapply HN; eauto.
  Qed.

  Lemma data_enumerates n h : Inv n h -> enumerates T idx (abs h) (data h).
  Proof.
    intros [L W O]. split.
    - apply NoDup_nth_error. intros i j Hi Hij. rewrite map_length in Hi.
      rewrite !nth_error_map in Hij. destruct (nth_error_lt (data h) i Hi) as [x Hx]. rewrite Hx in Hij. cbn in Hij.
      destruct (nth_error (data h) j) as [y|] eqn:Hy; cbn in Hij; [|discriminate]. eapply wf_inj; eauto. congruence.
    - intros i x. apply abs_In'; auto.
  Qed.

  Lemma enumerates_ext (m m' : content T) l : (forall i, m i = m' i) -> enumerates T idx m l -> enumerates T idx m' l.
  Proof. intros H [H1 H2]. split; auto. intros i x. rewrite <- H. auto. Qed.

  Lemma step_ok n h m op : Inv n h -> (forall i, abs h i = m i) -> legal T idx ltb n m op ->
    exists h' o m', hstep T idx ltb h op = Some (h', o) /\ pq_step T idx ltb m op o m' /\ Inv n h' /\ (forall i, abs h' i = m' i).
  Proof.
    intros I A Hl. destruct op; cbn [legal hstep] in *.
    - destruct Hl as [H1 H2]. destruct (hpush_spec n h x I H1) as (h' & E & I' & A'). { rewrite A; auto. }
      rewrite E; cbn [bind]. exists h', OUnit, (abs h'). repeat split; auto; try apply I'.
      intros i. rewrite A'. apply ext_put; auto.
    - unfold hpush_unless. rewrite (hcontains_abs n) by auto. rewrite A. cbn [bind].
      destruct (m (idx x)) as [y|] eqn:Em; cbn [negb].
      + cbn [bind]. exists h, OUnit, m. cbn [pq_step]. rewrite Em. repeat split; auto; try apply I.
      + destruct (hpush_spec n h x I Hl) as (h' & E & I' & A'). { rewrite A; auto. }
        rewrite E; cbn [bind]. exists h', OUnit, (abs h'). cbn [pq_step]. rewrite Em. repeat split; auto; try apply I'.
        intros i. rewrite A'. apply ext_put; auto.
    - destruct (hpop_spec n h I) as [[E Ed]|(h' & x & E & I' & M & A')]; rewrite E; cbn [bind].
      + assert (Hm : forall i, m i = None).
        { intros i. rewrite <- A. destruct (abs h i) as [x|] eqn:Ex; auto. apply abs_In' in Ex; [|apply I]. rewrite Ed in Ex. destruct Ex as [[] _]. }
        exists h, (OElem None), m. cbn [pq_step]. repeat split; auto; try apply I.
      + exists h', (OElem (Some x)), (abs h'). cbn [pq_step]. split; [reflexivity|]. split; [|split; auto].
        right. exists x. split; auto. split.
        * destruct M as [M1 M2]. split. { rewrite <- A; auto. } intros i y Hy. eapply M2. rewrite A; eauto.
        * intros i. rewrite A'. unfold del. rewrite A. auto.
    - exists h, (OElem (hpeek h)), m. split; [reflexivity|]. split; [|split; auto]. cbn [pq_step]. split; auto.
      unfold hpeek. destruct (nth_error (data h) 0) as [r|] eqn:Er.
      + right. exists r. split; auto. pose proof (inv_wf _ _ I) as W. split.
        * rewrite <- A. apply abs_In'; auto. split; auto. eapply nth_error_In; eauto.
        * intros i y Hy. rewrite <- A in Hy. apply abs_In' in Hy; auto. destruct Hy as [Hy _]. apply In_nth_error in Hy. destruct Hy as [j Hj].
          eapply (root_min (data h)); eauto. apply I.
      + left. split; auto. intros i. rewrite <- A. destruct (abs h i) as [x|] eqn:Ex; auto. apply abs_In' in Ex; [|apply I].
        destruct (data h); [destruct Ex as [[] _]|discriminate].
    - destruct Hl as [y Hy]. pose proof Hy as Hy'. rewrite <- A in Hy'.
      destruct (abs_pos h (idx x) y (inv_wf _ _ I) Hy') as (pos & Hp & Hd & Ei).
      unfold hupdate. rewrite Hp; cbn [bind]. rewrite Hd; cbn [bind].
      destruct (ltb x y) eqn:E1.
      + destruct (hdecrease_spec n h x y I Hy') as (h' & E & I' & A'). { apply OL; auto. }
        rewrite E; cbn [bind]. exists h', OUnit, (abs h'). cbn [pq_step]. repeat split; auto; try apply I'.
        exists y. split; auto. rewrite E1; cbn [orb]. intros i. rewrite A'. apply ext_put; auto.
      + destruct (ltb y x) eqn:E2.
        * destruct (hincrease_spec n h x y I Hy') as (h' & E & I' & A'). { auto. }
          rewrite E; cbn [bind]. exists h', OUnit, (abs h'). cbn [pq_step]. repeat split; auto; try apply I'.
          exists y. split; auto. rewrite E1, E2; cbn [orb]. intros i. rewrite A'. apply ext_put; auto.
        * cbn [bind]. exists h, OUnit, m. cbn [pq_step]. repeat split; auto; try apply I.
          exists y. split; auto. rewrite E1, E2; cbn [orb]. auto.
    - destruct Hl as (y & Hy & Hle). pose proof Hy as Hy'. rewrite <- A in Hy'.
      destruct (hdecrease_spec n h x y I Hy' Hle) as (h' & E & I' & A').
      rewrite E; cbn [bind]. exists h', OUnit, (abs h'). cbn [pq_step]. repeat split; auto; try apply I'.
      intros i. rewrite A'. apply ext_put; auto.
    - destruct Hl as (y & Hy & Hle). pose proof Hy as Hy'. rewrite <- A in Hy'.
      destruct (hincrease_spec n h x y I Hy' Hle) as (h' & E & I' & A').
      rewrite E; cbn [bind]. exists h', OUnit, (abs h'). cbn [pq_step]. repeat split; auto; try apply I'.
      intros i. rewrite A'. apply ext_put; auto.
    - destruct (hclear_spec n h I) as (P' & E & I' & A'). unfold hclear. rewrite E; cbn [bind].
      exists (mkHeap P' []), OUnit, (empty T). cbn [pq_step]. split; [reflexivity|]. repeat split; auto; try apply I'.
    - destruct (hclear_spec n h I) as (P' & E & I' & A'). unfold hdrain. rewrite E; cbn [bind].
      exists (mkHeap P' []), (OList (data h)), (empty T). cbn [pq_step]. split; [reflexivity|]. split; [|split; auto].
      split; auto. exists (data h). split; auto. eapply enumerates_ext; eauto. eapply data_enumerates; eauto.
    - rewrite (hcontains_abs n) by auto. cbn [bind]. rewrite A.
      eexists h, _, m. split; [reflexivity|]. cbn [pq_step]. repeat split; auto; try apply I.
    - unfold hget. destruct (nth_error_lt (positions h) i) as [p Hp]. { rewrite (inv_len _ _ I); auto. } rewrite Hp; cbn [bind].
      exists h, (OElem (m i)), m. cbn [pq_step]. split; [|repeat split; auto; try apply I]. rewrite <- A. unfold abs. rewrite Hp. reflexivity.
    - exists h, (ONat (hlen h)), m. cbn [pq_step]. split; [reflexivity|]. split; [|split; auto]. split; auto.
      exists (data h). split; auto. eapply enumerates_ext; eauto. eapply data_enumerates; eauto.
  Qed.

  Lemma conforms_ok n ops : forall h m, Inv n h -> (forall i, abs h i = m i) ->
    conforms T idx ltb (hstep T idx ltb) n m h ops.
  Proof.
    induction ops as [|op ops IH]; intros h m I A; cbn [conforms]; auto.
    intros Hl. destruct (step_ok n h m op I A Hl) as (h' & o & m' & E & S & I' & A').
    exists h', o, m'. repeat split; auto.
  Qed.

  Lemma heap_conforms n ops : conforms T idx ltb (hstep T idx ltb) n (empty T) (hnew n) ops.
  Proof. apply conforms_ok. - apply Inv_new. - intros i. apply abs_new. Qed.
End Proof.
