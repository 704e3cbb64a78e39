(** The tree search reports every minimal subpath that is not (almost) shortest. *)
From Coq Require Import Sorting.Sorted.
From Verif Require Import Base SpecGraph BitVec LoopProof GraphProof PLF SpecUBS UBS UBSScanProof.

Lemma is_dist_flip arc u v d : is_dist (flip_arc arc) u v d <-> is_dist arc v u d.
Proof.
  unfold is_dist. split; intros [A B]; split.
  - apply walk_flip in A. exact A.
  - intros l W. apply B. apply walk_flip. auto.
  - apply walk_flip. auto.
  - intros l W. apply B. apply walk_flip in W. exact W.
Qed.
Lemma is_dist_det arc u v d d' : is_dist arc u v d -> is_dist arc u v d' -> d = d'.
Proof. intros [A B] [A' B']. specialize (B _ A'). specialize (B' _ A). lia. Qed.

Lemma find_seq_first (f : nat -> bool) k : forall a b, f b = true -> a <= b < a + k -> exists i, find f (seq a k) = Some i /\ a <= i <= b /\ f i = true.
Proof.
  induction k as [|k IH]; intros a b Hb Hr; [lia|]. cbn [seq find]. destruct (f a) eqn:Ea. { exists a. split; auto. split; [lia|auto]. }
  destruct (Nat.eq_dec a b) as [->|]; [congruence|]. destruct (IH (S a) b Hb ltac:(lia)) as (i & E & Hi & Hf). exists i. split; auto. split; [lia|auto].
Qed.
Lemma find_rev_seq_last (f : nat -> bool) k : forall a b, f b = true -> a <= b < a + k -> exists i, find f (rev (seq a k)) = Some i /\ b <= i < a + k /\ f i = true.
Proof.
  induction k as [|k IH]; intros a b Hb Hr; [lia|]. rewrite seq_S, rev_app_distr. cbn [rev app find]. destruct (f (a + k)) eqn:Ea. { exists (a + k). split; auto. split; [lia|auto]. }
  destruct (Nat.eq_dec (a + k) b) as [<-|]; [congruence|]. destruct (IH a b Hb ltac:(lia)) as (i & E & Hi & Hf). exists i. split; auto. split; [lia|auto].
Qed.

Section TreeProof.
  Context {T V : Type}.
  Variable dbg : bool.
  Variable n : nat.
  Variable arc : nat -> nat -> N -> Prop.
  Variable full : list nat.
  Variable dists : list N.
  Variable pr : ranks.
  Variable t_init s_init : ranks -> T -> nat -> list nat -> option T.
  Variable t_dist s_dist : T -> nat -> option (T * N).
  Variable t_unpack s_unpack : T -> nat -> option T.
  Variable t_pred s_pred : T -> nat -> option nat.
  Variable found : V -> prange -> N -> N -> option (V * bool).
  Variable test : N -> N -> bool.
  Variable upd : V -> prange -> N -> V.
  Variables TI SI : T -> Prop.
  Notation X i := (nth i full 0).
  Notation dd i := (nth i dists 0%N).
  Notation len := (length full).
  Notation U v r := (upd v r (N.sub (dd (snd r)) (dd (fst r)))).
  Definition part (lo k : nat) : list nat := map (fun i => X i) (seq lo k).

  Hypothesis Hn : forall v, In v full -> v < n.
  Hypothesis Hpl : length pr = n.
  Hypothesis Hpr : forall i, i < len -> nth_error pr (X i) = Some (Some i).
  Hypothesis Hpn : forall v, v < n -> ~ In v full -> nth_error pr v = Some None.
  Hypothesis Hdl : forall i, i < len -> nth_error dists i = Some (dd i).
  Hypothesis Hstep : forall i, S i < len -> exists w, cheapest arc (X i) (X (S i)) w /\ dd (S i) = (dd i + w)%N.

  Record tree_contract (A : nat -> nat -> N -> Prop) (I : T -> Prop) (init : ranks -> T -> nat -> list nat -> option T) (dist : T -> nat -> option (T * N))
      (unpack : T -> nat -> option T) (pred : T -> nat -> option nat) (rootof : nat -> nat -> nat) : Prop := {
    tc_init : forall lo m t, lo + m < len -> I t -> exists t' delta K gp,
      init pr t (X (rootof lo m)) (part lo (S m)) = Some t' /\ K t' /\ (forall t, K t -> I t) /\ (forall t v u, K t -> gp t v = Some u -> pred t v = Some u) /\
      (forall i, lo <= i <= lo + m -> is_dist A (X i) (X (rootof lo m)) (delta (X i))) /\
      (forall t i, K t -> lo <= i <= lo + m -> exists t', dist t (X i) = Some (t', delta (X i)) /\ K t' /\ tgrow n A (X (rootof lo m)) delta (gp t) (gp t')) /\
      (forall t i, K t -> lo <= i <= lo + m -> exists t' p, unpack t (X i) = Some t' /\ K t' /\ tgrow n A (X (rootof lo m)) delta (gp t) (gp t') /\
        tpath n A (X (rootof lo m)) delta (gp t') (X i) p) }.
  Hypothesis TC : tree_contract arc TI t_init t_dist t_unpack t_pred (fun lo m => lo + m).
  Hypothesis SC : tree_contract (flip_arc arc) SI s_init s_dist s_unpack s_pred (fun lo m => lo).

  Hypothesis Hfound : forall v a b d, a < b < len -> is_dist arc (X a) (X b) d -> (d < dd b - dd a)%N ->
    found v (a, b) (dd b - dd a) d = Some (if test (dd b - dd a) d then (U v (a, b), true) else (v, false)).
  Hypothesis test_eq : forall x, test x x = false.
  Hypothesis test_mono : forall x d k, (k <= d)%N -> (d < x)%N -> test x d = true -> test (x - k) (d - k) = true.

  (** a subpath that fails the test *)
  Definition bad (r : prange) : Prop := fst r < snd r < len /\ exists d, is_dist arc (X (fst r)) (X (snd r)) d /\ test (dd (snd r) - dd (fst r)) d = true.

  (** ** Positions and lengths *)
  Lemma rank_X i : i < len -> rank_of pr (X i) = Some i.
  Proof. intros. unfold rank_of. rewrite Hpr by auto. auto. Qed.
  Lemma at_X i : i < len -> at_dist dists pr (X i) = Some (dd i).
  Proof. intros. unfold at_dist. rewrite rank_X by auto. cbn. auto. Qed.
  Lemma X_inj i j : i < len -> j < len -> X i = X j -> i = j.
  Proof. intros Hi Hj E. pose proof (rank_X i Hi) as R. rewrite E, rank_X in R by auto. congruence. Qed.
  Lemma dd_walk i j : i <= j -> j < len -> (dd i <= dd j)%N /\ walk arc (X i) (X j) (dd j - dd i).
  Proof.
    intros Hij Hj. remember (j - i) as k. revert i Hij Heqk. induction k as [|k IH]; intros i Hij Hk.
    - assert (i = j) by lia. subst. rewrite N.sub_diag. split; [lia|constructor].
    - destruct (Hstep i ltac:(lia)) as (w & [HA _] & E). destruct (IH (S i) ltac:(lia) ltac:(lia)) as [A B]. split; [lia|].
      replace (dd j - dd i)%N with (w + (dd j - dd (S i)))%N by lia. econstructor; eauto.
  Qed.
  Lemma csub_dd i j : i <= j -> j < len -> csubN (dd j) (dd i) = Some (dd j - dd i)%N.
  Proof. intros Hij Hj. destruct (dd_walk i j Hij Hj). unfold csubN. destruct (N.leb_spec (dd i) (dd j)); [auto|lia]. Qed.
  Lemma part_nth lo k j : j < k -> nth j (part lo k) 0 = X (lo + j).
  Proof. intros Hj. unfold part. rewrite nth_indep with (d' := X 0) by (rewrite map_length, seq_length; auto). rewrite (map_nth (fun i => X i)). rewrite seq_nth; auto. Qed.
  Lemma part_len lo k : length (part lo k) = k.
  Proof. unfold part. rewrite map_length, seq_length. auto. Qed.
  Lemma part_rev_nth lo m j : j <= m -> nth j (rev (part lo (S m))) 0 = X (lo + (m - j)).
  Proof. intros Hj. rewrite rev_nth by (rewrite part_len; lia). rewrite part_len, part_nth by lia. auto. Qed.
  Lemma part_in lo k v : In v (part lo k) <-> exists i, lo <= i < lo + k /\ v = X i.
  Proof.
    unfold part. rewrite in_map_iff. split.
    - intros (i & <- & H). apply in_seq in H. exists i. auto.
    - intros (i & H & ->). exists i. split; auto. apply in_seq. auto.
  Qed.
  Lemma part_slice a b : a <= b <= len -> slice full a b = Some (part a (b - a)).
  Proof.
    intros H. rewrite slice_Some by auto. f_equal. apply nth_ext with 0 0. { rewrite firstn_length, skipn_length, part_len. lia. }
    intros j Hj. rewrite firstn_length, skipn_length in Hj. rewrite part_nth by lia.
    assert (Ha : a + j < len) by lia. pose proof (nth_error_slice full a b j) as E. destruct (Nat.ltb_spec j (b - a)); [|lia].
    rewrite (nth_error_nth' full 0 Ha) in E. apply nth_error_nth with (d := 0) in E. auto.
  Qed.
  Lemma part_window lo m v : lo + m < len -> v < n ->
    in_window pr (X lo) (X (lo + m)) v = Some (existsb (Nat.eqb v) (part lo (S m))).
  Proof.
    intros Hl Hv. unfold in_window. destruct (in_dec Nat.eq_dec v full) as [Hin|Hin].
    - destruct (In_nth _ _ 0 Hin) as (i & Hi & <-). rewrite Hpr by auto. cbn [bind]. rewrite !rank_X by lia. cbn [bind].
      assert (E : existsb (Nat.eqb (X i)) (part lo (S m)) = ((lo <=? i) && (i <=? lo + m))).
      { apply eq_true_iff_eq. rewrite existsb_exists, andb_true_iff, !Nat.leb_le. split.
        - intros (x & Hx & Ex). apply Nat.eqb_eq in Ex. subst x. apply part_in in Hx. destruct Hx as (j & Hj & Ej). apply X_inj in Ej; try lia.
        - intros H. exists (X i). rewrite Nat.eqb_refl. split; auto. apply part_in. exists i. split; auto. lia. }
      rewrite E. destruct (lo <=? i); auto.
    - rewrite Hpn by auto. cbn [bind]. f_equal. symmetry. apply not_true_is_false. rewrite existsb_exists. intros (x & Hx & Ex). apply Nat.eqb_eq in Ex. subst x.
      apply part_in in Hx. destruct Hx as (j & Hj & ->). apply Hin. apply nth_In. lia.
  Qed.
  Lemma part_lt lo k v : lo + k <= len -> In v (part lo k) -> v < n.
  Proof. intros Hl H. apply part_in in H. destruct H as (i & Hi & ->). apply Hn. apply nth_In. lia. Qed.

  (** ** Reporting *)
  Lemma report_ok (K : T -> Prop) (delta : nat -> N) dist pdist base mk (pl : nat -> N) (f : nat -> bool) il :
    (forall i, In i il -> i < len /\ pdist (X i) = Some (pl i) /\ (base <= pl i)%N /\ (base <= delta (X i))%N /\ (forall t, K t -> exists t', dist t (X i) = Some (t', delta (X i)) /\ K t') /\
      (forall v, found v (mk i) (pl i - base) (delta (X i) - base) = Some (if f i then (U v (mk i), true) else (v, false)))) ->
    forall t v, K t -> exists t', report found dist pdist base pr mk (map (fun i => X i) il) t v =
      Some (t', fold_left (fun v r => U v r) (match find f il with Some i => [mk i] | None => [] end) v) /\ K t'.
  Proof.
    induction il as [|i il IH]; intros Hil t v HK; cbn [map report find]. { exists t. auto. }
    destruct (Hil i (or_introl eq_refl)) as (Hi & Ep & B1 & B2 & HD & HF). rewrite Ep. cbn [bind]. unfold csubN. destruct (N.leb_spec base (pl i)); [|lia]. cbn [bind].
    destruct (HD t HK) as (t1 & E1 & K1). rewrite E1. cbn [bind]. destruct (N.leb_spec base (delta (X i))); [|lia]. cbn [bind].
    rewrite rank_X by auto. cbn [bind]. rewrite HF. destruct (f i); cbn [bind]. { exists t1. auto. }
    apply IH; auto. intros j Hj. apply Hil. cbn. auto.
  Qed.

  Notation step := (tree_step dbg n t_init s_init t_dist s_dist t_unpack s_unpack t_pred s_pred found full dists pr).
  Notation Rep vs evs := (fold_left (fun v r => U v r) evs vs).

  Lemma step_unfold t s cache v path start rest : path = start :: rest -> step (t, s, cache, v, path) = (
        let stop := last path start in
        t <- t_init pr t stop path ;;
        let to_stop node := e <- at_dist dists pr stop ;; x <- at_dist dists pr node ;; csubN e x in
        let from_start node := x <- at_dist dists pr node ;; b <- at_dist dists pr start ;; csubN x b in
        sub0 <- rank_of pr start ;;
        '(t, cache, dev, t_sub) <- scan_reset dbg n t_dist t_unpack t_pred to_stop Nat.max pr start stop path path t cache sub0 ;;
        match dev with
        | None => Some (inr (t, s, cache, v))
        | Some t_dev =>
            s <- s_init pr s start path ;;
            sub1 <- rank_of pr stop ;;
            '(s, cache, dev, s_sub) <- scan_reset dbg n s_dist s_unpack s_pred from_start Nat.min pr start stop (rev path) path s cache sub1 ;;
            s_dev <- dev ;;
            t_node <- nth_error full t_dev ;; s_node <- nth_error full s_dev ;;
            t_base <- (e <- at_dist dists pr stop ;; x <- nth_error dists t_dev ;; csubN e x) ;;
            '(t, x) <- t_dist t t_node ;;
            s_base <- (x <- nth_error dists s_dev ;; b <- at_dist dists pr start ;; csubN x b) ;;
            '(s, y) <- s_dist s s_node ;;
            dassert dbg ((t_base =? x)%N && (s_base =? y)%N) (
            l1 <- slice full s_sub (t_dev + 1) ;;
            '(s, v) <- report found s_dist from_start s_base pr (fun r => (s_dev, r)) l1 s v ;;
            l2 <- slice full s_dev (t_sub + 1) ;;
            '(t, v) <- report found t_dist to_stop t_base pr (fun r => (r, t_dev)) (rev l2) t v ;;
            path <- slice full (s_dev + 1) t_dev ;;
            Some (inl (t, s, cache, v, path)))
        end
    ).
  Proof. intros ->. reflexivity. Qed.

  Lemma step_ok t s cache v lo m : lo + m < len -> TI t -> SI s -> length cache = n -> all_none cache = true ->
    exists r, step (t, s, cache, v, part lo (S m)) = Some r /\
      match r with
      | inr (t', s', cache', v') => TI t' /\ SI s' /\ length cache' = n /\ all_none cache' = true /\ v' = v /\ forall r, bad r -> lo <= fst r -> snd r <= lo + m -> False
      | inl (t', s', cache', v', path') => TI t' /\ SI s' /\ length cache' = n /\ all_none cache' = true /\ exists lo' k' evs, path' = part lo' k' /\ lo' + k' <= len /\ k' <= m /\ v' = Rep v evs /\
          Forall bad evs /\ forall r, inclusion_minimal bad r -> lo <= fst r -> snd r <= lo + m -> In r evs \/ (lo' <= fst r /\ snd r < lo' + k')
      end.
  Proof.
    intros Hl HT HS Lc Hc. set (hi := lo + m) in *.
    destruct (tc_init _ _ _ _ _ _ _ TC lo m t Hl HT) as (t1 & dt & KT & gpt & E1 & K1 & KI & GPt & Dt & KTd & KTu).
    cbv beta in E1, Dt, KTd, KTu. fold hi in E1, Dt, KTd, KTu. assert (Ehi : hi = lo + m) by reflexivity.
    assert (Epart : part lo (S m) = X lo :: part (S lo) m) by reflexivity.
    assert (Elast : last (part lo (S m)) (X lo) = X hi).
    { unfold part. rewrite seq_S, map_app. cbn [map]. rewrite last_last. reflexivity. }
    rewrite (step_unfold _ _ _ _ _ _ _ Epart). rewrite Elast. cbv zeta. set (to_stop := fun node => e <- at_dist dists pr (X hi) ;; x <- at_dist dists pr node ;; csubN e x). set (from_start := fun node => x <- at_dist dists pr node ;; b <- at_dist dists pr (X lo) ;; csubN x b). rewrite E1. cbn [bind]. rewrite rank_X by lia. cbn [bind].
    (* target side *)
    destruct (scan_reset_ok n arc (part lo (S m)) m dt (fun j => (dd hi - dd (lo + j))%N) (fun j => lo + j) t_dist t_unpack t_pred
      to_stop Nat.max pr (X lo) (X hi) (fun v => existsb (Nat.eqb v) (part lo (S m))) KT gpt) with (dbg := dbg) (path := part lo (S m)) (t := t1) (cache := cache) (sub := lo)
      as (t2 & c2 & devt & Jt & E2 & K2 & L2 & N2 & HJt & Ot1 & Ot2 & Ot0 & OtW); auto.
    { apply part_len. } { intros x. apply part_lt. lia. } { intros x. apply part_window; auto. }
    { intros x. rewrite existsb_exists. split; [intros (y & Hy & Ey); apply Nat.eqb_eq in Ey; subst; auto|intros H; exists x; rewrite Nat.eqb_refl; auto]. }
    { intros i Hi. rewrite part_nth by lia. apply rank_X. lia. } { intros i j Hi Hj. lia. }
    { intros i Hi. rewrite part_nth by lia. unfold to_stop. rewrite !at_X by lia. cbn [bind]. apply csub_dd; lia. }
    { intros i j Hi Hj. lia. } { rewrite N.sub_diag. auto. }
    { intros i Hi. rewrite !part_nth by lia. destruct (Hstep (lo + i) ltac:(lia)) as (w & [HA HM] & Ew). replace (S (lo + i)) with (lo + S i) in * by lia. exists w. split; auto. split; auto.
      destruct (dd_walk (lo + S i) hi ltac:(lia) Hl). lia. }
    { intros i Hi. rewrite !part_nth by lia. apply Dt. lia. }
    { intros t0 i HK Hi. rewrite !part_nth by lia. apply KTd; auto. lia. }
    { intros t0 i HK Hi. rewrite !part_nth by lia. apply KTu; auto. lia. }
    { tauto. }
    rewrite E2. cbn [bind]. clear E2.
    assert (At : forall i, lo <= i <= hi -> nth (i - lo) (part lo (S m)) 0 = X i). { intros i Hi. rewrite part_nth by lia. f_equal. lia. }
    destruct (Nat.eq_dec Jt 0) as [->|HJt0].
    { rewrite (Ot0 eq_refl). cbn [option_map bind]. eexists. split; [reflexivity|]. split; [auto|]. split; auto. split; auto. split; auto. split; auto.
      intros [a b] ((Hab & Hb) & d & Hd & Ht) Ha Hb2. cbn [fst snd] in *.
      (* the whole part is shortest *)
      pose proof (Ot2 0 ltac:(lia)) as O. rewrite part_nth, Nat.add_0_r in O by lia.
      pose proof (Dt lo ltac:(lia)) as [_ Dm]. rewrite O in Dm. destruct (dd_walk lo a Ha ltac:(lia)) as [Q1 W1]. destruct (dd_walk b hi Hb2 Hl) as [Q2 W2]. destruct (dd_walk a b ltac:(lia) Hb) as [Q3 W3].
      pose proof (Dm _ (walk_app _ _ _ _ _ _ W1 (walk_app _ _ _ _ _ _ (proj1 Hd) W2))). pose proof (proj2 Hd _ W3). assert (d = dd b - dd a)%N by lia. subst d. rewrite test_eq in Ht. discriminate. }
    destruct (OtW ltac:(lia)) as (De & -> & HDe & OtWk). cbn [option_map bind]. destruct (Nat.eqb_spec Jt 0); [lia|].
    destruct (tc_init _ _ _ _ _ _ _ SC lo m s Hl HS) as (s1 & ds & KS & gps & F1 & KS1 & KSI & GPs & Ds & KSd & KSu).
    cbv beta in F1, Ds, KSd, KSu. fold hi in F1, Ds, KSd, KSu.
    rewrite F1. cbn [bind]. rewrite rank_X by lia. cbn [bind].
    (* source side *)
    destruct (scan_reset_ok n (flip_arc arc) (rev (part lo (S m))) m ds (fun j => (dd (lo + (m - j)) - dd lo)%N) (fun j => lo + (m - j)) s_dist s_unpack s_pred
      from_start Nat.min pr (X lo) (X hi) (fun v => existsb (Nat.eqb v) (part lo (S m))) KS gps) with (dbg := dbg) (path := part lo (S m)) (t := s1) (cache := c2) (sub := hi)
      as (s2 & c3 & devs & Js & F2 & KS2 & L3 & N3 & HJs & Os1 & Os2 & Os0 & OsW); auto.
    { rewrite rev_length. apply part_len. } { intros x Hx. apply in_rev in Hx. revert Hx. apply part_lt. lia. } { intros x. apply part_window; auto. }
    { intros x. rewrite <- in_rev. rewrite existsb_exists. split; [intros (y & Hy & Ey); apply Nat.eqb_eq in Ey; subst; auto|intros H; exists x; rewrite Nat.eqb_refl; auto]. }
    { intros i Hi. rewrite part_rev_nth by lia. apply rank_X. lia. } { intros i j Hi Hj. lia. }
    { intros i Hi. rewrite part_rev_nth by lia. unfold from_start. rewrite !at_X by lia. cbn [bind]. apply csub_dd; lia. }
    { intros i j Hi Hj. lia. } { rewrite Nat.sub_diag, Nat.add_0_r, N.sub_diag. auto. }
    { intros i Hi. rewrite !part_rev_nth by lia. destruct (Hstep (lo + (m - S i)) ltac:(lia)) as (w & [HA HM] & Ew). replace (S (lo + (m - S i))) with (lo + (m - i)) in * by lia. exists w. split; auto. split; auto.
      destruct (dd_walk lo (lo + (m - S i)) ltac:(lia) ltac:(lia)). lia. }
    { intros i Hi. rewrite !part_rev_nth by lia. rewrite Nat.sub_diag, Nat.add_0_r. apply Ds. lia. }
    { intros t0 i HK Hi. rewrite !part_rev_nth by lia. rewrite Nat.sub_diag, Nat.add_0_r. apply KSd; auto. lia. }
    { intros t0 i HK Hi. rewrite !part_rev_nth by lia. rewrite Nat.sub_diag, Nat.add_0_r. apply KSu; auto. lia. }
    { intros x. apply in_rev. }
    rewrite F2. cbn [bind]. clear F2.
    (* facts about the trees, by position *)
    assert (Tlt : forall i, lo <= i < lo + Jt -> (dt (X i) < dd hi - dd i)%N). { intros i Hi. pose proof (Ot1 (i - lo) ltac:(lia)) as O. rewrite At in O by lia. replace (lo + (i - lo)) with i in O by lia. auto. }
    assert (Teq : forall i, lo + Jt <= i <= hi -> dt (X i) = (dd hi - dd i)%N). { intros i Hi. pose proof (Ot2 (i - lo) ltac:(lia)) as O. rewrite At in O by lia. replace (lo + (i - lo)) with i in O by lia. auto. }
    assert (Bt : forall i, lo <= i <= hi -> nth (hi - i) (rev (part lo (S m))) 0 = X i). { intros i Hi. rewrite part_rev_nth by lia. f_equal. lia. }
    assert (Slt : forall i, lo <= i <= hi -> hi - Js < i -> (ds (X i) < dd i - dd lo)%N). { intros i Hi Hj. pose proof (Os1 (hi - i) ltac:(lia)) as O. rewrite Bt in O by lia. replace (lo + (m - (hi - i))) with i in O by lia. auto. }
    assert (Seq : forall i, lo <= i <= hi - Js -> ds (X i) = (dd i - dd lo)%N). { intros i Hi. pose proof (Os2 (hi - i) ltac:(lia)) as O. rewrite Bt in O by lia. replace (lo + (m - (hi - i))) with i in O by lia. auto. }
    assert (DT : forall i, lo <= i <= hi -> is_dist arc (X i) (X hi) (dt (X i))) by (intros i Hi; apply Dt; lia).
    assert (DS : forall i, lo <= i <= hi -> is_dist arc (X lo) (X i) (ds (X i))). { intros i Hi. apply is_dist_flip. apply Ds. lia. }
    assert (HJs0 : Js <> 0).
    { intros ->. pose proof (Seq hi ltac:(lia)) as Q. pose proof (Tlt lo ltac:(lia)) as Q'. pose proof (is_dist_det _ _ _ _ _ (DT lo ltac:(lia)) (DS hi ltac:(lia))). lia. }
    destruct (OsW ltac:(lia)) as (Dc & -> & HDc & OsWk). cbn [option_map bind]. destruct (Nat.eqb_spec Js 0); [lia|].
    set (e := lo + De) in *. set (c := lo + (m - Dc)) in *. set (tau := lo + (Jt - 1)) in *. set (sigma := lo + (m - (Js - 1))) in *.
    assert (Ee : e = lo + De) by reflexivity. assert (Ec : c = lo + (m - Dc)) by reflexivity. assert (Et : tau = lo + (Jt - 1)) by reflexivity. assert (Es : sigma = lo + (m - (Js - 1))) by reflexivity.
    assert (TW : forall i, lo <= i <= tau -> (dd hi - dd e <= dt (X i))%N /\ walk arc (X i) (X e) (dt (X i) - (dd hi - dd e))).
    { intros i Hi. pose proof (OtWk (i - lo) ltac:(lia)) as O. rewrite At in O by lia. rewrite part_nth in O by lia. exact O. }
    assert (SW : forall i, sigma <= i <= hi -> (dd c - dd lo <= ds (X i))%N /\ walk arc (X c) (X i) (ds (X i) - (dd c - dd lo))).
    { intros i Hi. pose proof (OsWk (hi - i) ltac:(lia)) as O. rewrite Bt in O by lia. rewrite part_rev_nth in O by lia. destruct O as [O1 O2]. split; auto. apply walk_flip in O2. exact O2. }
    assert (Hce : c < sigma /\ sigma <= e /\ c <= tau /\ tau < e /\ e <= hi /\ lo <= c).
    { assert (tau < e <= hi) by lia. assert (lo <= c < sigma) by lia. split; [lia|]. split; [|split; [|lia]].
      - destruct (Nat.le_gt_cases sigma e); auto. exfalso. destruct (TW lo ltac:(lia)) as [Q1 W1]. pose proof (proj2 (DS e ltac:(lia)) _ W1) as Q2. rewrite (Seq e ltac:(lia)) in Q2. pose proof (Tlt lo ltac:(lia)).
        destruct (dd_walk lo e ltac:(lia) ltac:(lia)). destruct (dd_walk e hi ltac:(lia) ltac:(lia)). lia.
      - destruct (Nat.le_gt_cases c tau); auto. exfalso. destruct (SW hi ltac:(lia)) as [Q1 W1]. pose proof (proj2 (DT c ltac:(lia)) _ W1) as Q2. rewrite (Teq c ltac:(lia)) in Q2. pose proof (Slt hi ltac:(lia) ltac:(lia)).
        destruct (dd_walk lo c ltac:(lia) ltac:(lia)). destruct (dd_walk c hi ltac:(lia) ltac:(lia)). lia. }
    destruct Hce as (H1 & H2 & H3 & H4 & H5 & H6).
    assert (DE : forall i, lo <= i <= tau -> is_dist arc (X i) (X e) (dt (X i) - (dd hi - dd e))).
    { intros i Hi. destruct (TW i Hi) as [Q W]. split; auto. intros l Wl. destruct (dd_walk e hi ltac:(lia) ltac:(lia)) as [_ We]. pose proof (proj2 (DT i ltac:(lia)) _ (walk_app _ _ _ _ _ _ Wl We)). lia. }
    assert (DC : forall i, sigma <= i <= hi -> is_dist arc (X c) (X i) (ds (X i) - (dd c - dd lo))).
    { intros i Hi. destruct (SW i Hi) as [Q W]. split; auto. intros l Wl. destruct (dd_walk lo c ltac:(lia) ltac:(lia)) as [_ We]. pose proof (proj2 (DS i ltac:(lia)) _ (walk_app _ _ _ _ _ _ We Wl)). lia. }
    (* the rest of the step *)
    rewrite (nth_error_nth' full 0) by lia. cbn [bind]. rewrite (nth_error_nth' full 0) by lia. cbn [bind]. rewrite !at_X by lia. cbn [bind]. rewrite !Hdl by lia. cbn [bind].
    rewrite csub_dd by lia. cbn [bind]. destruct (KTd t2 e K2 ltac:(lia)) as (t3 & G1 & K3 & _). rewrite G1. cbn [bind]. rewrite csub_dd by lia. cbn [bind].
    destruct (KSd s2 c KS2 ltac:(lia)) as (s3 & G2 & KS3 & _). rewrite G2. cbn [bind].
    rewrite (Teq e) by lia. rewrite (Seq c) by lia. rewrite !N.eqb_refl. unfold dassert. rewrite andb_false_r.
    rewrite part_slice by lia. cbn [bind].
    (* first report *)
    destruct (report_ok KS ds s_dist from_start (dd c - dd lo)%N (fun r => (c, r)) (fun i => (dd i - dd lo)%N)
      (fun i => test (dd i - dd c) (ds (X i) - (dd c - dd lo))) (seq sigma (e + 1 - sigma))) with (t := s3) (v := v) as (s4 & R1 & KS4); auto.
    { intros i Hi. apply in_seq in Hi. destruct (dd_walk lo c ltac:(lia) ltac:(lia)) as [Q1 _]. destruct (dd_walk c i ltac:(lia) ltac:(lia)) as [Q2 _]. destruct (SW i ltac:(lia)) as [Q3 _].
      split; [lia|]. split. { unfold from_start, to_stop. rewrite !at_X by lia. cbn [bind]. apply csub_dd; lia. } split; [lia|]. split; auto. split. { intros t0 K0. destruct (KSd t0 i K0 ltac:(lia)) as (t' & ? & ? & _). eauto. }
      intros v0. replace (dd i - dd lo - (dd c - dd lo))%N with (dd i - dd c)%N by lia. apply (Hfound v0 c i); [lia| |]. { apply DC. lia. } pose proof (Slt i ltac:(lia) ltac:(lia)). lia. }
    change (map (fun i => X i) (seq sigma (e + 1 - sigma))) with (part sigma (e + 1 - sigma)) in R1. match type of R1 with _ = Some (_, fold_left _ ?Q _) => set (ev1 := Q) in R1 end. rewrite R1. cbn [bind]. rewrite part_slice by lia. cbn [bind].
    (* second report *)
    destruct (report_ok KT dt t_dist to_stop (dd hi - dd e)%N (fun r => (r, e)) (fun i => (dd hi - dd i)%N)
      (fun i => test (dd e - dd i) (dt (X i) - (dd hi - dd e))) (rev (seq c (tau + 1 - c)))) with (t := t3) (v := Rep v ev1) as (t4 & R2 & K4); auto.
    { intros i Hi. apply in_rev in Hi. apply in_seq in Hi. destruct (dd_walk i e ltac:(lia) ltac:(lia)) as [Q1 _]. destruct (dd_walk e hi ltac:(lia) ltac:(lia)) as [Q2 _]. destruct (TW i ltac:(lia)) as [Q3 _].
      split; [lia|]. split. { unfold from_start, to_stop. rewrite !at_X by lia. cbn [bind]. apply csub_dd; lia. } split; [lia|]. split; auto. split. { intros t0 K0. destruct (KTd t0 i K0 ltac:(lia)) as (t' & ? & ? & _). eauto. }
      intros v0. replace (dd hi - dd i - (dd hi - dd e))%N with (dd e - dd i)%N by lia. apply (Hfound v0 i e); [lia| |]. { apply DE. lia. } pose proof (Tlt i ltac:(lia)). lia. }
    rewrite map_rev in R2. change (map (fun i => X i) (seq c (tau + 1 - c))) with (part c (tau + 1 - c)) in R2.
    match type of R2 with _ = Some (_, fold_left _ ?Q _) => set (ev2 := Q) in R2 end. rewrite R2. cbn [bind]. rewrite part_slice by lia. cbn [bind].
    eexists. split; [reflexivity|]. split; [auto|]. split; [auto|]. split; auto. split; auto. exists (c + 1), (e - (c + 1)), (ev1 ++ ev2). split; auto. split; [lia|]. split; [lia|]. split; [rewrite fold_left_app; auto|].
    split.
    - apply Forall_app. split.
      + unfold ev1. destruct (find _ (seq sigma _)) as [i|] eqn:Ef; constructor; auto. apply find_some in Ef. destruct Ef as [Hi Ht]. apply in_seq in Hi. split; cbn [fst snd]; [lia|]. eexists. split; [|exact Ht]. apply DC. lia.
      + unfold ev2. destruct (find _ (rev (seq c _))) as [i|] eqn:Ef; constructor; auto. apply find_some in Ef. destruct Ef as [Hi Ht]. apply in_rev in Hi. apply in_seq in Hi. split; cbn [fst snd]; [lia|]. eexists. split; [|exact Ht]. apply DE. lia.
    - intros [a b] [[Hab (d & Hd & Ht)] Hmin] Ha Hb. cbn [fst snd] in *.
      destruct (dd_walk lo a ltac:(lia) ltac:(lia)) as [Qa Wa]. destruct (dd_walk a b ltac:(lia) ltac:(lia)) as [Qab Wab]. destruct (dd_walk b hi ltac:(lia) ltac:(lia)) as [Qb Wb].
      assert (Hne : (d < dd b - dd a)%N). { pose proof (proj2 Hd _ Wab). assert (d <> dd b - dd a)%N; [|lia]. intros ->. rewrite test_eq in Ht. discriminate. }
      assert (Bs : sigma <= b). { destruct (Nat.le_gt_cases sigma b); auto. exfalso. pose proof (proj2 (DS b ltac:(lia)) _ (walk_app _ _ _ _ _ _ Wa (proj1 Hd))) as Q. rewrite (Seq b) in Q by lia. lia. }
      assert (At' : a <= tau). { destruct (Nat.le_gt_cases a tau); auto. exfalso. pose proof (proj2 (DT a ltac:(lia)) _ (walk_app _ _ _ _ _ _ (proj1 Hd) Wb)) as Q. rewrite (Teq a) in Q by lia. lia. }
      assert (Ac : c <= a).
      { destruct (Nat.le_gt_cases c a); auto. exfalso. destruct (dd_walk a c ltac:(lia) ltac:(lia)) as [Qac Wac]. destruct (dd_walk c b ltac:(lia) ltac:(lia)) as [Qcb Wcb]. destruct (dd_walk lo c ltac:(lia) ltac:(lia)) as [Qlc Wlc].
        pose proof (DC b ltac:(lia)) as Dcb. destruct (SW b ltac:(lia)) as [Q1 _].
        pose proof (proj2 Hd _ (walk_app _ _ _ _ _ _ Wac (proj1 Dcb))) as Q2. pose proof (proj2 (DS b ltac:(lia)) _ (walk_app _ _ _ _ _ _ Wa (proj1 Hd))) as Q3.
        assert (Ed : (ds (X b) - (dd c - dd lo) = d - (dd c - dd a))%N) by lia.
        assert (E : (c, b) = (a, b)); [|injection E; lia]. apply Hmin; cbn [fst snd]; [|lia|lia]. split; cbn [fst snd]; [lia|]. exists (d - (dd c - dd a))%N. rewrite <- Ed. split; auto. rewrite Ed.
        replace (dd b - dd c)%N with (dd b - dd a - (dd c - dd a))%N by lia. apply test_mono; auto. lia. }
      assert (Be : b <= e).
      { destruct (Nat.le_gt_cases b e); auto. exfalso. destruct (dd_walk e b ltac:(lia) ltac:(lia)) as [Qeb Web]. destruct (dd_walk a e ltac:(lia) ltac:(lia)) as [Qae Wae]. destruct (dd_walk e hi ltac:(lia) ltac:(lia)) as [Qeh Weh].
        pose proof (DE a ltac:(lia)) as Dae. destruct (TW a ltac:(lia)) as [Q1 _].
        pose proof (proj2 Hd _ (walk_app _ _ _ _ _ _ (proj1 Dae) Web)) as Q2. pose proof (proj2 (DT a ltac:(lia)) _ (walk_app _ _ _ _ _ _ (proj1 Hd) Wb)) as Q3.
        assert (Ed : (dt (X a) - (dd hi - dd e) = d - (dd b - dd e))%N) by lia.
        assert (E : (a, e) = (a, b)); [|injection E; lia]. apply Hmin; cbn [fst snd]; [|lia|lia]. split; cbn [fst snd]; [lia|]. exists (d - (dd b - dd e))%N. rewrite <- Ed. split; auto. rewrite Ed.
        replace (dd e - dd a)%N with (dd b - dd a - (dd b - dd e))%N by lia. apply test_mono; auto. lia. }
      destruct (Nat.eq_dec a c) as [->|Nac]; [|destruct (Nat.eq_dec b e) as [->|Nbe]].
      + left. apply in_or_app. left. pose proof (DC b ltac:(lia)) as Dcb. rewrite (is_dist_det _ _ _ _ _ Hd Dcb) in Ht.
        destruct (find_seq_first (fun i => test (dd i - dd c) (ds (X i) - (dd c - dd lo))) (e + 1 - sigma) sigma b Ht ltac:(lia)) as (i & Ef & Hi & Hti). unfold ev1. rewrite Ef. left. apply Hmin; cbn [fst snd]; [|lia|lia].
        split; cbn [fst snd]; [lia|]. eexists. split; [|exact Hti]. apply DC. lia.
      + left. apply in_or_app. right. pose proof (DE a ltac:(lia)) as Dae. rewrite (is_dist_det _ _ _ _ _ Hd Dae) in Ht.
        destruct (find_rev_seq_last (fun i => test (dd e - dd i) (dt (X i) - (dd hi - dd e))) (tau + 1 - c) c a Ht ltac:(lia)) as (i & Ef & Hi & Hti). unfold ev2. rewrite Ef. left. apply Hmin; cbn [fst snd]; [|lia|lia].
        split; cbn [fst snd]; [lia|]. eexists. split; [|exact Hti]. apply DE. lia.
      + right. lia.
  Qed.

  Lemma tree_find_ok t s cache v : TI t -> SI s -> length cache = n -> all_none cache = true ->
    exists t' s' cache' evs, tree_find dbg n t_init s_init t_dist s_dist t_unpack s_unpack t_pred s_pred found full dists pr t s cache v = Some (t', s', cache', Rep v evs) /\
      TI t' /\ SI s' /\ length cache' = n /\ all_none cache' = true /\ Forall bad evs /\ forall r, inclusion_minimal bad r -> In r evs.
  Proof.
    intros HT HS Lc Hc. unfold tree_find.
    assert (Hchk : forallb (fun '(i, v) => match rank_of pr v with Some r => r =? i | None => false end) (combine (seq 0 len) full) = true).
    { apply forallb_forall. intros [i x] Hin. apply In_nth_error in Hin. destruct Hin as (k & Hk).
      assert (Hkl : k < len). { apply nth_error_Some_lt in Hk. rewrite combine_length, seq_length in Hk. lia. }
      assert (E : nth_error (combine (seq 0 len) full) k = Some (k, X k)).
      { rewrite (nth_error_nth' _ (0, 0)) by (rewrite combine_length, seq_length; lia). rewrite combine_nth by apply seq_length. rewrite seq_nth by auto. auto. }
      rewrite E in Hk. injection Hk as <- <-. rewrite rank_X by auto. apply Nat.eqb_refl. }
    rewrite Hchk. unfold dassert. rewrite andb_false_r.
    destruct (loopN_rule step (fun '(t, s, cache, v', path) => TI t /\ SI s /\ length cache = n /\ all_none cache = true /\ exists lo k evs, path = part lo k /\ lo + k <= len /\ v' = Rep v evs /\ Forall bad evs /\
        forall r, inclusion_minimal bad r -> In r evs \/ (lo <= fst r /\ snd r < lo + k))
      (fun '(t, s, cache, v') => TI t /\ SI s /\ length cache = n /\ all_none cache = true /\ exists evs, v' = Rep v evs /\ Forall bad evs /\ forall r, inclusion_minimal bad r -> In r evs)
      (fun '(_, _, _, _, path) => N.of_nat (length path)) (N.of_nat len + 1) (t, s, cache, v, full)) as ([[[t' s'] c'] v'] & E & A & B & C & D & evs & Ev & F1 & F2).
    - intros [[[[t0 s0] c0] v0] path] (I1 & I2 & I3 & I4 & lo & k & evs & -> & Hk & -> & Hev & Hcov). destruct k as [|m].
      + eexists. split; [reflexivity|]. split; auto. split; auto. split; auto. split; auto. exists evs. split; auto. split; auto. intros r Hr. destruct (Hcov r Hr) as [|[H1 H2]]; auto. exfalso. destruct Hr as [[Hr _] _]. lia.
      + destruct (step_ok t0 s0 c0 (Rep v evs) lo m ltac:(lia) I1 I2 I3 I4) as ([[[[[t1 s1] c1] v1] p1]|[[[t1 s1] c1] v1]] & E & HR); eexists; (split; [exact E|]).
        * destruct HR as (R1 & R2 & R3 & R4 & lo' & k' & ev' & -> & R5 & R6 & -> & R7 & R8). split; [|rewrite !part_len; lia]. split; auto. split; auto. split; auto. split; auto.
          exists lo', k', (evs ++ ev'). split; auto. split; auto. split; [rewrite fold_left_app; auto|]. split; [apply Forall_app; auto|].
          intros r Hr. destruct (Hcov r Hr) as [H|[Ha Hb]]; [left; apply in_or_app; auto|]. destruct (R8 r Hr Ha ltac:(lia)); auto. left. apply in_or_app. auto.
        * destruct HR as (R1 & R2 & R3 & R4 & -> & R5). split; auto. split; auto. split; auto. split; auto. exists evs. split; auto. split; auto. intros r Hr. destruct (Hcov r Hr) as [H|[Ha Hb]]; auto.
          exfalso. apply (R5 r); auto. { apply Hr. } lia.
    - split; auto. split; auto. split; auto. split; auto. exists 0, len, []. split. { pose proof (part_slice 0 len ltac:(lia)) as E. rewrite slice_Some in E by lia. injection E as E. rewrite Nat.sub_0_r, firstn_all in E. auto. }
      split; auto. split; auto. split; auto. intros r [[Hr _] _]. right. lia.
    - lia.
    - subst v'. exists t', s', c', evs. split; [exact E|auto 10].
  Qed.
End TreeProof.
