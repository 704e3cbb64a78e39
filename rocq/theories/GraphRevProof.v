(** Correctness of the counting-sort reversal, ch_split and permutated. *)
From Verif Require Import Base BitVec SpecGraph Graph GraphProof.

Section Rev.
  Context {W : Type}.
  Notation arcT := (nat * (nat * W))%type.

  (** arcs of [L] entering [v], as (tail, payload) *)
  Definition into (v : nat) (L : list arcT) : list (nat * W) :=
    map (fun a => (fst a, snd (snd a))) (filter (fun a => fst (snd a) =? v) L).
  Definition cnt v L := length (into v L).
  Fixpoint base v L := match v with O => 0 | S v' => base v' L + cnt v' L end.

  Lemma into_app v L1 L2 : into v (L1 ++ L2) = into v L1 ++ into v L2.
  Proof. unfold into. rewrite filter_app, map_app; auto. Qed.
  Lemma into_one v u x w : into v [(u, (x, w))] = if x =? v then [(u, w)] else [].
  Proof. unfold into; cbn [filter map fst snd]. destruct (x =? v); auto. Qed.
  Lemma cnt_app v L1 L2 : cnt v (L1 ++ L2) = cnt v L1 + cnt v L2.
  Proof. unfold cnt. rewrite into_app, app_length; auto. Qed.
  Lemma cnt_one v u x w : cnt v [(u, (x, w))] = if x =? v then 1 else 0.
  Proof. unfold cnt. rewrite into_one. destruct (x =? v); auto. Qed.
  Lemma cnt_cons v u x w L : cnt v ((u, (x, w)) :: L) = (if x =? v then 1 else 0) + cnt v L.
  Proof. change ((u, (x, w)) :: L) with ([(u, (x, w))] ++ L). rewrite cnt_app, cnt_one. auto. Qed.
  Lemma base_app v L1 L2 : base v (L1 ++ L2) = base v L1 + base v L2.
  Proof. induction v; cbn [base]; auto. rewrite IHv, cnt_app. lia. Qed.
  Lemma base_mono v v' L : v <= v' -> base v L <= base v' L.
  Proof. induction 1; cbn [base]; lia. Qed.
  Lemma base_sep v v' L : v < v' -> base v L + cnt v L <= base v' L.
  Proof. intros H. apply (base_mono (S v) v' L) in H. cbn [base] in H. auto. Qed.

  Lemma base_one v u x w : base v [(u, (x, w))] = if x <? v then 1 else 0.
  Proof.
    induction v; cbn [base]. { auto. } rewrite IHv, cnt_one.
    destruct (Nat.ltb_spec x v), (Nat.eqb_spec x v), (Nat.ltb_spec x (S v)); lia.
  Qed.
  Lemma base_all n L : (forall u v w, In (u, (v, w)) L -> v < n) -> base n L = length L.
  Proof.
    intros H. induction L as [|[u [x w]] L IH]. { clear. induction n; cbn [base]; auto. rewrite IHn. reflexivity. }
    change (base n ([(u, (x, w))] ++ L) = S (length L)). rewrite base_app, base_one, IH by (intros; eapply H; right; eauto).
    assert (x < n) by (eapply H; left; eauto). destruct (Nat.ltb_spec x n); lia.
  Qed.

  Lemma incr_at_ok l i d : nth_error l i = Some d ->
    exists l', incr_at l i = Some l' /\ length l' = length l /\ forall j, nth_error l' j = if j =? i then Some (d + 1) else nth_error l j.
  Proof.
    intros H. unfold incr_at. rewrite H; cbn [bind]. assert (i < length l) by (eapply nth_error_Some_lt; eauto).
    rewrite set_at_lt by auto. eexists; split; [reflexivity|]. split; [apply upd_length|].
    intros j. rewrite nth_error_upd. destruct (Nat.eqb_spec i j), (Nat.eqb_spec j i), (Nat.ltb_spec i (length l)); subst; cbn; auto; lia.
  Qed.

  Lemma rev_count_ok n (L : list arcT) : (forall u v w, In (u, (v, w)) L -> v < n) ->
    exists fo, foldM rev_count L (repeat 0 (n + 1)) = Some fo /\ length fo = n + 1 /\
      forall i, i <= n -> nth_error fo i = Some (match i with O => 0 | S v => cnt v L end).
  Proof.
    intros H.
    apply (foldM_inv rev_count (fun pre fo => length fo = n + 1 /\ forall i, i <= n -> nth_error fo i = Some (match i with O => 0 | S v => cnt v pre end))).
    - rewrite repeat_length. split; auto. intros i Hi. rewrite nth_error_repeat. destruct (Nat.ltb_spec i (n + 1)); [|lia]. destruct i; auto.
    - intros pre [u [x w]] post fo E [Hl Hn]. cbn [rev_count].
      assert (x < n). { eapply H. rewrite E. apply in_or_app. right; left; eauto. }
      destruct (incr_at_ok fo (x + 1) (cnt x pre)) as (fo' & E' & L' & N').
      { rewrite Nat.add_1_r. apply Hn; lia. }
      exists fo'. split; auto. split; [lia|]. intros i Hi. rewrite N'. destruct (Nat.eqb_spec i (x + 1)) as [->|Hne].
      + replace (x + 1) with (S x) by lia. rewrite cnt_app, cnt_one, Nat.eqb_refl. auto.
      + rewrite Hn by lia. destruct i as [|v]; auto. rewrite cnt_app, cnt_one. destruct (Nat.eqb_spec x v); try lia. f_equal; lia.
  Qed.

  Lemma prefix_sums_length s l : length (prefix_sums s l) = length l.
  Proof. revert s; induction l; intros; cbn; auto. Qed.
  Lemma prefix_sums_ok n L fo k : forall s j,
    (forall i, i < k -> nth_error fo i = Some (match i + j with O => 0 | S v => cnt v L end)) -> length fo = k -> j + k = n + 1 ->
    s = match j with O => 0 | S v => base v L end ->
    forall i, i < k -> nth_error (prefix_sums s fo) i = Some (base (i + j) L).
  Proof.
    revert fo. induction k as [|k IH]; intros fo s j H Hl Hjk Hs i Hi; [lia|].
    destruct fo as [|d fo]; cbn [length] in Hl; [lia|]. cbn [prefix_sums].
    assert (Hd : d = match j with O => 0 | S v => cnt v L end). { specialize (H 0 ltac:(lia)). cbn [nth_error Nat.add] in H. congruence. }
    assert (Hsd : s + d = base j L). { subst s d. destruct j; auto. }
    destruct i as [|i]; cbn [nth_error]. { rewrite Hsd. auto. }
    rewrite Hsd. rewrite (IH fo (base j L) (S j)); auto; try lia.
    - f_equal. f_equal. lia.
    - intros i' Hi'. specialize (H (S i') ltac:(lia)). cbn [nth_error] in H. rewrite H. f_equal. replace (S i' + j) with (i' + S j) by lia. auto.
  Qed.

  (** State of the scatter loop after the prefix [pre]. *)
  Definition Scat n (L pre : list arcT) (st : list nat * list nat * list W) : Prop :=
    let '(fo, hd, wt) := st in
    length fo = n + 1 /\ length hd = length L /\ length wt = length L /\
    (forall v, v < n -> nth_error fo v = Some (base v L + cnt v pre)) /\
    nth_error fo n = Some (base n L) /\
    (forall v k a, v < n -> nth_error (into v pre) k = Some a ->
       nth_error hd (base v L + k) = Some (fst a) /\ nth_error wt (base v L + k) = Some (snd a)).

  Lemma rev_scatter_ok n (L : list arcT) st0 : (forall u v w, In (u, (v, w)) L -> v < n) -> Scat n L [] st0 ->
    exists st, foldM rev_scatter L st0 = Some st /\ Scat n L L st.
  Proof.
    intros H H0. apply (foldM_inv rev_scatter (Scat n L)); auto.
    intros pre [u [x w]] post [[fo hd] wt] E (Lf & Lh & Lw & Hf & Hfn & Hc). cbn [rev_scatter].
    assert (Hx : x < n). { eapply H. rewrite E. apply in_or_app. right; left; eauto. }
    rewrite (Hf x Hx); cbn [bind].
    destruct (incr_at_ok fo x (base x L + cnt x pre) (Hf x Hx)) as (fo' & E' & L' & N'). rewrite E'; cbn [bind].
    assert (Hbig : base x L + cnt x pre < length L).
    { rewrite <- (base_all n L H). pose proof (base_sep x n L Hx).
      assert (cnt x L = cnt x pre + (1 + cnt x post)). { rewrite E, cnt_app, cnt_cons, Nat.eqb_refl. lia. } lia. }
    rewrite !set_at_lt by lia. cbn [bind]. eexists; split; [reflexivity|]. cbn [Scat].
    rewrite !upd_length. split; [lia|]. split; [lia|]. split; [lia|]. split; [|split].
    - intros v Hv. rewrite N'. destruct (Nat.eqb_spec v x) as [->|Hne].
      + rewrite cnt_app, cnt_one, Nat.eqb_refl. f_equal; lia.
      + rewrite Hf by auto. rewrite cnt_app, cnt_one. destruct (Nat.eqb_spec x v); try lia. f_equal; lia.
    - rewrite N'. destruct (Nat.eqb_spec n x); [lia|auto].
    - intros v k a Hv Ha.
      assert (Hk : k < cnt v (pre ++ [(u, (x, w))])). { unfold cnt. eapply nth_error_Some_lt; eauto. }
      assert (Hk' : cnt v (pre ++ [(u, (x, w))]) <= cnt v L).
      { rewrite E. change ((u, (x, w)) :: post) with ([(u, (x, w))] ++ post). rewrite app_assoc, (cnt_app v (pre ++ _)). lia. }
      rewrite !nth_error_upd.
      destruct (Nat.eqb_spec (base x L + cnt x pre) (base v L + k)) as [Ep|Hne].
      + assert (v = x).
        { destruct (lt_eq_lt_dec v x) as [[C|C]|C]; auto; exfalso.
          - pose proof (base_sep v x L C). lia.
          - pose proof (base_sep x v L C).
            assert (cnt x L = cnt x pre + (1 + cnt x post)) by (rewrite E, cnt_app, cnt_cons, Nat.eqb_refl; lia). lia. }
        subst v. assert (k = cnt x pre) by lia. subst k.
        rewrite into_app, into_one, Nat.eqb_refl in Ha. unfold cnt in Ha. rewrite nth_error_app2, Nat.sub_diag in Ha by lia.
        cbn in Ha. injection Ha as <-. cbn [fst snd].
        destruct (Nat.ltb_spec (base x L + cnt x pre) (length hd)), (Nat.ltb_spec (base x L + cnt x pre) (length wt)); try lia. auto.
      + cbn [andb]. apply (Hc v k a Hv). rewrite into_app, into_one in Ha. destruct (Nat.eqb_spec x v) as [->|Hxv].
        * rewrite nth_error_app1 in Ha; auto. rewrite cnt_app, cnt_one, Nat.eqb_refl in Hk. unfold cnt in *. lia.
        * rewrite app_nil_r in Ha. auto.
  Qed.

  Lemma rev_shift_ok n (L : list arcT) fo : length fo = n + 1 ->
    (forall v, v < n -> nth_error fo v = Some (base (S v) L)) -> nth_error fo n = Some (base n L) ->
    exists fo', (x <- foldM rev_shift (rev (seq 1 (n - 1))) fo ;; set_at x 0 0) = Some fo' /\ length fo' = n + 1 /\
      forall i, i <= n -> nth_error fo' i = Some (base i L).
  Proof.
    intros Hl Hv Hn.
    assert (G : forall j fo, j <= n - 1 -> length fo = n + 1 ->
       (forall i, i <= n -> nth_error fo i = Some (if i <=? j then (if i =? n then base n L else base (S i) L) else base i L)) ->
       exists fo', foldM rev_shift (rev (seq 1 j)) fo = Some fo' /\ length fo' = n + 1 /\
         forall i, i <= n -> i <> 0 -> nth_error fo' i = Some (base i L)).
    { clear fo Hl Hv Hn. induction j as [|j IH]; intros fo Hj Hl Hi.
      - cbn [seq rev foldM]. exists fo. split; auto. split; auto. intros i H1 H2. rewrite Hi by auto. destruct i; [lia|]. auto.
      - rewrite seq_S, rev_app_distr. cbn [rev app foldM]. unfold rev_shift at 1. replace (1 + j - 1) with j by lia.
        rewrite (Hi j) by lia. cbn [bind].
        rewrite set_at_lt by lia. cbn [bind]. apply IH; try lia. { rewrite upd_length; auto. }
        intros i Hin. rewrite nth_error_upd. destruct (Nat.eqb_spec (1 + j) i) as [<-|Hne].
        + destruct (Nat.ltb_spec (1 + j) (length fo)); [|lia]. cbn [andb].
          destruct (Nat.leb_spec j (S j)), (Nat.leb_spec (1 + j) j), (Nat.eqb_spec j n); try lia. auto.
        + cbn [andb]. rewrite Hi by auto. f_equal.
          destruct (Nat.leb_spec i (S j)), (Nat.leb_spec i j), (Nat.eqb_spec i n); try lia; subst; auto. }
    destruct (G (n - 1) fo) as (fo' & E & L' & N'); auto.
    { intros i Hi. destruct (Nat.leb_spec i (n - 1)), (Nat.eqb_spec i n); subst; auto; try lia.
      all: apply Hv; lia. }
    rewrite E; cbn [bind]. rewrite set_at_lt by lia. eexists; split; [reflexivity|]. rewrite upd_length. split; auto.
    intros i Hi. rewrite nth_error_upd. destruct (Nat.eqb_spec 0 i) as [<-|Hne].
    - destruct (Nat.ltb_spec 0 (length fo')); [auto|lia].
    - cbn [andb]. apply N'; auto.
  Qed.

  (** [links] enumerates the outgoing links [nb u] of every node [u < n], heads in range. *)
  Definition enum (n : nat) (links : nat -> option (list (nat * W))) (nb : nat -> list (nat * W)) : Prop :=
    forall u, u < n -> links u = Some (nb u) /\ forall v w, In (v, w) (nb u) -> v < n.

  Definition all_arcs (n : nat) (nb : nat -> list (nat * W)) : list arcT :=
    concat (map (fun u => map (fun a => (u, a)) (nb u)) (seq 0 n)).

  Lemma arc_seq_ok n links nb : enum n links nb -> arc_seq links n = Some (all_arcs n nb).
  Proof.
    intros H. unfold arc_seq. rewrite (mapM_Some _ (fun u => map (fun a => (u, a)) (nb u))). { reflexivity. }
    intros u Hu. apply in_seq in Hu. destruct (H u ltac:(lia)) as [-> _]. reflexivity.
  Qed.

  Lemma all_arcs_In n nb u v w : In (u, (v, w)) (all_arcs n nb) <-> u < n /\ In (v, w) (nb u).
  Proof.
    unfold all_arcs. rewrite in_concat. split.
    - intros (l & Hl & Ha). apply in_map_iff in Hl. destruct Hl as (u' & <- & Hu'). apply in_seq in Hu'.
      apply in_map_iff in Ha. destruct Ha as (a & [= -> ->] & Ha). split; auto. lia.
    - intros [H1 H2]. eexists. split. { apply in_map. apply in_seq. split; [|apply H1]. lia. } apply in_map_iff. eauto.
  Qed.

  Lemma into_all_arcs v n nb : into v (all_arcs n nb) =
    flat_map (fun u => map (fun a => (u, snd a)) (filter (fun a => fst a =? v) (nb u))) (seq 0 n).
  Proof.
    unfold all_arcs. induction (seq 0 n) as [|u us IH]; auto. cbn [map concat flat_map]. rewrite into_app, IH. f_equal.
    clear. unfold into. induction (nb u) as [|a l IH]; auto. cbn [map filter fst snd]. destruct (fst a =? v); cbn [map fst snd]; congruence.
  Qed.

  Lemma reversed_ok dflt n m links nb : enum n links nb -> m = length (all_arcs n nb) ->
    (N.of_nat n + 1 < U32MAX)%N -> (N.of_nat m < U32MAX)%N ->
    exists g, reversed dflt n m links = Some g /\ wf g /\ num_nodes g = n /\ num_arcs g = m /\
      forall v, v < n -> link_iter g v =
        Some (flat_map (fun u => map (fun a => (u, snd a)) (filter (fun a => fst a =? v) (nb u))) (seq 0 n)).
  Proof.
    intros He Hm Hn1 Hm1. unfold reversed. rewrite (arc_seq_ok n links nb He); cbn [bind]. set (L := all_arcs n nb) in *.
    assert (HL : forall u v w, In (u, (v, w)) L -> v < n).
    { intros u v w Hi. apply all_arcs_In in Hi. destruct Hi as [H1 H2]. destruct (He u H1) as [_ H3]. eauto. }
    destruct (rev_count_ok n L HL) as (fo1 & E1 & L1 & N1). rewrite E1; cbn [bind].
    assert (N2 : forall i, i < n + 1 -> nth_error (prefix_sums 0 fo1) i = Some (base i L)).
    { intros i Hi. replace i with (i + 0) at 2 by lia. apply (prefix_sums_ok n L fo1 (n + 1)); auto.
      intros i' Hi'. rewrite Nat.add_0_r. apply N1; lia. }
    destruct (rev_scatter_ok n L (prefix_sums 0 fo1, repeat 0 m, repeat dflt m) HL) as ([[fo3 hd] wt] & E3 & S3).
    { cbn [Scat]. rewrite prefix_sums_length, !repeat_length. split; [auto|]. split; [auto|]. split; [auto|]. split; [|split].
      - intros v Hv. rewrite N2 by lia. cbn. f_equal; lia.
      - apply N2; lia.
      - intros v k a _ Hk. destruct k; discriminate. }
    rewrite E3; cbn [bind]. destruct S3 as (Lf & Lh & Lw & Hf & Hfn & Hc).
    destruct (rev_shift_ok n L fo3 Lf) as (fo5 & E5 & L5 & N5); auto.
    destruct (foldM rev_shift _ fo3) as [fo4|] eqn:E4; cbn [bind] in E5 |- *; [|discriminate]. rewrite E5; cbn [bind].
    assert (BL : base n L = length L) by (apply base_all; auto).
    rewrite fo_new_ok; try lia.
    2:{ apply N5; lia. } 2:{ rewrite L5, Nat.add_sub, N5 by lia. f_equal; lia. }
    eexists; split; [reflexivity|]. split; [|split; [unfold num_nodes; cbn; lia|split; [unfold num_arcs; cbn; lia|]]].
    - constructor; cbn [first_out head weight]; try lia.
      + apply N5; lia.
      + intros u a b Ha Hb. assert (u + 1 < length fo5) by (eapply nth_error_Some_lt; eauto).
        rewrite N5 in Ha, Hb by lia. injection Ha as <-. injection Hb as <-. apply base_mono; lia.
      + unfold num_nodes; cbn [first_out]. rewrite L5, Nat.add_sub, N5 by lia. f_equal; lia.
    - intros v Hv. unfold link_iter, range; cbn [first_out head weight]. rewrite !N5 by lia. cbn [bind].
      rewrite Nat.add_1_r; cbn [base]. pose proof (base_sep v n L Hv).
      rewrite !slice_Some by lia. cbn [bind]. rewrite <- into_all_arcs. fold L. f_equal.
      replace (base v L + cnt v L - base v L) with (cnt v L) by lia.
      rewrite <- (combine_map_fst_snd (into v L)). f_equal.
      + apply list_ext. intros k. rewrite nth_error_firstn', nth_error_skipn', nth_error_map.
        destruct (Nat.ltb_spec k (cnt v L)).
        * destruct (nth_error_lt (into v L) k) as [a Ha]; [auto|]. rewrite Ha. cbn. apply (Hc v k a Hv Ha).
        * rewrite (proj2 (nth_error_None (into v L) k)); auto.
      + apply list_ext. intros k. rewrite nth_error_firstn', nth_error_skipn', nth_error_map.
        destruct (Nat.ltb_spec k (cnt v L)).
        * destruct (nth_error_lt (into v L) k) as [a Ha]; [auto|]. rewrite Ha. cbn. apply (Hc v k a Hv Ha).
        * rewrite (proj2 (nth_error_None (into v L) k)); auto.
  Qed.
End Rev.
