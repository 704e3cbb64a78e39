(** What rebuilding the reduced graphs produces, see CCHRebuild. *)
From Verif Require Import Base BitVec Graph SpecGraph CCH SepTree CCHContractProof CCHBuildProof CCHCustProof CCHMetricProof CCHPerfect CCHRebuild.

(** one direction: a graph with first_out F, flags, unpacking information *)
Record side_in (n : nat) (F tl : nat -> nat) (g : fograph N) (ms : list bool) (us : list unp) : Prop := {
  si_fol : length (first_out g) = n + 1;
  si_fo : forall i, i <= n -> nth_error (first_out g) i = Some (F i);
  si_0 : F 0 = 0;
  si_mono : forall i, i < n -> F i <= F (i + 1);
  si_m : length (head g) = F n;
  si_w : length (weight g) = F n;
  si_ms : length ms = F n;
  si_us : length us = F n;
  si_tl : forall i e, i < n -> F i <= e < F (i + 1) -> tl e = i }.

(** the kept edges among [a .. a+k-1], and the number of kept edges below [e] *)
Definition kept (ms : list bool) (e : nat) : bool := negb (nth e ms true).
Definition idr (ms : list bool) (a k : nat) : list nat := filter (kept ms) (seq a k).
Definition cnt (ms : list bool) (e : nat) : nat := length (idr ms 0 e).
Definition new_id (ms : list bool) (e : nat) : nat := if kept ms e then cnt ms e else length ms.
Definition new_unp (fms bms : list bool) (u : unp) : unp := (option_map (new_id bms) (fst u), option_map (new_id fms) (snd u)).

Lemma idr_app ms a k j : idr ms a (k + j) = idr ms a k ++ idr ms (a + k) j.
Proof. unfold idr. rewrite seq_app, filter_app. reflexivity. Qed.
Lemma idr_S ms a k : idr ms a (k + 1) = idr ms a k ++ (if kept ms (a + k) then [a + k] else []).
Proof. rewrite idr_app. reflexivity. Qed.
Lemma cnt_add ms a k : cnt ms (a + k) = cnt ms a + length (idr ms a k).
Proof. unfold cnt. rewrite idr_app, app_length. reflexivity. Qed.
Lemma cnt_S ms e : cnt ms (e + 1) = cnt ms e + (if kept ms e then 1 else 0).
Proof. unfold cnt. rewrite idr_S, app_length. cbn [Nat.add]. destruct (kept ms e); reflexivity. Qed.
Lemma idr_In ms a k e : In e (idr ms a k) <-> a <= e < a + k /\ kept ms e = true.
Proof. unfold idr. rewrite filter_In, in_seq. tauto. Qed.

(** the mapping after all edges below [e] are done *)
Definition map_at (ms : list bool) (e : nat) : list nat := map (fun i => if i <? e then new_id ms i else length ms) (seq 0 (length ms)).
Lemma map_at_len ms e : length (map_at ms e) = length ms.
Proof. unfold map_at. rewrite map_length, seq_length. reflexivity. Qed.
Lemma map_at_nth ms e i : i < length ms -> nth_error (map_at ms e) i = Some (if i <? e then new_id ms i else length ms).
Proof.
  intros H. unfold map_at. rewrite nth_error_map, (nth_error_nth' _ 0) by (rewrite seq_length; auto). cbn. rewrite seq_nth by auto. reflexivity.
Qed.
Lemma map_at_0 ms : map_at ms 0 = repeat (length ms) (length ms).
Proof.
  apply list_ext. intros i. rewrite nth_error_repeat. destruct (Nat.ltb_spec i (length ms)) as [L|L].
  - rewrite map_at_nth by auto. reflexivity.
  - apply nth_error_None. rewrite map_at_len. auto.
Qed.
Lemma map_at_S ms e : e < length ms -> map_at ms (e + 1) = upd (map_at ms e) e (new_id ms e).
Proof.
  intros H. apply list_ext. intros i. destruct (Nat.lt_ge_cases i (length ms)) as [L|L].
  - rewrite map_at_nth by auto. destruct (Nat.eq_dec i e) as [->|Ne].
    + rewrite nth_error_upd_eq by (rewrite map_at_len; auto). destruct (Nat.ltb_spec e (e + 1)); [auto|lia].
    + rewrite nth_error_upd_neq, map_at_nth by auto. destruct (Nat.ltb_spec i (e + 1)), (Nat.ltb_spec i e); auto; lia.
  - transitivity (@None nat); [|symmetry]; apply nth_error_None; rewrite ?upd_length, map_at_len; auto.
Qed.
Lemma map_at_skip ms e : e < length ms -> kept ms e = false -> map_at ms (e + 1) = map_at ms e.
Proof.
  intros H K. rewrite map_at_S by auto. apply list_ext. intros i. destruct (Nat.eq_dec i e) as [->|Ne].
  - rewrite nth_error_upd_eq by (rewrite map_at_len; auto). rewrite map_at_nth by auto. unfold new_id. rewrite K. destruct (e <? e); reflexivity.
  - apply nth_error_upd_neq. auto.
Qed.

Definition zrow (g : fograph N) (ms : list bool) (us : list unp) (e : nat) : nat * N * bool * unp * nat :=
  (nth e (head g) 0, nth e (weight g) 0%N, nth e ms true, nth e us no_unp, e).
Lemma combine_map2 {T U V} (f : T -> U) (h : T -> V) (l : list T) : combine (map f l) (map h l) = map (fun x => (f x, h x)) l.
Proof. induction l; cbn; f_equal; auto. Qed.

Section Side.
  Variable n : nat.
  Variables F tl : nat -> nat.
  Variable g : fograph N.
  Variable ms : list bool.
  Variable us : list unp.
  Hypothesis HS : side_in n F tl g ms us.

  Lemma F_mono i j : i <= j -> j <= n -> F i <= F j.
  Proof using HS. induction 1 as [|j L IH]; intros Hj; auto. specialize (IH ltac:(lia)). pose proof (si_mono _ _ _ _ _ _ HS j ltac:(lia)). replace (S j) with (j + 1) by lia. lia. Qed.

  Lemma zipped_ok i : i < n -> zipped g ms us i = Some (map (zrow g ms us) (seq (F i) (F (i + 1) - F i))).
  Proof using HS.
    intros Hi. pose proof (si_mono _ _ _ _ _ _ HS i Hi) as M1. pose proof (F_mono (i + 1) n ltac:(lia) ltac:(lia)) as M2.
    destruct HS as [L0 H0 _ _ L1 L2 L3 L4 _]. unfold zipped, link_iter, range. rewrite !H0 by lia. cbn [bind].
    rewrite (slice_map _ _ _ 0) by lia. rewrite (proj2 (Nat.leb_le _ _) M1). cbn [bind]. rewrite (slice_map _ _ _ 0%N) by lia. rewrite (proj2 (Nat.leb_le _ _) M1). cbn [bind].
    rewrite (slice_map _ _ _ true) by lia. rewrite (proj2 (Nat.leb_le _ _) M1). cbn [bind]. rewrite (slice_map _ _ _ no_unp) by lia. rewrite (proj2 (Nat.leb_le _ _) M1). cbn [bind].
    rewrite !combine_map2. f_equal. rewrite <- (List.map_id (seq (F i) (F (i + 1) - F i))) at 2. rewrite combine_map2. reflexivity.
  Qed.
End Side.

Definition side_at (F tl : nat -> nat) (g : fograph N) (ms : list bool) (us : list unp) (mu : unp -> unp) (i E : nat) : rside :=
  mkSide (map (fun j => cnt ms (F j)) (seq 0 (i + 1))) (map (fun e => nth e (head g) 0) (idr ms 0 E)) (map tl (idr ms 0 E))
    (map (fun e => nth e (weight g) 0%N) (idr ms 0 E)) (map (fun e => mu (nth e us no_unp)) (idr ms 0 E)).
Lemma side_at_len F tl g ms us mu i E : length (x_head (side_at F tl g ms us mu i E)) = cnt ms E.
Proof. cbn. apply map_length. Qed.
Lemma side_at_push F tl g ms us mu i E : kept ms E = true ->
  side_push (side_at F tl g ms us mu i E) (tl E) (nth E (head g) 0) (nth E (weight g) 0%N) (mu (nth E us no_unp)) = side_at F tl g ms us mu i (E + 1).
Proof. intros K. unfold side_push, side_at. cbn [x_fo x_head x_tail x_wt x_unp]. rewrite idr_S. cbn [Nat.add]. rewrite K, !map_app. reflexivity. Qed.
Lemma side_at_skip F tl g ms us mu i E : kept ms E = false -> side_at F tl g ms us mu i E = side_at F tl g ms us mu i (E + 1).
Proof. intros K. unfold side_at. rewrite idr_S. cbn [Nat.add]. rewrite K, app_nil_r. reflexivity. Qed.
Lemma side_at_close F tl g ms us mu i : side_close (side_at F tl g ms us mu i (F (i + 1))) = side_at F tl g ms us mu (i + 1) (F (i + 1)).
Proof.
  unfold side_close. rewrite side_at_len. unfold side_at at 1 2 3 4 5. cbn [x_fo x_head x_tail x_wt x_unp]. unfold side_at. f_equal.
  rewrite (seq_app (i + 1) 1), map_app. reflexivity.
Qed.

Section Seq.
  Variable n : nat.
  Variables Ff tf Fb tb : nat -> nat.
  Variables fw bw : fograph N.
  Variables mf mb : list bool.
  Variables uf ub : list unp.
  Hypothesis HF : side_in n Ff tf fw mf uf.
  Hypothesis HB : side_in n Fb tb bw mb ub.
  (** unpacking information points to edges of lower nodes *)
  Definition low_unp (i : nat) (u : unp) : Prop := (forall d, fst u = Some d -> d < Fb i) /\ (forall p, snd u = Some p -> p < Ff i).
  Hypothesis LF : forall i e, i < n -> Ff i <= e < Ff (i + 1) -> low_unp i (nth e uf no_unp).
  Hypothesis LB : forall i e, i < n -> Fb i <= e < Fb (i + 1) -> low_unp i (nth e ub no_unp).
  Let mu := new_unp mf mb.

  Lemma map_unp_at i ef eb u : i <= n -> low_unp i u -> Ff i <= ef -> Fb i <= eb -> map_unp (map_at mf ef) (map_at mb eb) u = Some (mu u).
  Proof using HF HB LF LB.
    intros Hi [H1 H2] L1 L2. pose proof (F_mono _ _ _ _ _ _ HF i n Hi ltac:(lia)) as M1. pose proof (F_mono _ _ _ _ _ _ HB i n Hi ltac:(lia)) as M2.
    pose proof (si_ms _ _ _ _ _ _ HF) as K1. pose proof (si_ms _ _ _ _ _ _ HB) as K2. destruct u as [d p]. unfold map_unp, mu, new_unp. cbn [fst snd] in *.
    assert (E1 : CCHRebuild.map_id (map_at mb eb) d = Some (option_map (new_id mb) d)).
    { destruct d as [d|]; [|reflexivity]. cbn. specialize (H1 d eq_refl). rewrite map_at_nth by lia. destruct (Nat.ltb_spec d eb); [reflexivity|lia]. }
    assert (E2 : CCHRebuild.map_id (map_at mf ef) p = Some (option_map (new_id mf) p)).
    { destruct p as [p|]; [|reflexivity]. cbn. specialize (H2 p eq_refl). rewrite map_at_nth by lia. destruct (Nat.ltb_spec p ef); [reflexivity|lia]. }
    rewrite E1, E2. reflexivity.
  Qed.
  Notation sf := (side_at Ff tf fw mf uf mu).
  Notation sb := (side_at Fb tb bw mb ub mu).

  Lemma keep_fw_ok i E eb s : i < n -> Ff i <= E < Ff (i + 1) -> Fb i <= eb ->
    keep_fw i (mkRb (sf i E) s (map_at mf E) (map_at mb eb)) (zrow fw mf uf E) = Some (mkRb (sf i (E + 1)) s (map_at mf (E + 1)) (map_at mb eb)).
  Proof using HF HB LF LB.
    intros Hi HE Hb. pose proof (F_mono _ _ _ _ _ _ HF (i + 1) n ltac:(lia) ltac:(lia)) as M1. pose proof (si_ms _ _ _ _ _ _ HF) as K1.
    unfold keep_fw, zrow. assert (Ek : nth E mf true = negb (kept mf E)) by (unfold kept; rewrite Bool.negb_involutive; auto). rewrite Ek. destruct (kept mf E) eqn:K; cbn [negb b_fmap b_fw b_bw b_bmap].
    - rewrite side_at_len, set_at_lt by (rewrite map_at_len; lia). cbn [bind].
      assert (Em : upd (map_at mf E) E (cnt mf E) = map_at mf (E + 1)). { rewrite map_at_S by lia. unfold new_id. rewrite K. reflexivity. }
      rewrite Em, (map_unp_at i) by (auto; lia). cbn [bind]. rewrite <- (side_at_push Ff tf fw mf uf mu i E K). rewrite (si_tl _ _ _ _ _ _ HF i E) by auto. reflexivity.
    - rewrite (side_at_skip Ff tf fw mf uf mu i E K), (map_at_skip mf E) by (auto; lia). reflexivity.
  Qed.
  Lemma keep_bw_ok i E ef s : i < n -> Fb i <= E < Fb (i + 1) -> Ff i <= ef ->
    keep_bw i (mkRb s (sb i E) (map_at mf ef) (map_at mb E)) (zrow bw mb ub E) = Some (mkRb s (sb i (E + 1)) (map_at mf ef) (map_at mb (E + 1))).
  Proof using HF HB LF LB.
    intros Hi HE Hf. pose proof (F_mono _ _ _ _ _ _ HB (i + 1) n ltac:(lia) ltac:(lia)) as M1. pose proof (si_ms _ _ _ _ _ _ HB) as K1.
    unfold keep_bw, zrow. assert (Ek : nth E mb true = negb (kept mb E)) by (unfold kept; rewrite Bool.negb_involutive; auto). rewrite Ek. destruct (kept mb E) eqn:K; cbn [negb b_fmap b_fw b_bw b_bmap].
    - rewrite side_at_len, set_at_lt by (rewrite map_at_len; lia). cbn [bind].
      assert (Em : upd (map_at mb E) E (cnt mb E) = map_at mb (E + 1)). { rewrite map_at_S by lia. unfold new_id. rewrite K. reflexivity. }
      rewrite Em, (map_unp_at i) by (auto; lia). cbn [bind]. rewrite <- (side_at_push Fb tb bw mb ub mu i E K). rewrite (si_tl _ _ _ _ _ _ HB i E) by auto. reflexivity.
    - rewrite (side_at_skip Fb tb bw mb ub mu i E K), (map_at_skip mb E) by (auto; lia). reflexivity.
  Qed.
  Lemma node_fw i s eb : i < n -> Fb i <= eb ->
    foldM (keep_fw i) (map (zrow fw mf uf) (seq (Ff i) (Ff (i + 1) - Ff i))) (mkRb (sf i (Ff i)) s (map_at mf (Ff i)) (map_at mb eb)) = Some (mkRb (sf i (Ff (i + 1))) s (map_at mf (Ff (i + 1))) (map_at mb eb)).
  Proof using HF HB LF LB.
    intros Hi Hb. pose proof (si_mono _ _ _ _ _ _ HF i Hi) as M.
    assert (G : forall k E, Ff i <= E -> E + k = Ff (i + 1) -> foldM (keep_fw i) (map (zrow fw mf uf) (seq E k)) (mkRb (sf i E) s (map_at mf E) (map_at mb eb)) = Some (mkRb (sf i (Ff (i + 1))) s (map_at mf (Ff (i + 1))) (map_at mb eb))).
    { induction k as [|k IH]; intros E L1 L2. { rewrite Nat.add_0_r in L2. rewrite L2. reflexivity. }
      cbn [seq map foldM]. rewrite keep_fw_ok by (auto; lia). cbn [bind]. replace (S E) with (E + 1) by lia. apply IH; lia. }
    apply G; lia.
  Qed.
  Lemma node_bw i s ef : i < n -> Ff i <= ef ->
    foldM (keep_bw i) (map (zrow bw mb ub) (seq (Fb i) (Fb (i + 1) - Fb i))) (mkRb s (sb i (Fb i)) (map_at mf ef) (map_at mb (Fb i))) = Some (mkRb s (sb i (Fb (i + 1))) (map_at mf ef) (map_at mb (Fb (i + 1)))).
  Proof using HF HB LF LB.
    intros Hi Hf. pose proof (si_mono _ _ _ _ _ _ HB i Hi) as M.
    assert (G : forall k E, Fb i <= E -> E + k = Fb (i + 1) -> foldM (keep_bw i) (map (zrow bw mb ub) (seq E k)) (mkRb s (sb i E) (map_at mf ef) (map_at mb E)) = Some (mkRb s (sb i (Fb (i + 1))) (map_at mf ef) (map_at mb (Fb (i + 1))))).
    { induction k as [|k IH]; intros E L1 L2. { rewrite Nat.add_0_r in L2. rewrite L2. reflexivity. }
      cbn [seq map foldM]. rewrite keep_bw_ok by (auto; lia). cbn [bind]. replace (S E) with (E + 1) by lia. apply IH; lia. }
    apply G; lia.
  Qed.
  Lemma rebuild_seq_ok : rebuild_seq fw bw mf mb uf ub = Some (sf n (Ff n), sb n (Fb n)).
  Proof using HF HB LF LB.
    assert (Nn : num_nodes fw = n). { unfold num_nodes. rewrite (si_fol _ _ _ _ _ _ HF). lia. }
    unfold rebuild_seq. rewrite Nn, (si_m _ _ _ _ _ _ HF), (si_m _ _ _ _ _ _ HB), <- (si_ms _ _ _ _ _ _ HF), <- (si_ms _ _ _ _ _ _ HB), <- !map_at_0.
    assert (G : forall k i, i + k = n -> foldM (rebuild_node fw bw mf mb uf ub) (seq i k) (mkRb (sf i (Ff i)) (sb i (Fb i)) (map_at mf (Ff i)) (map_at mb (Fb i))) =
      Some (mkRb (sf n (Ff n)) (sb n (Fb n)) (map_at mf (Ff n)) (map_at mb (Fb n)))).
    { induction k as [|k IH]; intros i Hi. { rewrite Nat.add_0_r in Hi. subst i. reflexivity. }
      cbn [seq foldM]. unfold rebuild_node at 1. rewrite (zipped_ok _ _ _ _ _ _ HF) by lia. cbn [bind]. rewrite node_fw by lia. cbn [bind].
      rewrite (zipped_ok _ _ _ _ _ _ HB) by lia. cbn [bind]. rewrite node_bw by (try lia; apply (si_mono _ _ _ _ _ _ HF); lia). cbn [bind b_fw b_bw b_fmap b_bmap].
      rewrite !side_at_close. replace (S i) with (i + 1) by lia. apply IH. lia. }
    specialize (G n 0 eq_refl). rewrite (si_0 _ _ _ _ _ _ HF), (si_0 _ _ _ _ _ _ HB) in G.
    assert (S0 : forall F tl g ms us, F 0 = 0 -> side_at F tl g ms us mu 0 0 = side_new).
    { intros F tl g ms us E. unfold side_at, side_new. cbn. rewrite E. reflexivity. }
    rewrite !S0 in G by (apply HF || apply HB). rewrite G. cbn [bind b_fw b_bw]. rewrite (si_ms _ _ _ _ _ _ HF), (si_ms _ _ _ _ _ _ HB). reflexivity.
  Qed.
End Seq.

(** ** The rebuilt graph of one direction *)
Lemma idr_cnt ms a k : map (cnt ms) (idr ms a k) = seq (cnt ms a) (length (idr ms a k)).
Proof.
  induction k as [|k IH]; [reflexivity|]. replace (S k) with (k + 1) by lia. rewrite idr_S, map_app, app_length, seq_app, IH. f_equal. rewrite <- cnt_add. destruct (kept ms (a + k)); reflexivity.
Qed.
Lemma idr_split ms a b E : a <= b -> b <= E -> idr ms 0 E = idr ms 0 a ++ idr ms a (b - a) ++ idr ms b (E - b).
Proof. intros H1 H2. replace E with (a + ((b - a) + (E - b))) at 1 by lia. rewrite !idr_app. cbn [Nat.add]. replace (a + (b - a)) with b by lia. reflexivity. Qed.
Lemma idr_nth {T} (f : nat -> T) ms e E : e < E -> kept ms e = true -> nth_error (map f (idr ms 0 E)) (cnt ms e) = Some (f e).
Proof.
  intros He K. rewrite (idr_split ms e (e + 1) E) by lia. replace (e + 1 - e) with 1 by lia. change (idr ms e 1) with (if kept ms e then [e] else []). rewrite K, map_app.
  rewrite nth_error_app2; rewrite map_length; unfold cnt; [|lia]. rewrite Nat.sub_diag. reflexivity.
Qed.
Lemma slice_idr {T} (f : nat -> T) ms a b E : a <= b -> b <= E -> slice (map f (idr ms 0 E)) (cnt ms a) (cnt ms b) = Some (map f (idr ms a (b - a))).
Proof.
  intros H1 H2. assert (Eb : cnt ms b = cnt ms a + length (idr ms a (b - a))) by (rewrite <- cnt_add; f_equal; lia).
  rewrite (idr_split ms a b E H1 H2), !map_app, Eb. unfold cnt. rewrite <- !(map_length f).
  generalize (map f (idr ms 0 a)) (map f (idr ms a (b - a))) (map f (idr ms b (E - b))). intros l1 l2 l3. unfold slice. rewrite !app_length.
  rewrite (proj2 (Nat.leb_le _ _)) by lia. rewrite (proj2 (Nat.leb_le _ _)) by lia. cbn [bind guard andb]. f_equal.
  rewrite skipn_app, skipn_all, Nat.sub_diag. cbn [skipn app]. replace (length l1 + length l2 - length l1) with (length l2) by lia.
  rewrite firstn_app, firstn_all, Nat.sub_diag. cbn [firstn]. apply app_nil_r.
Qed.
Lemma cnt_le ms a b : a <= b -> cnt ms a <= cnt ms b.
Proof. intros H. replace b with (a + (b - a)) by lia. rewrite cnt_add. lia. Qed.
Lemma cnt_bound ms e : cnt ms e <= e.
Proof. induction e as [|e IH]; [cbn; lia|]. replace (S e) with (e + 1) by lia. rewrite cnt_S. destruct (kept ms e); lia. Qed.
Lemma cnt_lt ms a b : a < b -> kept ms a = true -> cnt ms a < cnt ms b.
Proof. intros H K. pose proof (cnt_le ms (a + 1) b ltac:(lia)). rewrite cnt_S, K in H0. lia. Qed.
Lemma cnt_inj ms a b : kept ms a = true -> kept ms b = true -> cnt ms a = cnt ms b -> a = b.
Proof. intros Ka Kb E. destruct (Nat.lt_trichotomy a b) as [L|[L|L]]; auto; [pose proof (cnt_lt ms a b L Ka)|pose proof (cnt_lt ms b a L Kb)]; lia. Qed.

Section Rebuilt.
  Variable n : nat.
  Variables F tl : nat -> nat.
  Variable g : fograph N.
  Variable ms : list bool.
  Variable us : list unp.
  Variable mu : unp -> unp.
  Hypothesis HS : side_in n F tl g ms us.
  Let sd := side_at F tl g ms us mu n (F n).

  Lemma rebuilt_fo : (N.of_nat (n + 1) < U32MAX)%N -> (N.of_nat (F n) < U32MAX)%N -> fo_new (x_fo sd) (x_head sd) (x_wt sd) = Some (mkFo (x_fo sd) (x_head sd) (x_wt sd)).
  Proof using HS.
    intros B1 B2. unfold fo_new, sd, side_at. cbn [x_fo x_head x_wt]. rewrite !map_length, !seq_length. pose proof (cnt_bound ms (F n)) as C. unfold cnt in C.
    rewrite (proj2 (N.ltb_lt _ _)) by lia. rewrite (proj2 (N.ltb_lt (N.of_nat (length (idr ms 0 (F n)))) _)) by lia. cbn [guard bind].
    replace (n + 1) with (S n) at 1 by lia. cbn [seq map nth_error]. rewrite (si_0 _ _ _ _ _ _ HS). cbn [bind cnt idr seq filter length Nat.eqb guard].
    rewrite nth_error_map, (nth_error_nth' _ 0) by (rewrite seq_length; lia). rewrite seq_nth by lia. cbn [option_map bind]. replace (0 + (n + 1 - 1)) with n by lia. unfold cnt.
    rewrite !Nat.eqb_refl. cbn [guard bind]. rewrite ?Nat.eqb_refl. reflexivity.
  Qed.
  Lemma rebuilt_links i : i < n -> exists ls, link_iter_ids (mkFo (x_fo sd) (x_head sd) (x_wt sd)) i = Some ls /\
    forall y w e', In (y, w, e') ls <-> exists e, F i <= e < F (i + 1) /\ kept ms e = true /\ e' = cnt ms e /\ y = nth e (head g) 0 /\ w = nth e (weight g) 0%N.
  Proof using HS.
    intros Hi. pose proof (si_mono _ _ _ _ _ _ HS i Hi) as M. pose proof (F_mono _ _ _ _ _ _ HS (i + 1) n ltac:(lia) ltac:(lia)) as M2.
    exists (map (fun e => (nth e (head g) 0, nth e (weight g) 0%N, cnt ms e)) (idr ms (F i) (F (i + 1) - F i))). split.
    - unfold link_iter_ids, range. cbn [first_out head weight]. unfold sd, side_at. cbn [x_fo x_head x_wt].
      assert (Ef : forall j, j <= n -> nth_error (map (fun j => cnt ms (F j)) (seq 0 (n + 1))) j = Some (cnt ms (F j))).
      { intros j Hj. rewrite nth_error_map, (nth_error_nth' _ 0) by (rewrite seq_length; lia). rewrite seq_nth by lia. reflexivity. }
      rewrite !Ef by lia. cbn [bind]. rewrite !slice_idr by lia. cbn [bind]. f_equal.
      assert (El : cnt ms (F (i + 1)) - cnt ms (F i) = length (idr ms (F i) (F (i + 1) - F i))).
      { replace (F (i + 1)) with (F i + (F (i + 1) - F i)) at 1 by lia. rewrite cnt_add. lia. }
      rewrite El, <- idr_cnt, !combine_map2. reflexivity.
    - intros y w e'. rewrite in_map_iff. split.
      + intros (e & Ep & Hin). injection Ep as <- <- <-. apply idr_In in Hin. exists e. split; [lia|tauto].
      + intros (e & He & K & -> & -> & ->). exists e. split; auto. apply idr_In. split; [lia|auto].
  Qed.
  Lemma rebuilt_tail e : e < F n -> kept ms e = true -> nth_error (x_tail sd) (cnt ms e) = Some (tl e).
  Proof using HS. intros He K. unfold sd, side_at. cbn [x_tail]. apply idr_nth; auto. Qed.
  Lemma rebuilt_unp e : e < F n -> kept ms e = true -> nth_error (x_unp sd) (cnt ms e) = Some (mu (nth e us no_unp)).
  Proof using HS. intros He K. unfold sd, side_at. cbn [x_unp]. apply (idr_nth (fun e => mu (nth e us no_unp))); auto. Qed.
End Rebuilt.
