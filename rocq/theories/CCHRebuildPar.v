(** The parallel rebuild gives the result of the sequential one if there are exactly as many chunks as expected and the lowest node
    has a forward edge, see CCHRebuild. *)
From Verif Require Import Base BitVec BitVecProof Graph SpecGraph CCH SepTree CCHContractProof CCHBuildProof CCHCustProof CCHMetricProof CCHPerfect CCHRebuild CCHRebuildProof.

(** ** slice::chunks *)
Lemma chunks_heads size : 0 < size -> forall f l, length l <= f ->
  mapM (fun c : list nat => nth_error c 0) (chunks f size l) = Some (map (fun j => nth (j * size) l 0) (seq 0 ((length l + size - 1) / size))).
Proof.
  intros Hs. induction f as [|f IH]; intros l Hl.
  - destruct l; [|cbn in Hl; lia]. cbn [chunks mapM length]. rewrite Nat.div_small by lia. reflexivity.
  - destruct l as [|x l]. { cbn [chunks mapM length]. rewrite Nat.div_small by lia. reflexivity. }
    cbn [chunks mapM]. destruct size as [|size]; [lia|]. cbn [firstn nth_error bind]. rewrite IH by (rewrite skipn_length; cbn [length] in *; lia). cbn [bind]. f_equal.
    assert (Ec : (length (x :: l) + S size - 1) / S size = S ((length (skipn (S size) (x :: l)) + S size - 1) / S size)).
    { rewrite skipn_length. cbn [length]. destruct (Nat.le_gt_cases (S size) (S (length l))) as [L|L].
      - replace (S (length l) + S size - 1) with ((S (length l) - S size + S size - 1) + 1 * S size) by lia. rewrite Nat.div_add by lia. lia.
      - replace (S (length l) - S size) with 0 by lia. rewrite (Nat.div_small (0 + S size - 1)) by lia. symmetry. apply (Nat.div_unique _ (S size) 1 (length l)); lia. }
    rewrite Ec. cbn [seq]. rewrite map_cons, <- seq_shift, map_map. f_equal. apply map_ext. intros j. rewrite nth_skipn_add. reflexivity.
Qed.

(** ** One direction *)
Section Chunked.
  Variable n : nat.
  Variables F tl : nat -> nat.
  Variable g : fograph N.
  Variable ms : list bool.
  Variable us : list unp.
  Hypothesis HS : side_in n F tl g ms us.
  Variable k : nat.
  Variable b : nat -> nat.
  Variable firsts : list nat.
  Hypothesis B0 : b 0 = 0.
  Hypothesis Bk : b k = n.
  Hypothesis Bm : forall i, i < k -> b i <= b (i + 1).
  Hypothesis Bf : forall i, i <= k -> nth_error firsts i = Some (b i).

  Lemma b_mono i j : i <= j -> j <= k -> b i <= b j.
  Proof using HS B0 Bk Bm Bf. induction 1 as [|j L IH]; intros Hj; auto. specialize (IH ltac:(lia)). pose proof (Bm j ltac:(lia)). replace (S j) with (j + 1) by lia. lia. Qed.
  Lemma b_n i : i <= k -> b i <= n.
  Proof using HS B0 Bk Bm Bf. intros H. rewrite <- Bk. apply b_mono; lia. Qed.
  Lemma F_le i j : i <= j -> j <= n -> F i <= F j.
  Proof using HS B0 Bk Bm Bf. apply (F_mono _ _ _ _ _ _ HS). Qed.
  Let E i := F (b i).
  Lemma E_step i : i < k -> E i <= E (i + 1) /\ E (i + 1) <= F n.
  Proof using HS B0 Bk Bm Bf. intros H. pose proof (Bm i H). pose proof (b_n (i + 1) ltac:(lia)). split; apply F_le; lia. Qed.

  Lemma filter_kept a c : a + c <= length ms -> length (filter negb (firstn c (skipn a ms))) = length (idr ms a c).
  Proof using HS B0 Bk Bm Bf.
    intros L. unfold idr. assert (Ef : firstn c (skipn a ms) = map (fun e => nth e ms true) (seq a c)).
    { apply (nth_ext _ _ true true). { rewrite firstn_length, skipn_length, map_length, seq_length. lia. }
      intros i Hi. rewrite firstn_length, skipn_length in Hi. rewrite nth_firstn_lt by lia. rewrite nth_skipn_add.
      rewrite (nth_indep (map (fun e => nth e ms true) (seq a c)) true ((fun e => nth e ms true) 0)) by (rewrite map_length, seq_length; lia). rewrite (map_nth (fun e => nth e ms true)), seq_nth by lia. reflexivity. }
    rewrite Ef. generalize (seq a c). induction l as [|x l IH]; [reflexivity|]. cbn [map filter]. unfold kept at 1. destruct (nth x ms true); cbn; auto.
  Qed.
  Lemma chunk_count_ok i : i < k -> chunk_count (first_out g) ms firsts i = Some (cnt ms (E (i + 1)) - cnt ms (E i)).
  Proof using HS B0 Bk Bm Bf.
    intros H. destruct (E_step i H) as [L1 L2]. unfold chunk_count. rewrite !Bf by lia. cbn [bind].
    pose proof (b_n i ltac:(lia)). pose proof (b_n (i + 1) ltac:(lia)). rewrite !(si_fo _ _ _ _ _ _ HS) by auto. cbn [bind]. fold (E i) (E (i + 1)).
    pose proof (si_ms _ _ _ _ _ _ HS) as Lm. unfold slice. rewrite (proj2 (Nat.leb_le (E i) _)), (proj2 (Nat.leb_le (E (i + 1)) _)) by lia. cbn [andb guard bind]. f_equal.
    rewrite filter_kept by lia. replace (E (i + 1)) with (E i + (E (i + 1) - E i)) at 2 by lia. rewrite cnt_add. lia.
  Qed.
  Lemma prefixes_ok : forall j i acc, i + j <= k -> acc = cnt ms (E i) ->
    prefixes acc (map (fun i => cnt ms (E (i + 1)) - cnt ms (E i)) (seq i j)) = map (fun i => cnt ms (E i)) (seq i (j + 1)).
  Proof using HS B0 Bk Bm Bf.
    induction j as [|j IH]; intros i acc Hi ->; [reflexivity|]. cbn [seq map prefixes Nat.add]. f_equal. apply (IH (S i)); [lia|].
    destruct (E_step i ltac:(lia)) as [L1 _]. pose proof (cnt_le ms _ _ L1). replace (S i) with (i + 1) by lia. lia.
  Qed.

  Definition ent (e : nat) : nat * nat * N * unp := (nth e (head g) 0, tl e, nth e (weight g) 0%N, nth e us no_unp).
  Definition mpart (a c e : nat) : list nat := map (fun i => if i <? e then new_id ms i else length ms) (seq a c).
  Lemma mpart_len a c e : length (mpart a c e) = c.
  Proof using HS B0 Bk Bm Bf. unfold mpart. rewrite map_length, seq_length. reflexivity. Qed.
  Lemma mpart_nth a c e i : i < c -> nth_error (mpart a c e) i = Some (if a + i <? e then new_id ms (a + i) else length ms).
  Proof using HS B0 Bk Bm Bf. intros H. unfold mpart. rewrite nth_error_map, (nth_error_nth' _ 0) by (rewrite seq_length; auto). rewrite seq_nth by auto. reflexivity. Qed.
  Lemma mpart_0 a c : mpart a c a = repeat (length ms) c.
  Proof using HS B0 Bk Bm Bf.
    apply list_ext. intros i. rewrite nth_error_repeat. destruct (Nat.ltb_spec i c) as [L|L].
    - rewrite mpart_nth by auto. destruct (Nat.ltb_spec (a + i) a); [lia|reflexivity].
    - apply nth_error_None. rewrite mpart_len. auto.
  Qed.
  Lemma mpart_S a c e : a <= e -> e < a + c -> mpart a c (e + 1) = upd (mpart a c e) (e - a) (new_id ms e).
  Proof using HS B0 Bk Bm Bf.
    intros H1 H2. apply list_ext. intros i. destruct (Nat.lt_ge_cases i c) as [L|L].
    - rewrite mpart_nth by auto. destruct (Nat.eq_dec i (e - a)) as [->|Ne].
      + rewrite nth_error_upd_eq by (rewrite mpart_len; auto). replace (a + (e - a)) with e by lia. destruct (Nat.ltb_spec e (e + 1)); [auto|lia].
      + rewrite nth_error_upd_neq, mpart_nth by auto. destruct (Nat.ltb_spec (a + i) (e + 1)), (Nat.ltb_spec (a + i) e); auto; lia.
    - transitivity (@None nat); [|symmetry]; apply nth_error_None; rewrite ?upd_length, mpart_len; auto.
  Qed.
  Lemma mpart_skip a c e : kept ms e = false -> mpart a c (e + 1) = mpart a c e.
  Proof using HS B0 Bk Bm Bf.
    intros K. unfold mpart. apply map_ext. intros i. unfold new_id. destruct (Nat.eq_dec i e) as [->|Ne].
    - rewrite K. destruct (e <? e + 1), (e <? e); reflexivity.
    - destruct (Nat.ltb_spec i (e + 1)), (Nat.ltb_spec i e); auto; lia.
  Qed.

  Section Chunk.
    Variable i : nat.
    Hypothesis Hi : i < k.
    Let A := E i.
    Let ne := E (i + 1) - E i.
    Let cap := cnt ms (E (i + 1)) - cnt ms (E i).
    Definition st_at (fo : list nat) (e : nat) : rchunk := mkCh fo (map ent (idr ms A (e - A))) (mpart A ne e).
    Lemma before_len e : A <= e -> cnt ms A + length (map ent (idr ms A (e - A))) = cnt ms e.
    Proof using HS B0 Bk Bm Bf Hi. intros L. rewrite map_length, <- cnt_add. f_equal. lia. Qed.
    Lemma chunk_edge_ok node fo e : node < n -> F node <= e < F (node + 1) -> A <= e -> e < E (i + 1) ->
      chunk_edge (cnt ms A) cap A node (st_at fo e) (zrow g ms us e) = Some (st_at fo (e + 1)).
    Proof using HS B0 Bk Bm Bf Hi.
      intros Hn He L1 L2. unfold chunk_edge, zrow. assert (Ek : nth e ms true = negb (kept ms e)) by (unfold kept; rewrite Bool.negb_involutive; auto). rewrite Ek.
      pose proof (before_len e L1) as BL. destruct (kept ms e) eqn:K; cbn [negb st_at h_ent h_map h_fo].
      - unfold st_at at 1. cbn [h_ent]. assert (LC : length (map ent (idr ms A (e - A))) < cap). { pose proof (cnt_lt ms e (E (i + 1)) L2 K). pose proof (cnt_le ms A e L1). unfold cap. fold A. lia. }
        rewrite (proj2 (Nat.ltb_lt _ _) LC). cbn [guard bind]. unfold csub. rewrite (proj2 (Nat.leb_le A e) L1). cbn [bind]. cbn [st_at h_ent h_map h_fo].
        rewrite set_at_lt by (rewrite mpart_len; unfold ne; fold A; lia). cbn [bind]. rewrite BL. unfold st_at. f_equal. f_equal.
        + replace (e + 1 - A) with (e - A + 1) by lia. rewrite idr_S. replace (A + (e - A)) with e by lia. rewrite K, map_app. cbn [map]. unfold ent at 3. rewrite (si_tl _ _ _ _ _ _ HS node e Hn He). reflexivity.
        + rewrite mpart_S by (unfold ne; fold A; lia). f_equal. unfold new_id. rewrite K. reflexivity.
      - unfold st_at. f_equal. f_equal.
        + replace (e + 1 - A) with (e - A + 1) by lia. rewrite idr_S. replace (A + (e - A)) with e by lia. rewrite K, app_nil_r. reflexivity.
        + symmetry. apply mpart_skip. auto.
    Qed.
    Lemma chunk_node_ok j : b i <= j < b (i + 1) -> forall fo, fo = map (fun j => cnt ms (F j)) (seq (b i) (j - b i)) ->
      chunk_node g ms us (cnt ms A) cap A (st_at fo (F j)) j = Some (st_at (map (fun j => cnt ms (F j)) (seq (b i) (j + 1 - b i))) (F (j + 1))).
    Proof using HS B0 Bk Bm Bf Hi.
      intros Hj fo Efo. pose proof (b_n (i + 1) ltac:(lia)) as Bn. unfold chunk_node. rewrite (zipped_ok _ _ _ _ _ _ HS) by lia. cbn [bind].
      pose proof (F_le (b i) j ltac:(lia) ltac:(lia)) as L1. fold (E i) in L1. fold A in L1. pose proof (F_le (j + 1) (b (i + 1)) ltac:(lia) ltac:(lia)) as L2. fold (E (i + 1)) in L2.
      pose proof (F_le j (j + 1) ltac:(lia) ltac:(lia)) as L3.
      assert (E1 : mkCh (h_fo (st_at fo (F j)) ++ [cnt ms A + length (h_ent (st_at fo (F j)))]) (h_ent (st_at fo (F j))) (h_map (st_at fo (F j))) = st_at (map (fun j => cnt ms (F j)) (seq (b i) (j + 1 - b i))) (F j)).
      { cbn [st_at h_fo h_ent h_map]. rewrite before_len by auto. unfold st_at. f_equal. rewrite Efo. replace (j + 1 - b i) with (j - b i + 1) by lia. rewrite seq_app, map_app. cbn [seq map]. replace (b i + (j - b i)) with j by lia. reflexivity. }
      rewrite E1. generalize (map (fun j0 => cnt ms (F j0)) (seq (b i) (j + 1 - b i))). intros fo'.
      assert (G : forall c e, F j <= e -> e + c = F (j + 1) -> foldM (chunk_edge (cnt ms A) cap A j) (map (zrow g ms us) (seq e c)) (st_at fo' e) = Some (st_at fo' (F (j + 1)))).
      { induction c as [|c IH]; intros e Le Ee. { rewrite Nat.add_0_r in Ee. rewrite Ee. reflexivity. }
        cbn [seq map foldM]. rewrite chunk_edge_ok by lia. cbn [bind]. replace (S e) with (e + 1) by lia. apply IH; lia. }
      apply G; lia.
    Qed.
    Lemma chunk_run_ok pre : nth_error pre i = Some (cnt ms (E i)) -> nth_error pre (i + 1) = Some (cnt ms (E (i + 1))) ->
      chunk_run g ms us firsts pre i = Some (mkCh (map (fun j => cnt ms (F j)) (seq (b i) (b (i + 1) - b i))) (map ent (idr ms A ne)) (map (new_id ms) (seq A ne))).
    Proof using HS B0 Bk Bm Bf Hi.
      intros P1 P2. pose proof (b_n (i + 1) ltac:(lia)) as Bn. pose proof (Bm i Hi) as Bi. destruct (E_step i Hi) as [L1 L2].
      unfold chunk_run. rewrite !Bf by lia. cbn [bind]. rewrite !(si_fo _ _ _ _ _ _ HS) by lia. cbn [bind]. fold (E i) (E (i + 1)).
      unfold csub. rewrite (proj2 (Nat.leb_le _ _) Bi), (proj2 (Nat.leb_le _ _) L1). cbn [bind]. rewrite P1. cbn [bind]. rewrite P2. cbn [bind].
      pose proof (cnt_le ms _ _ L1) as LC. rewrite (proj2 (Nat.leb_le _ _) LC). cbn [bind].
      rewrite (si_m _ _ _ _ _ _ HS), <- (si_ms _ _ _ _ _ _ HS). change (E (i + 1) - E i) with ne. fold cap.
      assert (I0 : mkCh [] [] (repeat (length ms) ne) = st_at [] (F (b i))).
      { unfold st_at. fold (E i). fold A. rewrite Nat.sub_diag, mpart_0. reflexivity. }
      change (cnt ms (E i)) with (cnt ms A). change (E i) with A. rewrite I0.
      assert (G : forall c j fo, b i <= j -> j + c = b (i + 1) -> fo = map (fun j => cnt ms (F j)) (seq (b i) (j - b i)) ->
        foldM (chunk_node g ms us (cnt ms A) cap A) (seq j c) (st_at fo (F j)) = Some (st_at (map (fun j => cnt ms (F j)) (seq (b i) (b (i + 1) - b i))) (F (b (i + 1))))).
      { induction c as [|c IH]; intros j fo Lj Ej ->. { rewrite Nat.add_0_r in Ej. rewrite Ej. reflexivity. }
        cbn [seq foldM]. rewrite chunk_node_ok by (auto; lia). cbn [bind]. replace (S j) with (j + 1) by lia. apply IH; auto; lia. }
      rewrite (G (b (i + 1) - b i) (b i) []); [|lia|lia|rewrite Nat.sub_diag; reflexivity]. unfold st_at. f_equal. f_equal.
      unfold mpart. apply map_ext_in. intros e He. apply in_seq in He. fold (E (i + 1)). destruct (Nat.ltb_spec e (E (i + 1))); [reflexivity|unfold ne, A in He; lia].
    Qed.
  End Chunk.

  (** putting the chunks together *)
  Lemma concat_seq {T} (f : nat -> T) (h : nat -> nat) (Hh : forall i, i < k -> h i <= h (i + 1)) : forall j, j <= k ->
    concat (map (fun i => map f (seq (h i) (h (i + 1) - h i))) (seq 0 j)) = map f (seq (h 0) (h j - h 0)).
  Proof using HS B0 Bk Bm Bf.
    assert (Hm : forall i j, i <= j -> j <= k -> h i <= h j).
    { intros i0 j0. induction 1 as [|j1 L IH]; intros Hj; auto. specialize (IH ltac:(lia)). pose proof (Hh j1 ltac:(lia)). replace (S j1) with (j1 + 1) by lia. lia. }
    induction j as [|j IH]; intros Hj. { cbn. rewrite Nat.sub_diag. reflexivity. }
    replace (S j) with (j + 1) by lia. rewrite seq_app, map_app, concat_app, IH by lia. cbn [Nat.add seq map concat]. rewrite app_nil_r, <- map_app. f_equal.
    pose proof (Hm 0 j ltac:(lia) ltac:(lia)). pose proof (Hh j ltac:(lia)). replace (h (j + 1) - h 0) with ((h j - h 0) + (h (j + 1) - h j)) by lia. rewrite seq_app. f_equal. f_equal. lia.
  Qed.
  Lemma concat_idr {T} (f : nat -> T) : forall j, j <= k -> concat (map (fun i => map f (idr ms (E i) (E (i + 1) - E i))) (seq 0 j)) = map f (idr ms 0 (E j)).
  Proof using HS B0 Bk Bm Bf.
    induction j as [|j IH]; intros Hj. { cbn. unfold E. rewrite B0, (si_0 _ _ _ _ _ _ HS). reflexivity. }
    replace (S j) with (j + 1) by lia. rewrite seq_app, map_app, concat_app, IH by lia. cbn [Nat.add seq map concat]. rewrite app_nil_r, <- map_app. f_equal.
    destruct (E_step j ltac:(lia)) as [L1 _]. replace (E (j + 1)) with (E j + (E (j + 1) - E j)) at 2 by lia. rewrite idr_app. reflexivity.
  Qed.

  Lemma mapM_map {T U} (f : T -> option U) (h : T -> U) l : (forall x, In x l -> f x = Some (h x)) -> mapM f l = Some (map h l).
  Proof using. induction l as [|x l IH]; intros H; [reflexivity|]. cbn. rewrite (H x (or_introl eq_refl)). cbn [bind]. rewrite IH by (intros; apply H; right; auto). reflexivity. Qed.

  Lemma rebuild_side_ok : rebuild_side g ms us firsts k = Some (side_at F tl g ms us (fun u => u) n (F n), map_at ms (F n)).
  Proof using HS B0 Bk Bm Bf.
    unfold rebuild_side. rewrite (mapM_map _ (fun i => cnt ms (E (i + 1)) - cnt ms (E i))) by (intros i Hi; apply in_seq in Hi; apply chunk_count_ok; lia). cbn [bind].
    rewrite (prefixes_ok k 0 0) by (try lia; unfold E; rewrite B0, (si_0 _ _ _ _ _ _ HS); reflexivity).
    assert (PN : forall i, i <= k -> nth_error (map (fun i => cnt ms (E i)) (seq 0 (k + 1))) i = Some (cnt ms (E i))).
    { intros i Hi. rewrite nth_error_map, (nth_error_nth' _ 0) by (rewrite seq_length; lia). rewrite seq_nth by lia. reflexivity. }
    rewrite (mapM_map _ (fun i => mkCh (map (fun j => cnt ms (F j)) (seq (b i) (b (i + 1) - b i))) (map ent (idr ms (E i) (E (i + 1) - E i))) (map (new_id ms) (seq (E i) (E (i + 1) - E i))))).
    2: { intros i Hi. apply in_seq in Hi. apply chunk_run_ok; try apply PN; lia. }
    cbn [bind]. rewrite !map_map. cbn [h_fo h_map h_ent].
    rewrite (concat_seq (fun j => cnt ms (F j)) b Bm k (le_n k)), (concat_seq (new_id ms) E (fun i H => proj1 (E_step i H)) k (le_n k)), (concat_idr ent k (le_n k)).
    assert (E0 : E 0 = 0) by (unfold E; rewrite B0; apply (si_0 _ _ _ _ _ _ HS)). assert (Ek : E k = F n) by (unfold E; rewrite Bk; reflexivity).
    rewrite B0, Bk, E0, Ek, !Nat.sub_0_r.
    unfold fill. rewrite (si_fol _ _ _ _ _ _ HS), (si_m _ _ _ _ _ _ HS), !map_length, !seq_length.
    rewrite (proj2 (Nat.leb_le n (n + 1))) by lia. cbn [guard bind]. rewrite (proj2 (Nat.leb_le (F n) (F n))) by lia. cbn [guard bind]. rewrite PN by lia. cbn [bind].
    rewrite ?Ek. pose proof (cnt_bound ms (F n)) as CB. unfold cnt at 1 in CB. rewrite (proj2 (Nat.leb_le _ _) CB). cbn [guard bind].
    assert (Ef : firstn (cnt ms (F n)) (map ent (idr ms 0 (F n)) ++ repeat (0, 0, 0%N, no_unp) (F n - length (idr ms 0 (F n)))) = map ent (idr ms 0 (F n))).
    { rewrite firstn_app, map_length. fold (cnt ms (F n)). rewrite Nat.sub_diag. cbn [firstn]. rewrite app_nil_r. apply firstn_all2. rewrite map_length. unfold cnt. lia. }
    rewrite Ef, !Nat.sub_diag. cbn [repeat]. rewrite app_nil_r. replace (n + 1 - n) with 1 by lia. cbn [repeat]. replace (n + 1 - 1) with n by lia.
    rewrite set_at_lt by (rewrite app_length, map_length, seq_length; cbn; lia). cbn [bind]. rewrite map_length.
    f_equal. f_equal.
    - unfold side_at. rewrite !map_map. f_equal.
      + rewrite seq_app, map_app. cbn [Nat.add seq map]. fold (cnt ms (F n)). apply list_ext. intros i. destruct (Nat.lt_trichotomy i n) as [L|[L|L]].
        * rewrite nth_error_upd_neq by lia. rewrite !nth_error_app1 by (rewrite map_length, seq_length; lia). reflexivity.
        * subst i. rewrite nth_error_upd_eq by (rewrite app_length, map_length, seq_length; cbn; lia). rewrite nth_error_app2; rewrite map_length, seq_length; [|lia]. rewrite Nat.sub_diag. reflexivity.
        * transitivity (@None nat); [|symmetry]; apply nth_error_None; rewrite ?upd_length, app_length, map_length, seq_length; cbn; lia.

    - unfold map_at. rewrite (si_ms _ _ _ _ _ _ HS). apply map_ext_in. intros e He. apply in_seq in He. destruct (Nat.ltb_spec e (F n)); [reflexivity|lia].
  Qed.
End Chunked.

(** ** Both directions *)
Lemma side_map_ok F tl g ms us n E fms bms fmap bmap : (forall e, In e (idr ms 0 E) -> map_unp fmap bmap (nth e us no_unp) = Some (new_unp fms bms (nth e us no_unp))) ->
  side_map fmap bmap (side_at F tl g ms us (fun u => u) n E) = Some (side_at F tl g ms us (new_unp fms bms) n E).
Proof.
  intros H. unfold side_map, side_at. cbn [x_fo x_head x_tail x_wt x_unp].
  assert (G : mapM (map_unp fmap bmap) (map (fun e => nth e us no_unp) (idr ms 0 E)) = Some (map (fun e => new_unp fms bms (nth e us no_unp)) (idr ms 0 E))).
  { revert H. generalize (idr ms 0 E). induction l as [|x l IH]; intros H; [reflexivity|]. cbn [map mapM]. rewrite (H x (or_introl eq_refl)). cbn [bind]. rewrite IH by (intros; apply H; right; auto). reflexivity. }
  rewrite G. reflexivity.
Qed.

(** the chunk size and the nodes where the chunks begin *)
Definition chunk_size (m k : nat) : nat := (m + k - 1) / k.
Lemma chunk_number m k : 0 < k -> (k - 1) * chunk_size m k < m -> (m + chunk_size m k - 1) / chunk_size m k = k.
Proof.
  intros Hk H. assert (S1 : m <= k * chunk_size m k).
  { unfold chunk_size. pose proof (Nat.div_mod (m + k - 1) k ltac:(lia)). pose proof (Nat.mod_upper_bound (m + k - 1) k ltac:(lia)). lia. }
  set (sz := chunk_size m k) in *. assert (0 < sz). { destruct sz; [|lia]. rewrite Nat.mul_0_r in *. lia. }
  symmetry. apply (Nat.div_unique _ sz k (m + sz - 1 - k * sz)); [|nia]. nia.
Qed.
Lemma chunk_number_lt m k : 0 < k -> 0 < chunk_size m k -> m <= (k - 1) * chunk_size m k -> (m + chunk_size m k - 1) / chunk_size m k < k.
Proof. intros Hk H0 H. apply Nat.div_lt_upper_bound; [lia|]. set (sz := chunk_size m k) in *. nia. Qed.

Section Par.
  Variable n : nat.
  Variables Ff tf Fb tb : nat -> nat.
  Variables fw bw : fograph N.
  Variables mf mb : list bool.
  Variables uf ub : list unp.
  Hypothesis HF : side_in n Ff tf fw mf uf.
  Hypothesis HB : side_in n Fb tb bw mb ub.
  Hypothesis LF : forall i e, i < n -> Ff i <= e < Ff (i + 1) -> low_unp Ff Fb i (nth e uf no_unp).
  Hypothesis LB : forall i e, i < n -> Fb i <= e < Fb (i + 1) -> low_unp Ff Fb i (nth e ub no_unp).
  Variable tails : list nat.
  Hypothesis Ht : tails = map tf (seq 0 (Ff n)).
  Variable k : nat.
  Hypothesis Hk : 0 < k.
  Let size := chunk_size (Ff n) k.

  Lemma tails_len : length tails = Ff n.
  Proof using HF HB LF LB Ht Hk. rewrite Ht, map_length, seq_length. reflexivity. Qed.
  Lemma num_n : num_nodes fw = n.
  Proof using HF HB LF LB Ht Hk. unfold num_nodes. rewrite (si_fol _ _ _ _ _ _ HF). lia. Qed.
  (** every edge belongs to a node *)
  Lemma edge_node (F tl : nat -> nat) g ms us e : side_in n F tl g ms us -> e < F n -> exists i, i < n /\ F i <= e < F (i + 1).
  Proof using HF HB LF LB Ht Hk.
    intros HS. assert (G : forall j, j <= n -> e < F j -> exists i, i < j /\ F i <= e < F (i + 1)).
    { induction j as [|j IH]; intros Hj He. { rewrite (si_0 _ _ _ _ _ _ HS) in He. lia. }
      destruct (Nat.lt_ge_cases e (F j)) as [L|L]. { destruct IH as (i & Hi & K); [lia|auto|]. exists i. split; [lia|auto]. }
      exists j. split; [lia|]. replace (j + 1) with (S j) by lia. auto. }
    intros He. destruct (G n ltac:(lia) He) as (i & Hi & K). eauto.
  Qed.
  Lemma tl_lt e : e < Ff n -> tf e < n.
  Proof using HF HB LF LB Ht Hk. intros He. destruct (edge_node _ _ _ _ _ e HF He) as (i & Hi & K). rewrite (si_tl _ _ _ _ _ _ HF i e Hi K). auto. Qed.
  Lemma tl_mono e e' : e <= e' -> e' < Ff n -> tf e <= tf e'.
  Proof using HF HB LF LB Ht Hk.
    intros L He'. destruct (edge_node _ _ _ _ _ e HF ltac:(lia)) as (i & Hi & K). destruct (edge_node _ _ _ _ _ e' HF He') as (j & Hj & K').
    rewrite (si_tl _ _ _ _ _ _ HF i e Hi K), (si_tl _ _ _ _ _ _ HF j e' Hj K'). destruct (Nat.le_gt_cases i j) as [|G]; [auto|].
    pose proof (F_mono _ _ _ _ _ _ HF (j + 1) i ltac:(lia) ltac:(lia)). lia.
  Qed.
  Lemma first_nodes_gen : first_nodes tails n k = if size =? 0 then None else Some (map (fun j => nth (j * size) tails 0) (seq 0 ((Ff n + size - 1) / size)) ++ [n]).
  Proof using HF HB LF LB Ht Hk.
    unfold first_nodes. rewrite tails_len. fold (chunk_size (Ff n) k). fold size. destruct (Nat.eqb_spec size 0) as [Z|Z]; [reflexivity|]. cbn [negb guard bind].
    rewrite (chunks_heads size) by (rewrite ?tails_len; lia). rewrite tails_len. reflexivity.
  Qed.

  Lemma rebuild_par_ok : (k - 1) * size < Ff n -> Ff 0 < Ff 1 -> rebuild_par k tails fw bw mf mb uf ub = rebuild_seq fw bw mf mb uf ub.
  Proof using HF HB LF LB Ht Hk.
    intros Hc H0. pose proof (chunk_number (Ff n) k Hk Hc) as CN. fold size in CN.
    assert (Sz : 0 < size). { destruct size eqn:Es; [|lia]. unfold chunk_size in size. assert (Z : (Ff n + k - 1) / k = 0) by (unfold size in Es; auto). apply Nat.div_small_iff in Z; lia. }
    assert (Hn : 0 < n). { destruct n; [|lia]. rewrite (si_0 _ _ _ _ _ _ HF) in Hc. lia. }
    rewrite (rebuild_seq_ok n Ff tf Fb tb fw bw mf mb uf ub HF HB LF LB).
    unfold rebuild_par. rewrite num_n, first_nodes_gen, (proj2 (Nat.eqb_neq size 0)) by lia. cbn [bind]. rewrite CN.
    set (firsts := map (fun j => nth (j * size) tails 0) (seq 0 k) ++ [n]). set (b := fun i => if i <? k then tf (i * size) else n).
    assert (In_m : forall i, i < k -> i * size < Ff n) by (intros i Hi; nia).
    assert (B0 : b 0 = 0). { unfold b. rewrite (proj2 (Nat.ltb_lt 0 k) Hk). cbn [Nat.mul]. apply (si_tl _ _ _ _ _ _ HF 0 0 Hn). rewrite (si_0 _ _ _ _ _ _ HF) in *. cbn [Nat.add]. lia. }
    assert (Bk : b k = n) by (unfold b; rewrite Nat.ltb_irrefl; reflexivity).
    assert (Bm : forall i, i < k -> b i <= b (i + 1)).
    { intros i Hi. unfold b. rewrite (proj2 (Nat.ltb_lt i k) Hi). destruct (Nat.ltb_spec (i + 1) k) as [L|L].
      - apply tl_mono; [nia|apply In_m; auto].
      - pose proof (tl_lt (i * size) (In_m i Hi)). lia. }
    assert (Bf : forall i, i <= k -> nth_error firsts i = Some (b i)).
    { intros i Hi. unfold firsts, b. destruct (Nat.ltb_spec i k) as [L|L].
      - rewrite nth_error_app1 by (rewrite map_length, seq_length; auto). rewrite nth_error_map, (nth_error_nth' _ 0) by (rewrite seq_length; auto). rewrite seq_nth by auto. cbn [option_map Nat.add]. f_equal.
        rewrite Ht. rewrite (nth_indep _ 0 (tf 0)) by (rewrite map_length, seq_length; apply In_m; auto). rewrite map_nth, seq_nth by (apply In_m; auto). reflexivity.
      - assert (i = k) by lia. subst i. rewrite nth_error_app2; rewrite map_length, seq_length; [|lia]. rewrite Nat.sub_diag. reflexivity. }
    rewrite (rebuild_side_ok n Ff tf fw mf uf HF k b firsts B0 Bk Bm Bf). cbn [bind]. rewrite (rebuild_side_ok n Fb tb bw mb ub HB k b firsts B0 Bk Bm Bf). cbn [bind].
    assert (MU : forall i u, i < n -> low_unp Ff Fb i u -> map_unp (map_at mf (Ff n)) (map_at mb (Fb n)) u = Some (new_unp mf mb u)).
    { intros i u Hi Hu. apply (map_unp_at n Ff tf Fb tb fw bw mf mb uf ub HF HB LF LB i); auto; [lia|apply (F_mono _ _ _ _ _ _ HF); lia|apply (F_mono _ _ _ _ _ _ HB); lia]. }
    rewrite (side_map_ok Ff tf fw mf uf n (Ff n) mf mb). 2: { intros e He. apply idr_In in He. destruct He as [He _]. destruct (edge_node _ _ _ _ _ e HF ltac:(lia)) as (i & Hi & K). apply (MU i); auto. }
    cbn [bind]. rewrite (side_map_ok Fb tb bw mb ub n (Fb n) mf mb). 2: { intros e He. apply idr_In in He. destruct He as [He _]. destruct (edge_node _ _ _ _ _ e HB ltac:(lia)) as (i & Hi & K). apply (MU i); auto. }
    reflexivity.
  Qed.

  (** fewer chunks than closures *)
  Lemma rebuild_par_panics : Ff n <= (k - 1) * size -> rebuild_par k tails fw bw mf mb uf ub = None.
  Proof using HF HB LF LB Ht Hk.
    intros Hc. unfold rebuild_par. rewrite num_n, first_nodes_gen. destruct (Nat.eqb_spec size 0) as [Z|Z]; [reflexivity|]. cbn [bind].
    pose proof (chunk_number_lt (Ff n) k Hk ltac:(fold size; lia) Hc) as CN. fold size in CN. set (q := (Ff n + size - 1) / size) in *.
    set (firsts := map (fun j => nth (j * size) tails 0) (seq 0 q) ++ [n]).
    assert (Lf : length firsts = q + 1) by (unfold firsts; rewrite app_length, map_length, seq_length; reflexivity).
    assert (C : mapM (chunk_count (first_out fw) mf firsts) (seq 0 k) = None).
    { replace k with (q + S (k - q - 1)) by lia. rewrite seq_app, mapM_app. cbn [Nat.add seq]. destruct (mapM (chunk_count (first_out fw) mf firsts) (seq 0 q)); [cbn [bind]|reflexivity]. cbn [mapM].
      assert (Cq : chunk_count (first_out fw) mf firsts q = None). { unfold chunk_count. destruct (nth_error firsts q); cbn [bind]; [|reflexivity]. rewrite (proj2 (nth_error_None firsts (q + 1))) by lia. reflexivity. }
      rewrite Cq. reflexivity. }
    unfold rebuild_side. rewrite C. reflexivity.
  Qed.
End Par.
