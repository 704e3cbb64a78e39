(** TDGraph::new builds valid functions; evaluation on graphs; live overlays; FIFO. *)
From Verif Require Import Base SpecBits BitVec SpecPQ SpecGraph IndexHeap IndexHeapProof TsVec TsVecProof Graph GraphProof Dijkstra LoopProof DijkstraRef DijkstraProof DijServer DijServerProof SpecTTF PLF PLFProof PLFRange PLFAverage TDGraph.

Lemma consec_app l1 l2 p q : consec (l1 ++ l2) p q ->
  consec l1 p q \/ consec l2 p q \/ (nth_error l1 (length l1 - 1) = Some p /\ nth_error l2 0 = Some q).
Proof.
  intros (i & A & B). destruct (Nat.lt_total (S i) (length l1)) as [H|[H|H]].
  - left. exists i. rewrite nth_error_app1 in A, B by lia. auto.
  - right. right. rewrite nth_error_app1 in A by lia. rewrite nth_error_app2 in B by lia. rewrite H, Nat.sub_diag in B.
    replace (length l1 - 1) with i by lia. auto.
  - right. left. exists (i - length l1). rewrite nth_error_app2 in A, B by lia. replace (S (i - length l1)) with (S i - length l1) by lia. auto.
Qed.

Lemma consec_1 x p q : ~ consec [x] p q.
Proof. intros ([|[|]] & A & B); discriminate. Qed.
Lemma consec_0 p q : ~ consec [] p q.
Proof. intros ([|] & A & B); discriminate. Qed.

Lemma last_nth {A} (l : list A) d : l <> [] -> nth_error l (length l - 1) = Some (last l d).
Proof.
  induction l as [|x [|y l] IH]; [congruence|reflexivity|]. intros _.
  change (last (x :: y :: l) d) with (last (y :: l) d). rewrite <- IH by discriminate. cbn [length]. replace (S (S (length l)) - 1) with (S (S (length l) - 1)) by lia. reflexivity.
Qed.

Lemma raw_asc P r i j p q : raw_ttf P r -> i < j -> nth_error r i = Some p -> nth_error r j = Some q -> (fst p < fst q)%N.
Proof.
  intros R L Hp. revert q. induction L as [|j L IH]; intros q Hq.
  - eapply (rt_asc _ _ R). exists i. eauto.
  - destruct (nth_error r j) as [m|] eqn:Em; [|apply nth_error_None in Em; apply nth_error_Some_lt in Hq; lia].
    pose proof (IH _ eq_refl). assert (fst m < fst q)%N by (eapply (rt_asc _ _ R); exists j; eauto). lia.
Qed.

Lemma completes_valid P r f : (0 < P)%N -> raw_ttf P r -> completes P r f -> valid_ttf P f.
Proof.
  intros HP R C. destruct r as [|(d0, w0) r]; [destruct C|]. destruct r as [|p1 r].
  { cbn in C. subst. split.
    - eexists; reflexivity.
    - eexists _, _. cbn. repeat split; auto.
    - intros p q H. destruct (consec_1 _ _ _ H).
    - intros p q H. destruct (consec_1 _ _ _ H). }
  unfold completes in C. set (R0 := (d0, w0) :: p1 :: r) in *.
  set (pre := if (d0 =? 0)%N then [] else [(0%N, w0)]) in *. set (post := if (fst (last R0 (0, 0)%N) =? P)%N then [] else [(P, w0)]) in *.
  assert (R0 <> []) as NE by discriminate. assert (1 < length R0) as L1 by (cbn; lia).
  pose proof (last_nth R0 (0, 0)%N NE) as LR. set (lp := last R0 (0, 0)%N) in *. clearbody lp.
  assert (nth_error R0 0 = Some (d0, w0)) as FR by reflexivity.
  destruct (rt_wrap _ _ R _ _ FR LR L1) as ((W1 & W2) & W3). cbn [fst snd] in *.
  assert (d0 < fst lp)%N as D0 by (apply (raw_asc P R0 0 (length R0 - 1) (d0, w0) lp); auto; lia).
  clearbody R0. subst f.
  assert (forall p q, consec (pre ++ R0 ++ post) p q -> (fst p < fst q /\ fst p + snd p <= fst q + snd q)%N) as CC.
  { intros p q H. apply consec_app in H. destruct H as [H|[H|(H1 & H2)]].
    - exfalso. revert H. unfold pre. destruct (d0 =? 0)%N; [apply consec_0|apply consec_1].
    - apply consec_app in H. destruct H as [H|[H|(H1 & H2)]].
      + split; [eapply rt_asc; eauto|eapply rt_fifo; eauto].
      + exfalso. revert H. unfold post. destruct (fst lp =? P)%N; [apply consec_0|apply consec_1].
      + rewrite LR in H1. inversion H1; subst p. unfold post in H2. destruct (fst lp =? P)%N eqn:E; [discriminate|].
        cbn in H2. inversion H2; subst q. cbn [fst snd]. lia.
    - assert (q = (d0, w0)) as ->. { destruct R0 as [|x R1]; [congruence|]. cbn in *. congruence. }
      unfold pre in H1. destruct (d0 =? 0)%N eqn:E; [discriminate|]. cbn in H1. inversion H1; subst p. cbn [fst snd]. lia. }
  split.
  - exists w0. unfold pre. destruct (d0 =? 0)%N eqn:E; auto. cbn [app]. destruct R0 as [|x R1]; [congruence|]. cbn in *. inversion FR. f_equal. f_equal. lia.
  - exists (0%N, w0), (P, w0). split; [|split; [|split]]; auto.
    + unfold pre. destruct (d0 =? 0)%N eqn:E; auto. cbn [app]. destruct R0 as [|x R1]; [congruence|]. cbn in *. inversion FR. f_equal. f_equal. lia.
    + rewrite app_assoc, app_length. unfold post. destruct (fst lp =? P)%N eqn:E.
      * cbn [length]. rewrite app_nil_r, app_length. rewrite nth_error_app2 by lia. replace (length pre + length R0 + 0 - 1 - length pre) with (length R0 - 1) by lia.
        rewrite LR. f_equal. rewrite (surjective_pairing lp). f_equal; [lia|apply W3; lia].
      * cbn [length]. rewrite nth_error_app2 by lia. replace (length (pre ++ R0) + 1 - 1 - length (pre ++ R0)) with 0 by lia. auto.
  - intros p q H. apply CC; auto.
  - intros p q H. apply CC; auto.
Qed.

(** offsets *)
Definition tlen {A} (l : list (list A)) : nat := length (concat l).
Lemma offs_nth {A} (l : list (list A)) i : i <= length l -> nth_error (degrees_to_first_out (map (@length A) l)) i = Some (tlen (firstn i l)).
Proof.
  unfold degrees_to_first_out. intros H. enough (forall s, nth_error (s :: scan_sum s (map (@length A) l)) i = Some (s + tlen (firstn i l))) as G by (apply (G 0)).
  revert l H. induction i as [|i IH]; intros l H s; cbn [nth_error firstn].
  - unfold tlen. cbn. f_equal. lia.
  - destruct l as [|x l]; cbn [length] in H; [lia|]. cbn [map scan_sum firstn]. rewrite IH by lia. unfold tlen. cbn. rewrite app_length. f_equal. lia.
Qed.
Lemma offs_len {A} (l : list (list A)) : length (degrees_to_first_out (map (@length A) l)) = S (length l).
Proof.
  unfold degrees_to_first_out. cbn. f_equal. enough (forall s l, length (scan_sum s l) = length l) as G by (rewrite G, map_length; auto).
  clear. intros s l; revert s; induction l as [|x l IH]; intros s; cbn; auto.
Qed.
Lemma tlen_S {A} (l : list (list A)) i r : nth_error l i = Some r -> tlen (firstn (S i) l) = tlen (firstn i l) + length r.
Proof.
  revert l. induction i as [|i IH]; intros [|x l] H; cbn in H; try discriminate.
  - inversion H; subst. unfold tlen. cbn. rewrite app_nil_r. auto.
  - change (firstn (S (S i)) (x :: l)) with (x :: firstn (S i) l). change (firstn (S i) (x :: l)) with (x :: firstn i l).
    unfold tlen in *. cbn [concat]. rewrite !app_length. rewrite (IH l H). lia.
Qed.
Lemma tlen_le {A} (l : list (list A)) i : tlen (firstn i l) <= tlen l.
Proof. unfold tlen. rewrite <- (firstn_skipn i l) at 2. rewrite concat_app, app_length. lia. Qed.

Lemma slice_concat {A} (l : list (list A)) i r : nth_error l i = Some r ->
  slice (concat l) (tlen (firstn i l)) (tlen (firstn (S i) l)) = Some r.
Proof.
  intros H. rewrite (tlen_S _ _ _ H). unfold slice.
  assert (tlen (firstn i l) + length r <= length (concat l)) as LE by (rewrite <- (tlen_S _ _ _ H); apply tlen_le).
  destruct (tlen (firstn i l) <=? tlen (firstn i l) + length r) eqn:E1; [|lia].
  destruct (tlen (firstn i l) + length r <=? length (concat l)) eqn:E2; [|lia]. cbn [andb guard bind]. f_equal.
  replace (tlen (firstn i l) + length r - tlen (firstn i l)) with (length r) by lia.
  clear LE E1 E2. revert l H. induction i as [|i IH]; intros [|x l] H; cbn in H; try discriminate.
  - inversion H; subst. cbn. rewrite firstn_app, Nat.sub_diag, firstn_all. cbn. apply app_nil_r.
  - cbn [firstn concat]. unfold tlen. cbn [concat]. rewrite app_length. rewrite skipn_app.
    rewrite skipn_all2 by lia. cbn [app]. replace (length x + length (concat (firstn i l)) - length x) with (length (concat (firstn i l))) by lia. apply IH; auto.
Qed.
Lemma nth_concat {A} (l : list (list A)) i r k : nth_error l i = Some r -> k < length r -> nth_error (concat l) (tlen (firstn i l) + k) = nth_error r k.
Proof.
  intros H K. destruct (slice_ok (concat l) (tlen (firstn i l)) (tlen (firstn (S i) l))) as (s & E & _ & NE).
  { rewrite (tlen_S _ _ _ H). lia. } { apply tlen_le. }
  rewrite (slice_concat _ _ _ H) in E. inversion E; subst s. specialize (NE k). rewrite (tlen_S _ _ _ H) in NE.
  destruct (tlen (firstn i l) + k <? tlen (firstn i l) + length r) eqn:EE; [|lia]. auto.
Qed.


(** ** TDGraph::new *)
Section New.
  Variable P : N.
  Definition comp (r : list (N * N)) : list (N * N) :=
    match r with
    | [] => []
    | [(_, w)] => [(0%N, w)]
    | (d0, w0) :: _ => (if (d0 =? 0)%N then [] else [(0%N, w0)]) ++ r ++ (if (fst (last r (0, 0)) =? P)%N then [] else [(P, w0)])
    end.
  Lemma comp_completes r : r <> [] -> completes P r (comp r).
  Proof. destruct r as [|(d, w) [|]]; cbn; auto. Qed.

  Notation offs l := (degrees_to_first_out (map (@length _) l)).

  Lemma td_new_ok fo hd (raws : list (list (N * N))) : length raws = length hd -> (forall r, In r raws -> r <> []) ->
    td_new P fo hd (offs raws) (map fst (concat raws)) (map snd (concat raws)) =
    Some (mkTd fo hd (offs (map comp raws)) (map fst (concat (map comp raws))) (map snd (concat (map comp raws)))).
  Proof.
    intros HL HNE. unfold td_new.
    set (f := fun _ : list nat * nat * list N * list N => fun _ : nat => _).
    set (st := fun i : nat => (firstn i (offs (map comp raws)) ++ skipn i (offs raws), tlen (firstn i (map comp raws)) - tlen (firstn i raws),
      map fst (concat (firstn i (map comp raws))), map snd (concat (firstn i (map comp raws))))).
    assert (forall r, r <> [] -> length r <= length (comp r)) as LC.
    { intros [|(d, w) [|p r]] H; [congruence|cbn; lia|]. unfold comp. rewrite !app_length. lia. }
    assert (forall i, i <= length raws -> tlen (firstn i raws) <= tlen (firstn i (map comp raws))) as LE.
    { induction i as [|i IH]; intros Hi; [cbn; lia|]. destruct (nth_error raws i) as [r|] eqn:Er; [|apply nth_error_None in Er; lia].
      rewrite (tlen_S _ _ _ Er). rewrite (tlen_S (map comp raws) i (comp r)) by (rewrite nth_error_map, Er; auto).
      pose proof (LC r (HNE r (nth_error_In _ _ Er))). specialize (IH ltac:(lia)). lia. }
    assert (forall i, i <= length hd -> foldM f (seq 0 i) (offs raws, 0, [], []) = Some (st i)) as G.
    { induction i as [|i IH]; intros Hi.
      { cbn [seq foldM]. unfold st. cbn [firstn skipn app concat map tlen length]. reflexivity. }
      rewrite seq_S, foldM_app, IH by lia. cbn [bind foldM plus]. clear IH.
      destruct (nth_error raws i) as [r|] eqn:Er; [|apply nth_error_None in Er; lia].
      assert (nth_error (map comp raws) i = Some (comp r)) as Ecr by (rewrite nth_error_map, Er; auto).
      pose proof (HNE r (nth_error_In _ _ Er)) as NEr.
      assert (length (offs (map comp raws)) = S (length raws)) as LO by (rewrite offs_len, map_length; auto).
      unfold st at 1. unfold f at 1.
      assert (forall k, i <= k -> k <= length raws -> nth_error (firstn i (offs (map comp raws)) ++ skipn i (offs raws)) k = Some (tlen (firstn k raws))) as NK.
      { intros k K1 K2. rewrite nth_error_app2 by (rewrite firstn_length; lia). rewrite nth_error_skipn', firstn_length_le by lia.
        replace (i + (k - i)) with k by lia. apply offs_nth; auto. }
      rewrite (NK i) by lia. cbn [bind]. rewrite (NK (i + 1)) by lia. cbn [bind].
      replace (i + 1) with (S i) by lia.
      assert (length r <> 0) as Lr by (destruct r; [congruence|discriminate]).
      rewrite (tlen_S _ _ _ Er). destruct (tlen (firstn i raws) =? tlen (firstn i raws) + length r) eqn:E1; [lia|]. cbn [negb guard bind].
      unfold set_at at 1. rewrite app_length, firstn_length, skipn_length, !offs_len, map_length.
      destruct (i <? Nat.min i (S (length raws)) + (S (length raws) - i)) eqn:E2; [|lia]. cbn [bind].
      destruct (tlen (firstn i raws) <=? tlen (firstn i raws) + length r) eqn:E3; [|lia]. cbn [guard bind].
      assert (upd (firstn i (offs (map comp raws)) ++ skipn i (offs raws)) i (tlen (firstn i raws) + (tlen (firstn i (map comp raws)) - tlen (firstn i raws))) =
              firstn (S i) (offs (map comp raws)) ++ skipn (S i) (offs raws)) as EU.
      { apply list_ext.
        intros k. destruct (Nat.eq_dec k i) as [->|NE].
        - rewrite nth_error_upd_eq by (rewrite app_length, firstn_length, skipn_length, !offs_len, map_length; lia).
          rewrite nth_error_app1 by (rewrite firstn_length; lia). rewrite nth_error_firstn'. destruct (i <? S i) eqn:EE; [|lia].
          rewrite offs_nth by (rewrite map_length; lia). f_equal. pose proof (LE i ltac:(lia)). lia.
        - rewrite nth_error_upd_neq by auto. destruct (Nat.lt_ge_cases k i) as [K|K].
          + rewrite !nth_error_app1 by (rewrite firstn_length; lia). rewrite !nth_error_firstn'. destruct (k <? i) eqn:K1, (k <? S i) eqn:K2; auto; lia.
          + rewrite !nth_error_app2 by (rewrite firstn_length; lia). rewrite !nth_error_skipn', !firstn_length_le by lia. f_equal. lia. }
      rewrite EU. clear EU E1 E2 E3 NK.
      assert (forall k p, nth_error r k = Some p -> nth_error (map fst (concat raws)) (tlen (firstn i raws) + k) = Some (fst p) /\ nth_error (map snd (concat raws)) (tlen (firstn i raws) + k) = Some (snd p)) as NR.
      { intros k p Hk. rewrite !nth_error_map. rewrite (nth_concat _ _ _ _ Er) by (apply nth_error_Some_lt in Hk; auto). rewrite Hk. auto. }
      assert (firstn (S i) (map comp raws) = firstn i (map comp raws) ++ [comp r]) as EF.
      { clear - Ecr. revert Ecr. generalize (map comp raws). generalize i. induction i0 as [|j IH]; intros [|x l] H; cbn in H; try discriminate; [inversion H; auto|].
        change (firstn (S (S j)) (x :: l)) with (x :: firstn (S j) l). rewrite (IH l H). auto. }
      assert (tlen (firstn (S i) (map comp raws)) = tlen (firstn i (map comp raws)) + length (comp r)) as ET by (apply tlen_S; auto).
      pose proof (LE i ltac:(lia)) as LEi. unfold st. rewrite EF. rewrite (tlen_S _ _ _ Er). rewrite concat_app. cbn [concat]. rewrite app_nil_r, !map_app.
      assert (tlen (firstn i (map comp raws) ++ [comp r]) = tlen (firstn i (map comp raws)) + length (comp r)) as ET' by (rewrite <- EF; auto). rewrite ET'.
      assert (slice (map fst (concat raws)) (tlen (firstn i raws)) (tlen (firstn i raws) + length r) = Some (map fst r)) as S1 by (apply slice_app; rewrite <- (tlen_S _ _ _ Er); apply slice_concat; auto).
      assert (slice (map snd (concat raws)) (tlen (firstn i raws)) (tlen (firstn i raws) + length r) = Some (map snd r)) as S2 by (apply slice_app; rewrite <- (tlen_S _ _ _ Er); apply slice_concat; auto).
      pose proof (LC r NEr) as LCr.
      destruct r as [|(d0, w0) r1]; [congruence|]. destruct (NR 0 (d0, w0) eq_refl) as (N1 & N2). rewrite Nat.add_0_r in N1, N2. cbn [fst snd] in N1, N2.
      destruct r1 as [|p1 r1].
      - cbn [length]. destruct (1 <? tlen (firstn i raws) + 1 - tlen (firstn i raws)) eqn:E1; [lia|]. rewrite N2. cbn [bind comp map length fst snd].
        cbn [bind]. do 3 f_equal. f_equal. lia.
      - set (r := (d0, w0) :: p1 :: r1) in *. assert (2 <= length r) as L2 by (cbn; lia).
        assert (comp r = (if (d0 =? 0)%N then [] else [(0%N, w0)]) ++ r ++ (if (fst (last r (0, 0)%N) =? P)%N then [] else [(P, w0)])) as EC by reflexivity.
        pose proof (last_nth r (0, 0)%N NEr) as LR. set (lp := last r (0, 0)%N) in *. clearbody lp. clearbody r.
        destruct (1 <? tlen (firstn i raws) + length r - tlen (firstn i raws)) eqn:E1; [|lia]. rewrite N1. cbn [bind].
        set (nd := map fst (concat (firstn i (map comp raws)))). set (nt := map snd (concat (firstn i (map comp raws)))).
        set (ad := tlen (firstn i (map comp raws)) - tlen (firstn i raws)) in *.
        replace (if (d0 =? 0)%N then Some (ad, nd, nt) else v0 <- nth_error (map snd (concat raws)) (tlen (firstn i raws)) ;; Some (ad + 1, nd ++ [0%N], nt ++ [v0]))
          with (Some (ad + length (if (d0 =? 0)%N then [] else [(0%N, w0)]), nd ++ map fst (if (d0 =? 0)%N then [] else [(0%N, w0)]), nt ++ map snd (if (d0 =? 0)%N then [] else [(0%N, w0)]))).
        2:{ destruct (d0 =? 0)%N; cbn [length map]; [rewrite !app_nil_r, Nat.add_0_r; auto|]. rewrite N2. cbn [bind fst snd]. auto. }
        cbn [bind]. rewrite S1. cbn [bind]. rewrite S2. cbn [bind].
        set (pre := if (d0 =? 0)%N then [] else [(0%N, w0)]) in *.
        assert (nth_error ((nd ++ map fst pre) ++ map fst r) (length ((nd ++ map fst pre) ++ map fst r) - 1) = Some (fst lp)) as EL.
        { assert (length (map fst r) = length r) as MR by apply map_length. rewrite nth_error_app2 by (rewrite (app_length (nd ++ map fst pre)); lia). rewrite (app_length (nd ++ map fst pre)), MR.
          replace (length (nd ++ map fst pre) + length r - 1 - length (nd ++ map fst pre)) with (length r - 1) by lia. rewrite nth_error_map, LR. auto. }
        rewrite EL. cbn [bind]. rewrite EC. rewrite !app_length, !map_app.
        destruct (fst lp =? P)%N; cbn [length map].
        + rewrite !app_nil_r, !app_assoc. cbn [bind]. do 3 f_equal. f_equal. unfold ad. lia.
        + rewrite N2. cbn [bind fst snd]. rewrite !app_assoc. cbn [bind]. do 3 f_equal. f_equal. unfold ad. lia. }
    rewrite (G (length hd)) by auto. unfold st. cbn [bind].
    assert (firstn (length hd) (map comp raws) = map comp raws) as EA by (apply firstn_all2; rewrite map_length; lia). rewrite EA.
    assert (nth_error (firstn (length hd) (offs (map comp raws)) ++ skipn (length hd) (offs raws)) (length hd) = Some (tlen raws)) as EN.
    { rewrite nth_error_app2 by (rewrite firstn_length; lia). rewrite firstn_length_le by (rewrite offs_len, map_length; lia). rewrite nth_error_skipn', Nat.sub_diag, Nat.add_0_r.
      rewrite offs_nth by lia. rewrite firstn_all2 by lia. auto. }
    rewrite EN. cbn [bind]. unfold set_at. destruct (length hd <? _) eqn:E; [|rewrite app_length, firstn_length, skipn_length, !offs_len, map_length in E; lia]. cbn [bind].
    do 2 f_equal. apply list_ext.
    intros k. destruct (Nat.eq_dec k (length hd)) as [->|NE].
    - rewrite nth_error_upd_eq by lia. rewrite offs_nth by (rewrite map_length; lia). rewrite EA. f_equal.
      pose proof (LE (length hd) ltac:(lia)) as L. rewrite EA in L. rewrite (firstn_all2 raws) in * by lia. lia.
    - rewrite nth_error_upd_neq by auto. destruct (Nat.lt_ge_cases k (length hd)) as [K|K].
      + rewrite nth_error_app1 by (rewrite firstn_length, offs_len, map_length; lia). rewrite nth_error_firstn'. destruct (k <? length hd) eqn:K1; auto; lia.
      + transitivity (@None nat); [|symmetry]; apply nth_error_None; rewrite ?app_length, ?firstn_length, ?skipn_length, !offs_len, ?map_length; lia.
  Qed.
End New.
