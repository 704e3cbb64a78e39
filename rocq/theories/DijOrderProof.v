(** Searches in settling order: Dijkstra ranks and nearest neighbours. *)
From Coq Require Import Sorted.
From Verif Require Import Base SpecPQ SpecGraph SpecBits BitVec FastClearProof IndexHeap IndexHeapProof TsVec TsVecProof Graph Dijkstra LoopProof DijkstraRef DijkstraProof DijServer DijServerProof.

Lemma StronglySorted_snoc {T} (R : T -> T -> Prop) l x : StronglySorted R l -> Forall (fun y => R y x) l -> StronglySorted R (l ++ [x]).
Proof.
  induction l as [|a l IH]; intros H F; cbn. { repeat constructor. }
  inversion H; inversion F; subst. constructor; auto. apply Forall_app. auto.
Qed.

Section Ordered.
  Context {A P E : Type}.
  Variable n : nat.
  Variable links : nat -> option (list A).
  Variable hd : A -> nat.
  Variable lk : nat -> N -> A -> option N.
  Variable pl : A -> P.
  Variable nb : nat -> list A.
  Variable slk : nat -> N -> A -> N.
  Hypothesis Hlinks : forall u, u < n -> links u = Some (nb u).
  Hypothesis Hhd : forall u a, u < n -> In a (nb u) -> hd a < n.
  Hypothesis Hlk : forall u a d, u < n -> In a (nb u) -> (d < INF)%N ->
    exists x, lk u d a = Some x /\ ((slk u d a < INF)%N -> x = slk u d a) /\ ((INF <= slk u d a)%N -> (INF <= x)%N).
  Hypothesis Hmono : forall u a d d', u < n -> In a (nb u) -> (d <= d')%N -> (slk u d a <= slk u d' a)%N.
  Hypothesis Hext : forall u a d, u < n -> In a (nb u) -> (d <= slk u d a)%N.
  Variable s : nat.
  Hypothesis Hs : s < n.
  Variable e0 : E.
  Notation gst := (gstep n hd all_edges nb slk).
  Notation settle0 := (settle links hd lk pl all_edges no_cb zero_get).

  Definition Jz (D AA : nat -> N) (e : E) : Prop := e = e0 /\ forall v, AA v = D v.
  Definition pi0 (_ : nat) : option N := Some 0%N.
  Lemma Jz_ok : search_ok n links hd lk all_edges no_cb zero_get nb slk pi0 s 0 Jz.
  Proof.
    split; auto.
    - intros v p [= <-]. unfold INF, U32. lia.
    - intros D AA e v H _. exists e. auto.
    - intros D AA e v x [-> H] _ _ _ _. exists e0, true. split; auto. split; auto. intros y. unfold fupd. destruct (y =? v); auto.
  Qed.
  Lemma Jz_A D AA e : Jz D AA e -> forall v, AA v = D v. Proof. intros [_ H]; auto. Qed.

  (** [ord]: nodes settled so far with their distances *)
  Record OInv (d : dij P) (ord : list (nat * N)) (st : ast P) : Prop := {
    o_R : R n d st;
    o_G : GInv n hd pl all_edges nb slk pi0 s 0 n [] st;
    o_J : Jz (aD st) (aA st) e0;
    o_K : exists K, ZInv K st /\ Forall (fun a => (snd a <= K)%N) ord;
    o_nd : NoDup (map fst ord);
    o_set : forall v, In v (map fst ord) <-> settled st v;
    o_lab : forall v x, In (v, x) ord -> earliest gst s 0 v (Some x) /\ v < n;
    o_sort : StronglySorted N.le (map snd ord) }.

  Lemma OInv_init d : Ready n d -> exists d' pr, dij_init d s 0 = Some d' /\ OInv d' [] (initA s 0 pr).
  Proof.
    intros HR. destruct (init_refines n d s 0 HR Hs) as (d' & pr & E1 & R1). exists d', pr. split; auto. split; auto.
    - apply (GInv_init Jz_ok Hs ltac:(reflexivity)).
    - split; auto.
    - exists 0%N. split; [|constructor]. apply (ZInv_init (pl:=pl) Jz_ok Hs ltac:(reflexivity) Jz_A ltac:(reflexivity)).
    - constructor.
    - intros v. split; [intros []|]. intros [H1 H2]. cbn in *. unfold fupd in *. destruct (v =? s); [discriminate|lia].
    - intros v x [].
    - constructor.
  Qed.

  Lemma OInv_step d ord st : OInv d ord st ->
    (exists d', settle0 d e0 = Some (d', e0, None) /\ OInv d' ord st /\
       forall v y, earliest gst s 0 v (Some y) -> In v (map fst ord)) \/
    exists u x d' st', settle0 d e0 = Some (d', e0, Some u) /\ u < n /\ ts_get N INF (d_dist d') u = Some x /\ OInv d' (ord ++ [(u, x)]) st' /\
      (M n st' < M n st)%N /\ (forall v y, earliest gst s 0 v (Some y) -> ~ In v (map fst ord) -> (x <= y)%N).
  Proof.
    intros [HR HG HJ (K & HZ & HK) Hnd Hset Hlab Hsort].
    destruct (settle_order (pl:=pl) Jz_ok Hs ltac:(reflexivity) Jz_A ltac:(reflexivity) d st e0 K HR HG HJ HZ)
      as [(HQ & d' & E1 & R1)|(u & d' & st' & e' & E1 & R1 & Hu & G1 & J1 & M1 & Z1 & K1 & I1 & X1 & N1 & S1 & D1)].
    - left. exists d'. split; auto. split. { split; auto. exists K; auto. }
      intros v y (HI & HR' & HM). apply Hset.
      destruct (N.lt_ge_cases (aD st v) INF) as [C|C]; [split; auto|]. exfalso.
      destruct (frontier (pl:=pl) Jz_ok Hs ltac:(reflexivity) st v y HG (Jz_A _ _ _ HJ) HI HR') as [F|(z & dz & Hq & _)].
      + intros; left; discriminate.
      + lia.
      + apply Hq, HQ.
    - right. assert (e' = e0) by (apply J1). subst e'.
      exists u, (aD st' u), d', st'. split; auto. split; auto. split. { rewrite (ts_get_spec N INF n _ _ u (r_dist n d' st' R1)), (proj2 (Nat.ltb_lt u n) Hu). auto. }
      assert (Hu' : ~ In u (map fst ord)) by (rewrite Hset; auto).
      split; [|split; auto].
      + split; auto.
        * exists (aD st' u). split; auto. apply Forall_app. split; [|constructor; auto; cbn; lia]. eapply Forall_impl; [|exact HK]. cbn. intros; lia.
        * rewrite map_app. apply NoDup_app_intro; auto. { repeat constructor. intros []. } intros y Hy [<-|[]]. auto.
        * intros v. rewrite map_app, in_app_iff, S1, Hset. cbn. intuition.
        * intros v x Hx. apply in_app_or in Hx. destruct Hx as [Hx|[[= <- <-]|[]]]; auto.
        * rewrite map_app. cbn. apply StronglySorted_snoc; auto. apply Forall_map. eapply Forall_impl; [|exact HK]. cbn. intros; lia.
      + intros v y (HI & HR' & HM) Hv.
        destruct (settle_ok (pl:=pl) Jz_ok Hs ltac:(reflexivity) d st e0 HR HG HJ) as [(_ & d2 & E2 & _)|(u2 & k & d2 & st2 & e2 & E2 & R2 & _ & Hk & Hmin & G2 & _ & _ & D2 & _)].
        { congruence. }
        rewrite E1 in E2. injection E2 as <- <- <-.
        assert (aD st' u = aD st2 u). { pose proof (ts_get_spec N INF n _ _ u (r_dist n d' st' R1)) as Y1. pose proof (ts_get_spec N INF n _ _ u (r_dist n d' st2 R2)) as Y2. rewrite (proj2 (Nat.ltb_lt u n) Hu) in *. congruence. }
        destruct (key0 (pl:=pl) Jz_ok Hs ltac:(reflexivity) Jz_A ltac:(reflexivity) st u k HG (Jz_A _ _ _ HJ) Hk) as [-> _].
        apply (unsettled_far (pl:=pl) Jz_ok Hs ltac:(reflexivity) Jz_A ltac:(reflexivity) st e0 (aD st' u) v y HG HJ); auto.
        * intros v' k' Hk'. specialize (Hmin v' k' Hk'). lia.
        * rewrite <- Hset. auto.
  Qed.

  (** ranks *)
  Fixpoint rank_entries (i : N) (l : list (nat * N)) : list (nat * N * N) :=
    match l with
    | [] => []
    | (v, x) :: l' => (if is_pow2 (i + 1) then [(v, x, N.log2 (i + 1))] else []) ++ rank_entries (i + 1) l'
    end.
  Lemma rank_entries_snoc l v x : forall i, rank_entries i (l ++ [(v, x)]) =
    rank_entries i l ++ (if is_pow2 (i + N.of_nat (length l) + 1) then [(v, x, N.log2 (i + N.of_nat (length l) + 1))] else []).
  Proof.
    induction l as [|[v' x'] l IH]; intros i; cbn [app rank_entries length].
    - rewrite N.add_0_r, app_nil_r. auto.
    - rewrite IH, app_assoc. replace (i + 1 + N.of_nat (length l) + 1)%N with (i + N.of_nat (S (length l)) + 1)%N by lia. auto.
  Qed.
  Lemma is_pow2_spec i : (0 < i)%N -> (is_pow2 i = true <-> i = 2 ^ N.log2 i)%N.
  Proof.
    intros Hi. unfold is_pow2. rewrite N.eqb_eq. pose proof (N.log2_spec i Hi) as [L1 L2]. set (k := N.log2 i) in *.
    assert (Hp : (2 ^ N.succ k = 2 * 2 ^ k)%N) by (rewrite N.pow_succ_r'; auto).
    split.
    - intros H. destruct (N.eq_dec i (2 ^ k)) as [|Hne]; auto. exfalso.
      assert (B1 : N.testbit i k = true) by (apply N.bit_log2; lia).
      assert (B2 : N.testbit (i - 1) k = true).
      { replace k with (N.log2 (i - 1)). { apply N.bit_log2. lia. } apply N.log2_unique; lia. }
      assert (B : N.testbit (N.land i (i - 1)) k = true) by (rewrite N.land_spec, B1, B2; auto). rewrite H, N.bits_0 in B. discriminate.
    - intros Hik. clearbody k. subst i. set (m := k). replace (2 ^ m - 1)%N with (N.ones m) by (rewrite N.ones_equiv; lia).
      rewrite N.land_ones. rewrite N.mod_same; auto. apply N.pow_nonzero. lia.
  Qed.
  Lemma rank_entries_spec l : forall i v x r, In (v, x, r) (rank_entries i l) <-> exists j, (2 ^ r = i + N.of_nat j + 1)%N /\ nth_error l j = Some (v, x).
  Proof.
    induction l as [|[v' x'] l IH]; intros i v x r; cbn [rank_entries].
    - split; [intros []|]. intros ([|j] & _ & [=]).
    - rewrite in_app_iff, IH. split.
      + intros [H|(j & H1 & H2)].
        * destruct (is_pow2 (i + 1)) eqn:B; [|destruct H]. destruct H as [[= <- <- <-]|[]]. exists 0. split; auto. apply is_pow2_spec in B; lia.
        * exists (S j). split; auto. lia.
      + intros ([|j] & H1 & H2).
        * left. injection H2 as <- <-. assert (E1 : (i + 1 = 2 ^ r)%N) by lia. rewrite E1. rewrite N.log2_pow2 by lia.
          rewrite (proj2 (is_pow2_spec (2 ^ r) ltac:(lia))). { left; auto. } rewrite N.log2_pow2; auto. lia.
        * right. exists j. split; auto. lia.
  Qed.

  Lemma sv_ranks_ok (sv : server P E) : Ready n (sv_dij sv) -> sv_pot sv = e0 ->
    exists sv' cbs ord, sv_ranks n links hd lk pl sv s = Some (sv', cbs) /\ Ready n (sv_dij sv') /\ sv_pot sv' = e0 /\
      NoDup (map fst ord) /\ StronglySorted N.le (map snd ord) /\
      (forall v x, In (v, x) ord <-> earliest gst s 0 v (Some x)) /\
      (forall v x r, In (v, x, r) cbs <-> nth_error ord (N.to_nat (2 ^ r) - 1) = Some (v, x)).
  Proof.
    intros HR HE. unfold sv_ranks. destruct (OInv_init (sv_dij sv) HR) as (d & pr & E1 & O1). rewrite E1. cbn [bind].
    set (step := fun _ : dij P * N * list (nat * N * N) => _).
    set (I := fun st '(d, i, acc) => exists ord, OInv d ord st /\ i = N.of_nat (length ord) /\ acc = rank_entries 0 ord).
    set (Q := fun '((sv', cbs) : server P E * list (nat * N * N)) => Ready n (sv_dij sv') /\ sv_pot sv' = e0 /\ exists ord, NoDup (map fst ord) /\ StronglySorted N.le (map snd ord) /\
      (forall v x, In (v, x) ord <-> earliest gst s 0 v (Some x)) /\ cbs = rank_entries 0 ord).
    destruct (loopN_ghost step I Q (M n) (dij_fuel n) (initA s 0 pr) (d, 0%N, [])) as ((sv' & cbs) & E2 & HR' & HE' & ord & H1 & H2 & H3 & H4).
    - intros st ((d1 & i) & acc) (ord & HO & -> & ->). unfold step. rewrite HE.
      destruct (OInv_step d1 ord st HO) as [(d2 & F1 & O2 & C)|(u & x & d2 & st2 & F1 & Hu & Fx & O2 & M2 & _)]; rewrite F1; cbn [bind].
      + eexists; split; [reflexivity|]. split; [|split; [auto|]]. { eapply R_Ready. apply O2. } exists ord. destruct O2.
        split; [auto|]. split; [auto|]. split; [|auto]. intros v x. split. { apply o_lab0. }
        intros X. pose proof (C v x X) as Hin. apply in_map_iff in Hin. destruct Hin as ((v' & x') & <- & Hin). cbn in *.
        destruct (o_lab0 _ _ Hin) as ((_ & X1 & X2) & _). destruct X as (_ & X3 & X4). specialize (X2 _ X3). specialize (X4 _ X1). assert (x = x') by lia. subst. auto.
      + destruct (is_pow2 (N.of_nat (length ord) + 1)) eqn:B; [rewrite Fx; cbn [bind]|]; eexists; split; try reflexivity; exists st2; split; auto;
          exists (ord ++ [(u, x)]); (split; [auto|]); (split; [rewrite app_length; cbn; lia|]); rewrite rank_entries_snoc, N.add_0_l, B; auto. rewrite app_nil_r; auto.
    - exists []. auto.
    - apply (M_init (pl:=pl) Jz_ok Hs ltac:(reflexivity)).
    - exists sv', cbs, ord. split; auto. split; auto. split; auto. split; auto. split; auto. split; auto.
      intros v x r. rewrite H4, rank_entries_spec.
      assert (Hpos : (1 <= 2 ^ r)%N) by (pose proof (N.pow_nonzero 2 r); lia).
      split. { intros (j & X1 & X2). replace (N.to_nat (2 ^ r) - 1) with j by lia. auto. }
      intros X. exists (N.to_nat (2 ^ r) - 1). split; auto. lia.
  Qed.
End Ordered.

Lemma ss_nth {T} (f : T -> N) l : StronglySorted N.le (map f l) -> forall i j a b, i <= j -> nth_error l i = Some a -> nth_error l j = Some b -> (f a <= f b)%N.
Proof.
  induction l as [|x l IH]; intros H i j a b Hij Ha Hb; [destruct i; discriminate|].
  inversion H as [|? ? H1 H2]; subst. destruct i as [|i].
  - injection Ha as <-. destruct j as [|j]; [injection Hb as <-; lia|]. rewrite Forall_map, Forall_forall in H2. apply H2. eapply nth_error_In; eauto.
  - destruct j as [|j]; [lia|]. eapply (IH H1 i j); eauto. lia.
Qed.

Lemma sslk_mono n links u a d d' : u < n -> In a (snb links u) -> (d <= d')%N -> (sslk u d a <= sslk u d' a)%N.
Proof. unfold sslk; lia. Qed.
Lemma sslk_ext n links u a d : u < n -> In a (snb links u) -> (d <= sslk u d a)%N.
Proof. unfold sslk; lia. Qed.
Section Static.
  Variable n : nat.
  Variable links : nat -> option (list (nat * N)).
  Hypothesis WF : wf_links n links.
  Notation nb := (snb links).
  Notation gst := (gstep n fst all_edges nb sslk).
  Notation arc := (garc links).
  Variable s : nat.
  Hypothesis Hs : s < n.
  Let H1 := snb_links n links WF.
  Let H2 := snb_hd n links WF.
  Let H3 := snb_lk n links WF.
  Notation sslk_mono := (sslk_mono n links). Notation sslk_ext := (sslk_ext n links).

  Lemma earliest_some v x : earliest gst s 0 v (Some x) <-> (x < INF)%N /\ is_dist arc s v x.
  Proof.
    split.
    - intros H. apply (earliest_exact n links WF) in H; auto.
    - intros (HI & HW & HM). split; auto. split. { rewrite <- (N.add_0_l x). apply walk_reach; auto. }
      intros d' Hd. destruct (reach_walk _ _ _ _ _ _ Hd) as (l & Hl & ->). specialize (HM l Hl). lia.
  Qed.

  Lemma nn_query_ok (x : nn) (ts : list nat) (inT : nat -> bool) k : Ready n (nn_dij x) -> FInv n (nn_targets x) inT -> (forall v, inT v = true <-> In v ts) -> 1 <= k ->
    exists x' res, nn_query n links x s k = Some (x', res) /\ Ready n (nn_dij x') /\ FInv n (nn_targets x') inT /\ nearest_answer arc s ts k res.
  Proof.
    intros HR HF HT Hk. unfold nn_query.
    destruct (OInv_init n links fst def_lk def_pl nb sslk H1 H2 H3 sslk_mono sslk_ext s Hs tt (nn_dij x) HR) as (d & pr & E1 & O1). rewrite E1. cbn [bind].
    set (step := fun _ : dij unit * list (N * nat) => _).
    set (sel := fun ord : list (nat * N) => map (fun a => (snd a, fst a)) (filter (fun a => inT (fst a)) ord)).
    set (I := fun st '(d, c) => exists ord, OInv n fst def_pl nb sslk s tt d ord st /\ c = sel ord /\ length c < k).
    set (Q := fun '(x', res) => Ready n (nn_dij x') /\ FInv n (nn_targets x') inT /\ nearest_answer arc s ts k res).
    assert (Snoc : forall ord u y, sel (ord ++ [(u, y)]) = sel ord ++ (if inT u then [(y, u)] else [])).
    { intros ord u y. unfold sel. rewrite filter_app, map_app. cbn. destruct (inT u); auto. }
    assert (Sound : forall ord d st, OInv n fst def_pl nb sslk s tt d ord st ->
      NoDup (map snd (sel ord)) /\ StronglySorted N.le (map fst (sel ord)) /\ forall x v, In (x, v) (sel ord) <-> In v ts /\ In (v, x) ord).
    { intros ord d1 st O. destruct O. unfold sel. rewrite !map_map. cbn [fst snd]. clear - o_nd0 o_sort0 HT.
      induction ord as [|[v y] ord IH]; cbn [filter map fst snd].
      - split; [constructor|]. split; [constructor|]. cbn. tauto.
      - cbn [map fst snd] in *. inversion o_nd0; inversion o_sort0; subst. destruct IH as (A1 & A2 & A3); auto.
        destruct (inT v) eqn:Ev; cbn [filter map fst snd].
        + split; [|split].
          * constructor; auto. intros C. apply H1. apply in_map_iff in C. destruct C as ((v', y') & <- & C). apply filter_In in C. apply in_map_iff. exists (v', y'). tauto.
          * constructor; auto. rewrite Forall_map. rewrite Forall_map in H6. rewrite Forall_forall in *. intros a Ha. apply filter_In in Ha. apply H6; tauto.
          * intros a b. cbn [In]. rewrite A3. apply HT in Ev. split; intros H; intuition congruence.
        + split; auto. split; auto. intros a b. rewrite A3. cbn [In]. split; [tauto|]. intros [Hb [[= <- <-]|Hb']]; [|tauto]. apply HT in Hb. congruence. }
    assert (SN : forall ord d st, OInv n fst def_pl nb sslk s tt d ord st -> length (sel ord) <= k ->
       (forall v y, In v ts -> (y < INF)%N -> is_dist arc s v y -> ~ In v (map fst ord) -> length (sel ord) = k /\ forall x u, In (x, u) ord -> (u <= y)%N) ->
       nearest_answer arc s ts k (sel ord)).
    { intros ord d1 st O HL HC. destruct (Sound ord d1 st O) as (A1 & A2 & A3). split; [auto|]. split; [apply ss_nth; auto|]. split.
      { intros y v Hy. apply A3 in Hy. destruct Hy as [B1 B2]. split; auto. destruct (o_lab _ _ _ _ _ _ _ _ _ _ O _ _ B2) as [B3 _]. apply earliest_some in B3. tauto. }
      split; auto. intros v y B1 B2 B3 B4.
      destruct (HC v y B1 B2 B3) as [C1 C2].
      { intros C. apply B4. apply in_map_iff in C. destruct C as ((v' & y') & <- & C). apply in_map_iff. exists (y', v'). split; auto. apply A3. auto. }
      split; auto. intros z u Hz. apply A3 in Hz. apply (C2 u z). tauto. }
    destruct (loopN_ghost step I Q (M n) (dij_fuel n) (initA s 0 pr) (d, [])) as ((x' & res) & E2 & Q1 & Q2 & Q3).
    - intros st (d1 & c) (ord & HO & -> & HL). unfold step.
      destruct (OInv_step n links fst def_lk def_pl nb sslk H1 H2 H3 sslk_mono sslk_ext s Hs tt d1 ord st HO) as [(d2 & F1 & O2 & C)|(u & y & d2 & st2 & F1 & Hu & Fy & O2 & M2 & Far)]; rewrite F1; cbn [bind].
      + eexists; split; [reflexivity|]. split. { eapply R_Ready. apply O2. } split; auto. apply (SN ord d2 st O2). { lia. }
        intros v y B1 B2 B3 B4. exfalso. apply B4. apply (C v y). apply earliest_some. auto.
      + rewrite (fc_get_inv n _ inT u HF Hu). cbn [bind].
        assert (X : (if inT u then x0 <- ts_get N INF (d_dist d2) u;; Some (sel ord ++ [(x0, u)]) else Some (sel ord)) = Some (sel (ord ++ [(u, y)]))).
        { rewrite Snoc. destruct (inT u); [rewrite Fy; auto|rewrite app_nil_r; auto]. }
        rewrite X. cbn [bind]. destruct (Nat.leb_spec k (length (sel (ord ++ [(u, y)])))) as [L|L].
        * eexists; split; [reflexivity|]. split. { eapply R_Ready. apply O2. } split; auto.
          assert (Lk : length (sel (ord ++ [(u, y)])) = k). { rewrite Snoc, app_length in *. destruct (inT u); cbn [length] in *; lia. }
          apply (SN _ d2 st2 O2). { lia. } intros v z B1 B2 B3 B4. split; auto. intros a b Hab.
          rewrite map_app in B4. cbn in B4. assert (B4' : ~ In v (map fst ord)) by (intros C; apply B4; apply in_or_app; auto).
          pose proof (Far v z (proj2 (earliest_some v z) (conj B2 B3)) B4') as Hz.
          apply in_app_or in Hab. destruct Hab as [Hab|[[= <- <-]|[]]]; auto.
          destruct O2. rewrite map_app in o_sort0. cbn in o_sort0.
          assert (b <= y)%N; [|lia]. apply In_nth_error in Hab. destruct Hab as (i & Hi).
          apply (ss_nth snd (ord ++ [(u, y)]) ltac:(rewrite map_app; exact o_sort0) i (length ord) (a, b) (u, y)).
          { assert (i < length ord) by (apply nth_error_Some; congruence). lia. } { rewrite nth_error_app1; auto. apply nth_error_Some; congruence. } { rewrite nth_error_app2, Nat.sub_diag; auto. }
        * eexists; split; [reflexivity|]. exists st2. split; auto. exists (ord ++ [(u, y)]). auto.
    - exists []. auto.
    - apply (M_init (pl:=def_pl) (Jz_ok n links fst def_lk nb sslk H1 H2 H3 sslk_mono sslk_ext s Hs tt) Hs ltac:(reflexivity)).
    - exists x', res. auto.
  Qed.

  Lemma nn_select_ok (x : nn) inT ts : FInv n (nn_targets x) inT -> Forall (fun v => v < n) ts ->
    exists x', nn_select x ts = Some x' /\ nn_dij x' = nn_dij x /\ exists inT', FInv n (nn_targets x') inT' /\ forall v, inT' v = true <-> In v ts.
  Proof.
    intros HF HT. unfold nn_select. destruct (fc_clear_inv n _ _ HF) as (c & E1 & F1). rewrite E1. cbn [bind].
    assert (G : forall ts c i0, FInv n c i0 -> Forall (fun v => v < n) ts -> exists c' i1, foldM fc_set ts c = Some c' /\ FInv n c' i1 /\ forall v, i1 v = true <-> i0 v = true \/ In v ts).
    { clear. induction ts as [|u ts IH]; intros c i0 F H. { exists c, i0. split; auto. split; auto. cbn; tauto. }
      inversion H; subst. destruct (fc_set_inv n c i0 u F) as (c1 & E1 & F1); auto. cbn [foldM]. rewrite E1. cbn [bind].
      destruct (IH c1 _ F1) as (c2 & i2 & E2 & F2 & X2); auto. exists c2, i2. split; auto. split; auto.
      intros v. rewrite X2, orb_true_iff, Nat.eqb_eq. cbn. intuition. }
    destruct (G ts c _ F1 HT) as (c' & i1 & E2 & F2 & X2). rewrite E2. cbn [bind]. eexists. split; [reflexivity|]. split; auto. exists i1. split; auto. intros v. rewrite X2. intuition congruence.
  Qed.
End Static.
