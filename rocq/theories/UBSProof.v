(** MinimalNonShortestSubPathsDijkstra: positions, path lengths, the whole search, histories. *)
From Coq Require Import Permutation Sorting.Sorted.
From Verif Require Import Base SpecGraph LoopProof GraphProof Graph GraphSpecProof IndexHeap TsVec TsVecProof Dijkstra DijkstraRef DijkstraProof DijServer DijServerProof DijHistProof DijOrderProof CHProof PLF
  CCHMetricProof PropsBidir SpecUBS UBS UBSFilterProof UBSScanProof UBSTreeProof UBSDijProof.

(** ** Positions *)
Section Note.
  Variable n : nat.
  Variable path : list nat.
  Hypothesis Hp : Forall (fun v => v < n) path.
  Record NI (k : nat) (st : ranks * list prange) : Prop := {
    ni_len : length (fst st) = n;
    ni_pos : forall v, v < n -> nth_error (fst st) v = Some None /\ (forall j, j < k -> nth_error path j <> Some v) \/
      exists i, i < k /\ nth_error (fst st) v = Some (Some i) /\ nth_error path i = Some v /\ forall j, i < j < k -> nth_error path j <> Some v;
    ni_vio : forall r, In r (snd st) <-> revisit path r /\ snd r < k;
    ni_sort : StronglySorted (fun a b => snd a < snd b) (snd st) }.

  Lemma note_step_ok k v st : nth_error path k = Some v -> NI k st -> exists st', note_step st (k, v) = Some st' /\ NI (S k) st'.
  Proof.
    intros Hk [L Pos Vio So]. destruct st as [pr vio]. cbn [fst snd] in *. assert (Hv : v < n) by (rewrite Forall_forall in Hp; apply Hp; eapply nth_error_In; eauto).
    unfold note_step. destruct (nth_error_lt pr v ltac:(lia)) as [o Eo]. rewrite Eo. cbn [bind]. rewrite set_at_lt by lia. cbn [bind]. eexists. split; [reflexivity|].
    constructor; cbn [fst snd].
    - rewrite upd_length. auto.
    - intros x Hx. destruct (Nat.eq_dec x v) as [->|Hne].
      + right. exists k. split; [lia|]. split; [apply nth_error_upd_eq; lia|]. split; auto. intros; lia.
      + rewrite nth_error_upd_neq by auto. destruct (Pos x Hx) as [[A B]|(i & A & B & C & D)].
        * left. split; auto. intros j Hj. destruct (Nat.eq_dec j k) as [->|]; [congruence|]. apply B. lia.
        * right. exists i. split; [lia|]. split; auto. split; auto. intros j Hj. destruct (Nat.eq_dec j k) as [->|]; [congruence|]. apply D. lia.
    - intros [a b]. assert (Hnew : revisit path (a, k) <-> o = Some a).
      { unfold revisit. cbn [fst snd]. destruct (Pos v Hv) as [[A B]|(i & A & B & C & D)]; rewrite Eo in *.
        - injection A as ->. split; [|discriminate]. intros (Hab & x & X1 & X2 & _). assert (x = v) by congruence. subst. exfalso. apply (B a); auto.
        - injection B as ->. split.
          + intros (Hab & x & X1 & X2 & X3). assert (x = v) by congruence. subst. f_equal. destruct (Nat.lt_trichotomy i a) as [H|[H|H]]; auto; exfalso. { apply (D a); auto. } apply (X3 i); auto.
          + intros [= ->]. split; auto. exists v. split; auto. }
      assert (E : In (a, b) (match o with Some prev => vio ++ [(prev, k)] | None => vio end) <-> In (a, b) vio \/ (o = Some a /\ b = k)).
      { destruct o as [prev|]. { rewrite in_app_iff. cbn. split; (intros [H|H]; [auto|]). { destruct H as [[= -> ->]|[]]. auto. } destruct H as [[= ->] ->]. auto. } split; auto. intros [H|[H _]]; [auto|discriminate]. }
      rewrite E, Vio. cbn [fst snd]. split.
      + intros [[H1 H2]|[H1 ->]]. { split; auto. } split; [apply Hnew; auto|lia].
      + intros [H1 H2]. destruct (Nat.eq_dec b k) as [->|]. { right. split; auto. apply Hnew. auto. } left. split; auto. lia.
    - destruct o as [prev|]; auto. assert (H : forall r, In r vio -> snd r < k) by (intros r Hr; apply Vio in Hr; tauto). clear - So H.
      induction So as [|a l So IH F]; cbn. { repeat constructor. } constructor. { apply IH. intros r Hr. apply H. cbn. auto. } apply Forall_app. split; auto. constructor; auto. cbn. apply H. cbn. auto.
  Qed.
  Lemma note_ok pr0 : length pr0 = n -> all_none pr0 = true -> exists st, note_ranks path pr0 = Some st /\ NI (length path) st.
  Proof.
    intros L HN. unfold note_ranks.
    destruct (foldM_inv note_step (fun pre st => NI (length pre) st) (combine (seq 0 (length path)) path) (pr0, [])) as (st & E & HI).
    - constructor; cbn [fst snd length]; auto.
      + intros v Hv. left. split; [|intros; lia]. destruct (nth_error_lt pr0 v ltac:(lia)) as [[pp|] E]; auto. exfalso. apply (proj1 (all_none_iff pr0) HN v). exists pp. auto.
      + intros r. split; [intros []|]. intros [_ H]. lia.
      + constructor.
    - intros pre [k v] post st Es HI.
      assert (Hk : length pre < length path). { apply (f_equal (@length _)) in Es. rewrite combine_length, seq_length, app_length in Es. cbn in Es. lia. }
      assert (Ek : nth_error (combine (seq 0 (length path)) path) (length pre) = Some (k, v)). { rewrite Es, nth_error_app2, Nat.sub_diag by lia. auto. }
      assert (E2 : nth_error (combine (seq 0 (length path)) path) (length pre) = Some (length pre, nth (length pre) path 0)).
      { rewrite (nth_error_nth' _ (0, 0)) by (rewrite combine_length, seq_length; lia). rewrite combine_nth by apply seq_length. rewrite seq_nth by auto. auto. }
      rewrite E2 in Ek. injection Ek as <- <-.
      destruct (note_step_ok (length pre) (nth (length pre) path 0) st) as (st' & E & HI'); auto. { apply nth_error_nth'. auto. }
      exists st'. split; auto. rewrite app_length. cbn. rewrite Nat.add_1_r. auto.
    - exists st. split; auto. rewrite combine_length, seq_length, Nat.min_id in HI. auto.
  Qed.
End Note.

Lemma clear_ok n : forall path pr, Forall (fun v => v < n) path -> length pr = n -> (forall v, cached pr v -> In v path) ->
  exists pr', clear_ranks path pr = Some pr' /\ length pr' = n /\ all_none pr' = true.
Proof.
  unfold clear_ranks. induction path as [|a path IH]; intros pr F L H; cbn [foldM].
  - exists pr. split; auto. split; auto. apply all_none_iff. intros v Hv. destruct (H v Hv).
  - inversion F; subst. rewrite set_at_lt by auto. cbn [bind]. destruct (IH (upd pr a None)) as (pr' & E & L' & N'); auto.
    + rewrite upd_length. auto.
    + intros v (pp & Hv). destruct (Nat.eq_dec v a) as [->|Hne]. { rewrite nth_error_upd_eq in Hv by lia. discriminate. } rewrite nth_error_upd_neq in Hv by auto. destruct (H v (ex_intro _ pp Hv)) as [E|E]; [|exact E]. congruence.
    + exists pr'. repeat split; auto.
Qed.

(** ** Path lengths *)
Lemma skipn_at : forall (l : list nat) i, i < length l -> skipn i l = nth i l 0 :: skipn (S i) l.
Proof. induction l as [|a l IH]; intros [|i] H; cbn in *; try lia; auto. apply IH. lia. Qed.
Section Len.
  Variable arc : nat -> nat -> N -> Prop.
  Lemma cheapest_det u v w w' : cheapest arc u v w -> cheapest arc u v w' -> w = w'.
  Proof. intros [A B] [A' B']. specialize (B _ A'). specialize (B' _ A). lia. Qed.
  Lemma plen_det p x : plen arc p x -> forall y, plen arc p y -> x = y.
  Proof. induction 1 as [|u v p w x H P IH]; intros y Hy; inversion Hy as [|? ? ? ? ? H' P']; subst; auto. rewrite (cheapest_det _ _ _ _ H H'). f_equal. auto. Qed.
  (** prefix sums *)
  Definition sums (path : list nat) (dists : list N) : Prop := length dists = length path /\ nth 0 dists 0%N = 0%N /\
    forall i, S i < length path -> exists w, cheapest arc (nth i path 0) (nth (S i) path 0) w /\ nth (S i) dists 0%N = (nth i dists 0 + w)%N.
  Lemma sums_plen path dists a b : sums path dists -> a <= b < length path -> plen arc (subpath path a b) (nth b dists 0 - nth a dists 0)%N /\ (nth a dists 0 <= nth b dists 0)%N.
  Proof.
    intros (L & Z & S1) Hab. remember (b - a) as k. revert a Hab Heqk. induction k as [|k IH]; intros a Hab Ek.
    - assert (a = b) by lia. subst. rewrite N.sub_diag. split; [|lia]. unfold subpath. rewrite Nat.sub_diag. cbn [Nat.add]. destruct (skipn b path) as [|x l] eqn:E.
      { apply (f_equal (@length _)) in E. rewrite skipn_length in E. cbn in E. lia. } cbn. constructor.
    - destruct (IH (S a) ltac:(lia) ltac:(lia)) as [P Q]. destruct (S1 a ltac:(lia)) as (w & HW & E). split; [|lia].
      assert (Es : subpath path a b = nth a path 0 :: subpath path (S a) b).
      { unfold subpath. replace (b - a + 1) with (S (b - S a + 1)) by lia. rewrite (skipn_at path a) by lia. cbn. auto. }
      assert (Es2 : exists q, subpath path (S a) b = nth (S a) path 0 :: q).
      { unfold subpath. replace (b - S a + 1) with (S (b - S a)) by lia. rewrite (skipn_at path (S a)) by lia. cbn [firstn]. eauto. }
      destruct Es2 as (q & Es2). rewrite Es. rewrite Es2 in *. replace (nth b dists 0 - nth a dists 0)%N with (w + (nth b dists 0 - nth (S a) dists 0))%N by lia. constructor; auto.
  Qed.
  Lemma plen_total path x : plen arc path x -> exists dists, sums path dists /\ nth (length path - 1) dists 0%N = x.
  Proof.
    induction 1 as [u|u v p w x H P (ds & (L & Z & S1) & E)].
    - exists [0%N]. split; auto. split; auto. split; auto. cbn. intros; lia.
    - exists (0%N :: map (N.add w) ds). split.
      + split; [cbn [length] in *; rewrite map_length; lia|]. split; auto. intros i Hi. assert (Hm : forall j, j < length ds -> nth j (map (N.add w) ds) 0%N = (w + nth j ds 0)%N).
        { intros j Hj. rewrite nth_indep with (d' := N.add w 0) by (rewrite map_length; auto). apply map_nth. }
        cbn [length] in *. destruct i as [|i].
        * cbn [nth]. exists w. split; auto. rewrite Hm by lia. rewrite Z. lia.
        * destruct (S1 i ltac:(lia)) as (w' & A & B). exists w'. cbn [nth] in *. split; auto. rewrite !Hm by lia. lia.
      + cbn [length] in *. replace (S (S (length p)) - 1) with (S (length p)) by lia. replace (S (length p) - 1) with (length p) in E by lia. cbn [nth].
        rewrite nth_indep with (d' := N.add w 0) by (rewrite map_length; lia). rewrite map_nth. rewrite E. auto.
  Qed.
End Len.

Section Main.
  Variable adj : list (list (nat * N)).
  Variable g rg : fograph N.
  Notation n := (length adj).
  Notation arc := (adj_arc adj).
  Hypothesis HV : valid_adj adj.
  Hypothesis HF : fits_u32 adj.
  Hypothesis HW : forall l v w, In l adj -> In (v, w) l -> (w <= INF)%N.
  Hypothesis Hg : from_adjacency_lists adj = Some g.
  Hypothesis Hrg : reversed 0%N (num_nodes g) (num_arcs g) (link_iter g) = Some rg.
  Variable dbg : bool.

  Lemma arc_lt u v w : arc u v w -> u < n /\ v < n.
  Proof.
    intros H. unfold adj_arc in H. assert (Hu : u < n). { destruct (Nat.lt_ge_cases u n) as [|Hge]; auto. rewrite nth_overflow in H by auto. destruct H. } split; auto.
    apply (HV (nth u adj []) v w); auto. apply nth_In. auto.
  Qed.
  Lemma g_nodes : num_nodes g = n.
  Proof. destruct (adj_graph adj HV HF) as (h & E & _ & Nn & _). rewrite Hg in E. injection E as <-. auto. Qed.

  Lemma min_arc_ok u v w : u < n -> cheapest arc u v w -> (w < INF)%N -> min_arc dbg g u v = Some w.
  Proof.
    intros Hu [HA Hmin] Hw. unfold min_arc. destruct (adj_edge_indices adj g u v HV HF Hg Hu) as (ids & E & _ & Hids). rewrite E. cbn [bind].
    assert (Hl : forall e, In e ids -> exists w', link g e = Some (v, w') /\ arc u v w').
    { intros e He. apply Hids in He. destruct He as (k & w' & -> & Hk). exists w'. split. { apply (metric_link adj g u _ v w' HV HF Hg). exists k. auto. } apply nth_error_In in Hk. auto. }
    assert (Hex : exists e, In e ids /\ link g e = Some (v, w)).
    { unfold adj_arc in HA. apply In_nth_error in HA. destruct HA as (k & Hk). exists (length (concat (firstn u adj)) + k). split. { apply Hids. eauto. } apply (metric_link adj g u _ v w HV HF Hg). exists k. auto. }
    assert (G : forall l m, (forall e, In e l -> exists w', link g e = Some (v, w') /\ (w <= w')%N) -> (w <= m)%N ->
      exists r, foldM (fun m e => '(_, w) <- link g e ;; Some (N.min m w)) l m = Some r /\ (w <= r)%N /\ (r <= m)%N /\ ((exists e, In e l /\ link g e = Some (v, w)) -> r = w)).
    { clear. induction l as [|e l IH]; intros m Hl Hm; cbn [foldM]. { exists m. split; auto. split; auto. split; [lia|]. intros (e & [] & _). }
      destruct (Hl e (or_introl eq_refl)) as (w' & El & Hw'). rewrite El. cbn [bind]. destruct (IH (N.min m w')) as (r & Er & R1 & R2 & R3). { intros; apply Hl; cbn; auto. } { lia. }
      exists r. split; auto. split; auto. split; [lia|]. intros (e' & [<-|He'] & El'). { assert (w' = w) by congruence. subst. lia. } apply R3. eauto. }
    destruct (G ids INF) as (r & Er & _ & _ & R). { intros e He. destruct (Hl e He) as (w' & A & B). exists w'. split; auto. } { lia. }
    rewrite Er. cbn [bind]. rewrite (R Hex). unfold dassert. destruct (N.eqb_spec w INF); [lia|]. cbn. rewrite andb_false_r. auto.
  Qed.

  Lemma dist_scan_ok path x : plen arc path x -> forall st, (st + x < INF)%N -> exists r, dist_scan dbg g st path = Some r /\ length (st :: r) = length path /\
    forall i, S i < length path -> exists w, cheapest arc (nth i path 0) (nth (S i) path 0) w /\ nth (S i) (st :: r) 0%N = (nth i (st :: r) 0 + w)%N.
  Proof.
    induction 1 as [u|u v p w x H P IH]; intros st Hst.
    - exists []. cbn. split; auto. split; auto. intros; lia.
    - change (dist_scan dbg g st (u :: v :: p)) with (m <- min_arc dbg g u v ;; s <- cadd st m ;; r <- dist_scan dbg g s (v :: p) ;; Some (s :: r)). rewrite (min_arc_ok u v w); [|apply (arc_lt u v w), H|auto|lia]. cbn [bind]. unfold cadd. destruct (N.ltb_spec (st + w) U32); [|unfold INF, U32 in *; lia]. cbn [bind].
      destruct (IH (st + w)%N ltac:(lia)) as (r & E & L & S1). rewrite E. cbn [bind]. exists ((st + w)%N :: r). split; auto. split. { cbn in *. lia. }
      intros [|i] Hi. { cbn [nth]. eauto. } destruct (S1 i) as (w' & A & B). { cbn in *. lia. } exists w'. auto.
  Qed.
  Lemma path_dists_ok path x : plen arc path x -> (x < INF)%N -> exists dists, path_dists dbg g path = Some dists /\ sums arc path dists /\ nth (length path - 1) dists 0%N = x.
  Proof.
    intros P Hx. destruct (dist_scan_ok path x P 0%N ltac:(lia)) as (r & E & L & S1). unfold path_dists. rewrite E. cbn [bind]. exists (0%N :: r). split; auto.
    assert (HS : sums arc path (0%N :: r)) by (split; auto). split; auto.
    destruct (plen_total arc path x P) as (ds & HS' & Ex). assert (0 < length path) by (destruct P; cbn; lia).
    assert (HE : forall i, i < length path -> nth i (0%N :: r) 0%N = nth i ds 0%N).
    { induction i as [|i IHi]; intros Hi. { cbn. symmetry. apply HS'. } destruct HS as (_ & _ & A). destruct HS' as (_ & _ & B). destruct (A i Hi) as (w & A1 & A2). destruct (B i Hi) as (w' & B1 & B2).
      rewrite A2, B2, IHi by lia. rewrite (cheapest_det _ _ _ _ _ A1 B1). auto. }
    rewrite HE by lia. auto.
  Qed.
  Lemma plen_lt path x : plen arc path x -> 2 <= length path -> Forall (fun v => v < n) path.
  Proof.
    induction 1 as [u|u v p w x H P IH]; intros Hl. { cbn in Hl. lia. } destruct (arc_lt _ _ _ (proj1 H)). constructor; auto. destruct p; [repeat constructor; auto|apply IH; cbn; lia].
  Qed.

  (** ** The trees *)
  Section Path.
    Variable path : list nat.
    Variable dists : list N.
    Variable pr : ranks.
    Variable x : N.
    Hypothesis Hx : (x < INF)%N.
    Hypothesis Hs : sums arc path dists.
    Hypothesis Hlast : nth (length path - 1) dists 0%N = x.
    Hypothesis Hpn : Forall (fun v => v < n) path.
    Hypothesis Hpr : forall i, i < length path -> nth_error pr (nth i path 0) = Some (Some i).
    Hypothesis Hpl : length pr = n.
    Hypothesis Hpo : forall v, v < n -> ~ In v path -> nth_error pr v = Some None.
    Notation X i := (nth i path 0).
    Notation dd i := (nth i dists 0%N).

    Lemma X_lt i : i < length path -> X i < n.
    Proof. intros. rewrite Forall_forall in Hpn. apply Hpn. apply nth_In. auto. Qed.
    Lemma X_inj' i j : i < length path -> j < length path -> X i = X j -> i = j.
    Proof. intros Hi Hj E. pose proof (Hpr i Hi) as A. rewrite E, Hpr in A by auto. congruence. Qed.
    Lemma sub_walk i j : i <= j -> j < length path -> (dd j - dd i < INF)%N /\ walk arc (X i) (X j) (dd j - dd i)%N.
    Proof.
      intros Hij Hj. destruct Hs as (L & Z & S1). split.
      - destruct (sums_plen arc path dists j (length path - 1) Hs ltac:(lia)). lia.
      - remember (j - i) as k. revert i Hij Heqk. induction k as [|k IH]; intros i Hij Hk.
        + assert (i = j) by lia. subst. rewrite N.sub_diag. constructor.
        + destruct (S1 i ltac:(lia)) as (w & [HA _] & E). specialize (IH (S i) ltac:(lia) ltac:(lia)). destruct (sums_plen arc path dists (S i) j Hs ltac:(lia)).
          replace (dd j - dd i)%N with (w + (dd j - dd (S i)))%N by lia. econstructor; eauto.
    Qed.
    Lemma part_nodup lo k : lo + k <= length path -> NoDup (part path lo k).
    Proof.
      intros Hl. unfold part. assert (G : forall l, NoDup l -> (forall i, In i l -> i < length path) -> NoDup (map (fun i => X i) l)).
      { induction l as [|i l IH]; intros ND H; cbn; constructor. 2: { inversion ND; subst. apply IH; auto. intros; apply H; cbn; auto. }
        inversion ND; subst. intros Hin. apply in_map_iff in Hin. destruct Hin as (j & E & Hj). apply X_inj' in E; [subst; auto|apply H; cbn; auto|apply H; cbn; auto]. }
      apply G. { apply seq_NoDup. } intros i Hi. apply in_seq in Hi. lia.
    Qed.

    Lemma dij_contract (A : nat -> nat -> N -> Prop) links (HA : forall u v w, A v u w <-> garc links u v w) (WF : wf_links n links) rootof :
      (forall lo m, lo + m < length path -> lo <= rootof lo m <= lo + m) ->
      (forall lo m i, lo + m < length path -> lo <= i <= lo + m -> exists l, walk A (X i) (X (rootof lo m)) l /\ (l < INF)%N) ->
      tree_contract n path pr A (Ready n) (fun pr d root p => grow g links (window_of pr p) d root p) dij_dist (fun d _ => Some d) dij_pred rootof.
    Proof.
      intros Hroot Hreach. constructor. intros lo m d Hl HR. pose proof (Hroot lo m Hl). set (r := rootof lo m) in *.
      assert (FA : forall u v l, walk A v u l <-> walk (garc links) u v l).
      { intros u v l. split; intros W.
        - apply walk_flip in W. revert W. apply walk_mono. intros a b w H1. apply HA. exact H1.
        - apply walk_flip in W. revert W. apply walk_mono. intros a b w H1. apply HA. exact H1. }
      destruct (grow_ok n links WF (X r) (X_lt r ltac:(lia)) g (window_of pr (part path lo (S m))) (part path lo (S m)) d) as (d' & ord & st & E & O & Hord); auto.
      - apply g_nodes.
      - apply part_nodup. lia.
      - rewrite part_len. lia.
      - intros v Hv. unfold window_of. replace (hd 0 (part path lo (S m))) with (X lo) by reflexivity. replace (last (part path lo (S m)) 0) with (X (lo + m)).
        + apply (part_window (V := unit) n arc path dists pr (fun v _ _ _ => Some (v, false)) (fun _ _ => false) (fun v _ _ => v)); auto.
          { rewrite Forall_forall in Hpn. auto. } { intros i Hi. apply nth_error_nth'. rewrite (proj1 Hs). auto. } apply Hs.
        + unfold part. rewrite seq_S, map_app. cbn [map]. rewrite last_last. auto.
      - intros v Hv. apply part_in in Hv. destruct Hv as (i & Hi & ->). destruct (Hreach lo m i Hl ltac:(lia)) as (l & W & Hlt). apply FA in W.
        apply (dist_exists n links WF (X r) (X_lt r ltac:(lia)) (X i) l); auto. apply X_lt. lia.
      - assert (HO : forall i, lo <= i <= lo + m -> In (X i) (map fst ord)). { intros i Hi. apply Hord. apply part_in. exists i. split; auto. lia. }
        pose proof (grown_ok n links WF (X r) (X_lt r ltac:(lia)) A HA d' ord st O) as GO.
        exists d', (aD st), (fun t => t = d'), dij_pred. split; auto. split; auto. split. { intros t ->. eapply R_Ready. apply (o_R _ _ _ _ _ _ _ _ _ _ O). }
        split; [auto|]. split; [|split].
        + intros i Hi. apply GO. auto.
        + intros t i -> Hi. exists d'. destruct (GO (X i) (HO i Hi)) as (_ & G2 & _). split; auto. split; auto. intros v p. auto.
        + intros t i -> Hi. destruct (GO (X i) (HO i Hi)) as (_ & _ & p & G3). exists d', p. split; auto. split; auto. split; auto. intros v q. auto.
    Qed.

    (** the tree search with any closure of the expected form *)
    Lemma dij_tree_ok {V} (found : V -> prange -> N -> N -> option (V * bool)) (test : N -> N -> bool) (upd : V -> prange -> N -> V) :
      (forall v a b d, a < b < length path -> is_dist arc (X a) (X b) d -> (d < dd b - dd a)%N ->
        found v (a, b) (dd b - dd a)%N d = Some (if test (dd b - dd a)%N d then (upd v (a, b) (dd b - dd a)%N, true) else (v, false))) ->
      (forall y, test y y = false) -> (forall y d k, (k <= d)%N -> (d < y)%N -> test y d = true -> test (y - k)%N (d - k)%N = true) ->
      forall bd fd cache v, Ready n bd -> Ready n fd -> length cache = n -> all_none cache = true ->
      exists bd' fd' cache' evs, dij_tree dbg g rg found path dists pr bd fd cache v = Some (bd', fd', cache', fold_left (fun v r => upd v r (dd (snd r) - dd (fst r))%N) evs v) /\
        Ready n bd' /\ Ready n fd' /\ length cache' = n /\ all_none cache' = true /\ Forall (bad arc path dists test) evs /\ forall r, inclusion_minimal (bad arc path dists test) r -> In r evs.
    Proof.
      intros Hfound T1 T2 bd fd cache v Hbd Hfd Lc Nc. unfold dij_tree. rewrite g_nodes.
      destruct (adj_wf_links adj g HV HF HW Hg) as [WFg HAg]. destruct (rev_wf adj g rg HV HF HW Hg Hrg) as [WFr _]. pose proof (reversed_arcs 0%N adj g rg HV HF Hg Hrg) as RA.
      apply (tree_find_ok dbg n arc path dists pr) with (test := test); auto.
      - rewrite Forall_forall in Hpn. auto.
      - intros i Hi. apply nth_error_nth'. rewrite (proj1 Hs). auto.
      - apply Hs.
      - apply dij_contract; auto.
        + intros u w' w. rewrite RA. symmetry. apply HAg.
        + intros; lia.
        + intros lo m i Hl Hi. destruct (sub_walk i (lo + m) ltac:(lia) Hl). eauto.
      - apply dij_contract; auto.
        + intros u w' w. unfold flip_arc. symmetry. apply HAg.
        + intros; lia.
        + intros lo m i Hl Hi. destruct (sub_walk lo i ltac:(lia) ltac:(lia)) as [A B]. apply walk_flip in B. eauto.
    Qed.

    (** [bad] says the same as [violates] *)
    Lemma bad_violates thr r : bad arc path dists (fun y d => (thr d <? y - d)%N) r <-> violates arc thr path r.
    Proof.
      destruct r as [a b]. unfold bad, violates. cbn [fst snd]. split.
      - intros (Hab & d & Hd & Ht). split; [lia|]. exists (X a), (X b), (dd b - dd a)%N, d. split; [apply nth_error_nth'; lia|]. split; [apply nth_error_nth'; lia|].
        split. { apply (sums_plen arc path dists a b Hs). lia. } split; auto. apply N.ltb_lt in Ht. lia.
      - intros (Hab & u & v & y & d & Ha & Hb & P & Hd & Ht). pose proof (nth_error_Some_lt _ _ _ Hb). split; [lia|]. exists d. rewrite (nth_error_nth _ _ 0 Ha), (nth_error_nth _ _ 0 Hb). split; auto.
        destruct (sums_plen arc path dists a b Hs ltac:(lia)) as [P' _]. rewrite (plen_det _ _ _ P _ P') in Ht. apply N.ltb_lt. lia.
    Qed.
  End Path.

  (** ** The query *)
  Variable sort : list prange -> list prange.
  Hypothesis Hsort : cmp_sort rg_ltb sort.
  Variable thr : N -> N.
  Hypothesis Hthr : forall a b, (a <= b)%N -> (thr a <= thr b)%N.
  Hypothesis Hdbg : dbg = true -> forall u v w, arc u v w -> (0 < w)%N.

  Record UOK (u : ubs) : Prop := { uo_f : Ready n (u_fd u); uo_b : Ready n (u_bd u); uo_cl : length (u_cache u) = n; uo_cn : all_none (u_cache u) = true; uo_rl : length (u_ranks u) = n; uo_rn : all_none (u_ranks u) = true }.
  Lemma ubs_new_ok : UOK (ubs_new g).
  Proof.
    unfold ubs_new. rewrite g_nodes. assert (forall k, all_none (repeat None k) = true) by (induction k; auto). constructor; cbn; auto using repeat_length; apply new_Ready.
  Qed.

  Lemma minimal_ext (P Q : prange -> Prop) : (forall r, P r <-> Q r) -> forall r, inclusion_minimal P r <-> inclusion_minimal Q r.
  Proof. intros H r. unfold inclusion_minimal. rewrite H. split; intros [A B]; split; auto; intros r' Hr'; apply B; apply H; auto. Qed.

  Lemma dist_pos u v d : dbg = true -> u <> v -> is_dist arc u v d -> (0 < d)%N.
  Proof. intros Hd Hne [W _]. destruct W as [|u a v w l HA W]; [congruence|]. pose proof (Hdbg Hd _ _ _ HA). lia. Qed.

  (** simple paths *)
  Lemma ubs_find_simple u path : UOK u -> NoDup path -> Forall (fun v => v < n) path -> path = [] \/ (exists x, plen arc path x /\ (x < INF)%N) ->
    exists u' r, ubs_find dbg g rg sort thr u path = Some (u', r) /\ UOK u' /\ lists_minimal (violates arc thr path) r.
  Proof.
    intros HU ND Hpn Hlen. destruct HU as [U1 U2 U3 U4 U5 U6]. unfold ubs_find. unfold dassert. rewrite U6. cbn [negb]. rewrite andb_false_r.
    destruct (note_ok n path Hpn (u_ranks u) U5 U6) as ([pr vio] & E & [N1 N2 N3 N4]). cbn [fst snd] in *. rewrite E. cbn [bind].
    assert (Ev : vio = []). { destruct vio as [|r vio]; auto. exfalso. destruct (proj1 (N3 r) (or_introl eq_refl)) as [(Hlt & v & A & B & _) _]. rewrite NoDup_nth_error in ND. assert (fst r = snd r); [|lia]. apply ND; [eapply nth_error_Some_lt; eauto|congruence]. }
    rewrite Ev. clear Ev N3 N4 E.
    assert (Hcl : forall v, cached pr v -> In v path). { intros v (i & Hi). assert (Hv : v < n) by (apply nth_error_Some_lt in Hi; lia). destruct (N2 v Hv) as [[A _]|(j & _ & A & B & _)]; [congruence|]. eapply nth_error_In; eauto. }
    destruct (clear_ok n path pr Hpn N1 Hcl) as (pr' & Ec & C1 & C2).
    assert (Hfin : forall fd bd cache evs, Ready n fd -> Ready n bd -> length cache = n -> all_none cache = true -> (forall r, In r evs -> violates arc thr path r) ->
      (forall r, inclusion_minimal (violates arc thr path) r -> In r evs) -> exists out, filter_covered sort evs = Some out /\ UOK (mkUbs fd bd cache pr') /\ lists_minimal (violates arc thr path) out).
    { intros fd bd cache evs F1 F2 F3 F4 F5 F6. destruct (filter_covered_ok sort evs Hsort) as (out & Eo & So & Mo). { intros r Hr. destruct (F5 r Hr) as [H _]. lia. }
      exists out. split; auto. split. { constructor; auto. } split; auto. intros r. rewrite Mo. split; intros [A B].
      - split; auto. intros r' Hr' H1 H2. 
        (* below every violating range lies a minimal one *)
        assert (Hmin : forall k q, snd q - fst q <= k -> violates arc thr path q -> ~ ~ exists q', inclusion_minimal (violates arc thr path) q' /\ fst q <= fst q' /\ snd q' <= snd q).
        { clear. induction k as [|k IH]; intros q Hk Hq. { destruct Hq. lia. } intros NE. apply NE. exists q. split; [|lia]. split; auto. intros q' Hq' H1 H2.
          destruct (Nat.eq_dec (snd q' - fst q') (snd q - fst q)) as [E|Hne]. { destruct Hq' as [Hlt' _], Hq as [Hlt _]. destruct q, q'; cbn in *. f_equal; lia. }
          exfalso. destruct Hq as [Hlt _]. apply (IH q'); auto. { lia. } intros (z & Z1 & Z2 & Z3). apply NE. exists z. split; auto. lia. }
        destruct (Nat.eq_dec (fst r') (fst r)) as [E1|E1]; [destruct (Nat.eq_dec (snd r') (snd r)) as [E2|E2]; [destruct r, r'; cbn in *; congruence|]|];
          exfalso; apply (Hmin _ r' (le_n _) Hr'); intros (q & Hq & Q1 & Q2); assert (q = r) by (apply B; [apply F6; auto|lia|lia]); subst q; lia.
      - split; [apply F6; split; auto|]. intros r' Hr'. apply B. auto. }
    assert (Hlast : exists bd' fd' cache' evs dists, path_dists dbg g path = Some dists /\ dij_tree dbg g rg (ubs_found dbg thr) path dists pr (u_bd u) (u_fd u) (u_cache u) [] = Some (bd', fd', cache', evs) /\
      Ready n fd' /\ Ready n bd' /\ length cache' = n /\ all_none cache' = true /\ (forall r, In r evs -> violates arc thr path r) /\ (forall r, inclusion_minimal (violates arc thr path) r -> In r evs)).
    { destruct Hlen as [->|(x & P & Hx)].
      - exists (u_bd u), (u_fd u), (u_cache u), [], [0%N]. split; auto. split. { unfold dij_tree, tree_find, dassert. cbn. rewrite andb_false_r. reflexivity. }
        do 4 (split; [assumption|]). split; [intros r []|]. intros r [[_ (a & b & y & d & A & _)] _]. destruct (fst r); discriminate.
      - destruct (path_dists_ok path x P Hx) as (dists & Ed & Sd & Hd).
        assert (Hpr : forall i, i < length path -> nth_error pr (nth i path 0) = Some (Some i)).
        { intros i Hi. pose proof (nth_error_nth' path 0 Hi) as Ei. destruct (N2 (nth i path 0)) as [[_ A]|(j & A & B & C & _)]. { rewrite Forall_forall in Hpn. apply Hpn. apply nth_In. auto. } { exfalso. apply (A i Hi Ei). }
          assert (j = i); [|subst; auto]. rewrite NoDup_nth_error in ND. apply ND; [auto|]. rewrite Ei. auto. }
        assert (Hpo : forall v, v < n -> ~ In v path -> nth_error pr v = Some None).
        { intros v Hv Hni. destruct (N2 v Hv) as [[A _]|(j & _ & _ & A & _)]; auto. exfalso. apply Hni. eapply nth_error_In; eauto. }
        assert (Hfound : forall (vv : list prange) a b d, a < b < length path -> is_dist arc (nth a path 0) (nth b path 0) d -> (d < nth b dists 0 - nth a dists 0)%N ->
          ubs_found dbg thr vv (a, b) (nth b dists 0 - nth a dists 0)%N d = Some (if (thr d <? nth b dists 0 - nth a dists 0 - d)%N then (vv ++ [(a, b)], true) else (vv, false))).
        { intros vv a b d Hab Hdd Hlt. unfold ubs_found, dassert. assert (Hc : dbg && negb ((d <=? nth b dists 0 - nth a dists 0)%N && (0 <? d)%N) = false).
          { apply andb_false_iff. destruct (Bool.bool_dec dbg true) as [Edbg|Edbg]; [right|left; apply Bool.not_true_is_false; auto]. apply negb_false_iff. apply andb_true_iff. split; [apply N.leb_le; lia|]. apply N.ltb_lt. apply (dist_pos (nth a path 0) (nth b path 0)); auto.
            intros Eq. apply NoDup_nth in Eq; auto; lia. }
          rewrite Hc. unfold csubN. destruct (N.leb_spec d (nth b dists 0 - nth a dists 0)%N); [|lia]. cbn [bind]. auto. }
        destruct (dij_tree_ok path dists pr x Hx Sd Hd Hpn Hpr N1 Hpo (ubs_found dbg thr) (fun y d => (thr d <? y - d)%N) (fun vv r _ => vv ++ [r])) with (bd := u_bd u) (fd := u_fd u) (cache := u_cache u) (v := @nil prange)
          as (bd' & fd' & cache' & evs & Et & R1 & R2 & R3 & R4 & R5 & R6); auto.
        + intros y. rewrite N.sub_diag. destruct (N.ltb_spec (thr y) 0); auto. lia.
        + intros y d k Hk Hy Ht. apply N.ltb_lt in Ht. apply N.ltb_lt. pose proof (Hthr (d - k) d ltac:(lia))%N. lia.
        + assert (Ef : forall evs v0, fold_left (fun (v : list prange) (r : prange) => v ++ [r]) evs v0 = v0 ++ evs).
          { clear. induction evs as [|e evs IH]; intros v0; cbn. { rewrite app_nil_r. auto. } rewrite IH, <- app_assoc. auto. }
          rewrite Ef in Et. cbn [app] in Et. exists bd', fd', cache', evs, dists. do 6 (split; [assumption|]).
          split.
          * intros r Hr. rewrite Forall_forall in R5. apply (bad_violates path dists pr x); auto.
          * intros r Hr. apply R6. revert Hr. apply minimal_ext. intros q. split; apply (bad_violates path dists pr x); auto. }
    destruct Hlast as (bd' & fd' & cache' & evs & dists & Ed & Et & H1 & H2 & H3 & H4 & H5 & H6). rewrite Ed. cbn [bind]. rewrite Et. cbn [bind]. rewrite Ec. cbn [bind].
    destruct (Hfin fd' bd' cache' evs H1 H2 H3 H4 H5 H6) as (out & Eo & UO & LM). rewrite Eo. cbn [bind]. eauto.
  Qed.

  (** paths that visit a node twice *)
  Lemma ubs_find_repeat u path : UOK u -> ~ NoDup path -> Forall (fun v => v < n) path ->
    exists u' r, ubs_find dbg g rg sort thr u path = Some (u', r) /\ UOK u' /\ r <> [] /\ StronglySorted (fun a b => snd a < snd b) r /\ forall q, In q r <-> revisit path q.
  Proof.
    intros HU ND Hpn. destruct HU as [U1 U2 U3 U4 U5 U6]. unfold ubs_find. unfold dassert. rewrite U6. cbn [negb]. rewrite andb_false_r.
    destruct (note_ok n path Hpn (u_ranks u) U5 U6) as ([pr vio] & E & [N1 N2 N3 N4]). cbn [fst snd] in *. rewrite E. cbn [bind].
    assert (Hcl : forall v, cached pr v -> In v path). { intros v (i & Hi). assert (Hv : v < n) by (apply nth_error_Some_lt in Hi; lia). destruct (N2 v Hv) as [[A _]|(j & _ & A & B & _)]; [congruence|]. eapply nth_error_In; eauto. }
    destruct (clear_ok n path pr Hpn N1 Hcl) as (pr' & Ec & C1 & C2).
    assert (H3 : forall q, In q vio <-> revisit path q). { intros q. rewrite N3. split; [tauto|]. intros H. split; auto. destruct H as (_ & v & _ & H & _). eapply nth_error_Some_lt; eauto. }
    destruct vio as [|r0 vio].
    - exfalso. apply ND. apply NoDup_nth_error. intros i j Hi Eij.
      assert (G : forall k a v, nth_error path a = Some v -> nth_error path (a + S k) = Some v -> False).
      { clear - H3. induction k as [k IH] using lt_wf_ind. intros a v A B.
        assert (D : (exists c, a < c < a + S k /\ nth_error path c = Some v) \/ forall c, a < c < a + S k -> nth_error path c <> Some v).
        { clear. induction k as [|k IH]. { right. intros; lia. } destruct IH as [(c & C1 & C2)|N]. { left. exists c. split; auto. lia. }
          assert (DD : {nth_error path (a + S k) = Some v} + {nth_error path (a + S k) <> Some v}) by (repeat decide equality). destruct DD as [Y|Y]. { left. exists (a + S k). split; auto. lia. }
          right. intros c Hc. destruct (Nat.eq_dec c (a + S k)) as [->|]; auto. apply N. lia. }
        destruct D as [(c & C1 & C2)|D].
        - apply (IH (a + k - c) ltac:(lia) c v C2). replace (c + S (a + k - c)) with (a + S k) by lia. auto.
        - destruct (proj2 (H3 (a, a + S k))). split; cbn; [lia|]. exists v. auto. }
      destruct (nth_error_lt path i Hi) as [v Ev]. rewrite Ev in Eij. destruct (Nat.lt_trichotomy i j) as [H|[H|H]]; auto; exfalso.
      + apply (G (j - i - 1) i v); auto. replace (i + S (j - i - 1)) with j by lia. auto.
      + apply (G (i - j - 1) j v); auto. replace (j + S (i - j - 1)) with i by lia. auto.
    - rewrite Ec. cbn [bind]. eexists _, _. split; [reflexivity|]. split. { constructor; auto. } split; [discriminate|]. split; auto.
  Qed.

  Lemma ubs_history_ok paths : Forall (good_path adj) paths -> exists u, ubs_history dbg g rg sort thr (ubs_new g) paths = Some u /\ UOK u.
  Proof.
    unfold ubs_history. generalize ubs_new_ok. generalize (ubs_new g). induction paths as [|p paths IH]; intros u HU F; cbn [foldM]; [eauto|]. inversion F as [|? ? [G1 G2] F']; subst.
    destruct (ListDec.NoDup_dec Nat.eq_dec p) as [ND|ND].
    - destruct (ubs_find_simple u p HU ND G1 (G2 ND)) as (u' & r & E & HU' & _). rewrite E. cbn [bind]. auto.
    - destruct (ubs_find_repeat u p HU ND G1) as (u' & r & E & HU' & _). rewrite E. cbn [bind]. auto.
  Qed.
End Main.
