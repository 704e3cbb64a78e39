(** Landmark potentials: distance rows, layout, lower bounds. *)
From Verif Require Import Base SpecGraph BitVec IndexHeap TsVec Graph GraphProof GraphRevProof Dijkstra DijkstraProof DijServer DijServerProof DijOrderProof DijHistProof PLF PLFRange CCHContractProof TDGraphProof Alt.

(** [x] is the distance from [s] to [v], cut off at INF *)
Definition capd (arc : nat -> nat -> N -> Prop) (s v : nat) (x : N) : Prop :=
  (x <= INF)%N /\ exact_answer arc s v (if (x <? INF)%N then Some x else None).

Lemma capd_le arc s u v l x y : capd arc s u x -> capd arc s v y -> walk arc u v l -> (y <= x + l)%N.
Proof.
  intros [Hx X] [Hy Y] W. destruct (x <? INF)%N eqn:Ex; cbn in X.
  - destruct X as [_ [X _]]. pose proof (walk_app _ _ _ _ _ _ X W) as W'. destruct (y <? INF)%N eqn:Ey; cbn in Y; apply Y in W'; lia.
  - lia.
Qed.

Lemma mapM_seq_nth {B} (f : nat -> option B) n r i : mapM f (seq 0 n) = Some r -> i < n -> exists b, nth_error r i = Some b /\ f i = Some b.
Proof.
  intros H Hi. apply mapM_inv in H. destruct (Forall2_nth _ _ _ i i H) as (b & Eb & Hb); eauto.
  rewrite (nth_error_nth' _ 0) by (rewrite seq_length; auto). rewrite seq_nth; auto.
Qed.
Lemma mapM_seq_len {B} (f : nat -> option B) n r : mapM f (seq 0 n) = Some r -> length r = n.
Proof. intros H. apply mapM_inv in H. apply Forall2_len in H. rewrite seq_length in H. auto. Qed.

(** * One row *)
Definition row_of (arc : nat -> nat -> N -> Prop) (n l : nat) (ds : list N) : Prop :=
  length ds = n /\ forall v x, nth_error ds v = Some x -> capd arc l v x.
Lemma alt_row_ok n links sv l : wf_links n links -> SvOK n (fun _ => True) sv -> l < n ->
  exists sv' ds, alt_row n links sv l = Some (sv', ds) /\ SvOK n (fun _ => True) sv' /\ row_of (garc links) n l ds.
Proof.
  intros WF OK Hl. unfold alt_row, sv_one_to_all.
  destruct (sv_all_ok n links fst def_lk def_pl zero_init zero_pot (snb links) sslk any_target (fun _ => True) (fun _ _ => True) (fun _ _ => Some 0%N)
      (snb_links n links WF) (snb_hd n links WF) (snb_lk n links WF) (sslk_mono n links) (sslk_ext n links) (zero_contract n) sv l 0%N OK Hl) as (sv' & r & E & S' & X).
  { reflexivity. } { exact I. } { intros v p [= <-]. unfold INF, U32; lia. } { discriminate. }
  rewrite E. cbn [bind]. destruct (mapM_ok (sv_dist_of sv') (seq 0 n)) as (ds & Ed & _).
  { intros v Hv. apply in_seq in Hv. destruct (X v ltac:(lia)) as (x & Ex & _). eauto. }
  rewrite Ed. cbn [bind]. exists sv', ds. split; auto. split; auto. split. { eapply mapM_seq_len; eauto. }
  intros v x Hx. assert (Hv : v < n) by (apply nth_error_Some_lt in Hx; rewrite (mapM_seq_len _ _ _ Ed) in Hx; auto).
  destruct (X v Hv) as (y & Ey & Hy & Ear & _). destruct (mapM_seq_nth _ _ _ v Ed Hv) as (z & Ez & Ez'). assert (x = y) by congruence. subst y.
  split; auto. eapply earliest_exact; eauto.
Qed.

(** * The interleaved arrays *)
Record AltOK (lms : list nat) (arc : nat -> nat -> N -> Prop) (n : nat) (a : altdata) (xs ys : list (list N)) : Prop := {
  ao_k : 0 < al_k a; ao_l : al_k a = length lms;
  ao_fw : al_fw a = concat xs; ao_bw : al_bw a = concat ys;
  ao_lx : length xs = n; ao_ly : length ys = n;
  ao_rx : forall r, In r xs -> length r = al_k a;
  ao_ry : forall r, In r ys -> length r = al_k a;
  ao_x : forall v r i x, nth_error xs v = Some r -> nth_error r i = Some x -> capd arc (nth i lms 0) v x;
  ao_y : forall v r i x, nth_error ys v = Some r -> nth_error r i = Some x -> capd (flip_arc arc) (nth i lms 0) v x }.

Lemma alt_flip lms arc n a xs ys : AltOK lms arc n a xs ys -> AltOK lms (flip_arc arc) n (alt_backward a) ys xs.
Proof. intros []. split; auto. Qed.

Lemma tlen_const {A} (xs : list (list A)) k i : (forall r, In r xs -> length r = k) -> i <= length xs -> tlen (firstn i xs) = i * k.
Proof.
  revert i. induction xs as [|x xs IH]; intros [|i] H Hi; cbn [firstn]; auto. { cbn in Hi. lia. }
  cbn [length] in Hi. assert (IH' := IH i (fun r Hr => H r (or_intror Hr)) ltac:(lia)). pose proof (H x (or_introl eq_refl)).
  unfold tlen in *. cbn [concat]. rewrite app_length, IH'. lia.
Qed.
Lemma slice_rows {A} (xs : list (list A)) k i : (forall r, In r xs -> length r = k) -> i < length xs ->
  exists r, nth_error xs i = Some r /\ length r = k /\ slice (concat xs) (i * k) (i * k + k) = Some r.
Proof.
  intros H Hi. destruct (nth_error xs i) as [r|] eqn:E. 2:{ apply nth_error_None in E. lia. }
  exists r. split; auto. split. { apply H. eapply nth_error_In; eauto. }
  rewrite <- (tlen_const xs k i) by (auto; lia). replace (tlen (firstn i xs) + k) with (tlen (firstn (S i) xs)). apply slice_concat; auto.
  rewrite !(tlen_const xs k) by (auto; lia). lia.
Qed.

Lemma alt_layout_ok arc n lms fw bw : 0 < length lms -> length fw = length lms -> length bw = length lms ->
  (forall i r, nth_error fw i = Some r -> row_of arc n (nth i lms 0) r) ->
  (forall i r, nth_error bw i = Some r -> row_of (flip_arc arc) n (nth i lms 0) r) ->
  exists a xs ys, alt_layout fw bw = Some a /\ AltOK lms arc n a xs ys.
Proof.
  intros Hk Lf Lb Rf Rb. unfold alt_layout.
  destruct (nth_error fw 0) as [f0|] eqn:E0. 2:{ apply nth_error_None in E0. lia. } cbn [bind].
  destruct (Rf 0 f0 E0) as [L0 _]. rewrite L0, Lf.
  assert (G : forall (arc : nat -> nat -> N -> Prop) fw, length fw = length lms -> (forall i r, nth_error fw i = Some r -> row_of arc n (nth i lms 0) r) ->
    exists xs, mapM (fun node => mapM (fun l => r <- nth_error fw l ;; nth_error r node) (seq 0 (length lms))) (seq 0 n) = Some xs /\
      length xs = n /\ (forall r, In r xs -> length r = length lms) /\
      forall v r i x, nth_error xs v = Some r -> nth_error r i = Some x -> capd arc (nth i lms 0) v x).
  { clear. intros arc fw Lf Rf.
    assert (RE : forall i, i < length lms -> exists r, nth_error fw i = Some r).
    { intros i Hi. destruct (nth_error fw i) eqn:E; eauto. apply nth_error_None in E. lia. }
    destruct (mapM_ok (fun node => mapM (fun l => r <- nth_error fw l ;; nth_error r node) (seq 0 (length lms))) (seq 0 n)) as (xs & Ex & _).
    { intros v Hv. apply in_seq in Hv. edestruct @mapM_ok as (b & Eb & _); [|exists b; exact Eb]. intros l Hl. apply in_seq in Hl. destruct (RE l ltac:(lia)) as (r & E). rewrite E. cbn [bind].
      destruct (Rf _ _ E) as [Lr _]. destruct (nth_error r v) eqn:E'; eauto. apply nth_error_None in E'. lia. }
    exists xs. split; auto. split. { eapply mapM_seq_len; eauto. } split.
    - intros r Hr. apply In_nth_error in Hr. destruct Hr as (v & Hv). assert (v < n) by (apply nth_error_Some_lt in Hv; rewrite (mapM_seq_len _ _ _ Ex) in Hv; auto).
      destruct (mapM_seq_nth _ _ _ v Ex H) as (b & Eb & Hb). assert (b = r) by congruence. subst. eapply mapM_seq_len; eauto.
    - intros v r i x Hv Hi. assert (Hvn : v < n) by (apply nth_error_Some_lt in Hv; rewrite (mapM_seq_len _ _ _ Ex) in Hv; auto).
      destruct (mapM_seq_nth _ _ _ v Ex Hvn) as (b & Eb & Hb). assert (b = r) by congruence. subst b. clear Eb.
      assert (Hik : i < length lms) by (apply nth_error_Some_lt in Hi; rewrite (mapM_seq_len _ _ _ Hb) in Hi; auto).
      destruct (mapM_seq_nth _ _ _ i Hb Hik) as (y & Ey & Hy). assert (y = x) by congruence. subst y. apply bind_Some in Hy. destruct Hy as (w & Ew & Hw).
      apply (Rf _ _ Ew); auto. }
  destruct (G arc fw Lf Rf) as (xs & Ex & A1 & A2 & A3). destruct (G (flip_arc arc) bw Lb Rb) as (ys & Ey & B1 & B2 & B3).
  rewrite Ex. cbn [bind]. rewrite Ey. cbn [bind]. eexists _, xs, ys. split; [reflexivity|]. split; cbn [al_k al_fw al_bw]; auto.
Qed.

(** * new *)
Lemma alt_new_ok n m links rev lms : wf_links n links -> reversed 0%N n m links = Some rev -> wf_links n (link_iter rev) ->
  (forall u v w, garc (link_iter rev) v u w <-> garc links u v w) -> lms <> [] -> Forall (fun l => l < n) lms ->
  exists a xs ys, alt_new n m links lms = Some a /\ AltOK lms (garc links) n a xs ys.
Proof.
  intros WF Er WR RA Hne Hl. unfold alt_new. rewrite Er. cbn [bind].
  edestruct (foldM_inv (fun st l => let '(sv, rsv, fw, bw) := st in
      '(sv, f) <- alt_row n links sv l ;; '(rsv, b) <- alt_row n (link_iter rev) rsv l ;; Some (sv, rsv, fw ++ [f], bw ++ [b]))
      (fun pre st => let '(sv, rsv, fw, bw) := st in SvOK n (fun _ => True) sv /\ SvOK n (fun _ => True) rsv /\ length fw = length pre /\ length bw = length pre /\
         (forall i r, nth_error fw i = Some r -> row_of (garc links) n (nth i lms 0) r) /\
         (forall i r, nth_error bw i = Some r -> row_of (flip_arc (garc links)) n (nth i lms 0) r)) lms (plain_new n, plain_new n, [], []))
    as ([[[sv rsv] fw] bw] & E & _ & _ & Lf & Lb & Rf & Rb).
  - split. { apply (sv_new_ok n); auto. } split. { apply (sv_new_ok n); auto. } split; auto. split; auto. split; intros [|i] r; discriminate.
  - intros pre l post [[[sv rsv] fw] bw] EL (S1 & S2 & Lf & Lb & Rf & Rb).
    assert (Hn : l < n). { rewrite Forall_forall in Hl. apply Hl. rewrite EL. apply in_or_app. right; left; auto. }
    assert (Nl : nth (length pre) lms 0 = l). { rewrite EL, app_nth2, Nat.sub_diag; auto. }
    destruct (alt_row_ok n links sv l WF S1 Hn) as (sv' & f & E1 & S1' & R1). destruct (alt_row_ok n (link_iter rev) rsv l WR S2 Hn) as (rsv' & b & E2 & S2' & R2).
    rewrite E1. cbn [bind]. rewrite E2. cbn [bind]. eexists. split; [reflexivity|]. split; auto. split; auto. rewrite !app_length. cbn [length].
    split; auto. split; auto. split.
    + intros i r Hi. destruct (Nat.lt_ge_cases i (length fw)) as [H|H]. { rewrite nth_error_app1 in Hi by auto. auto. }
      rewrite nth_error_app2 in Hi by auto. assert (i - length fw = 0). { apply nth_error_Some_lt in Hi. cbn in Hi. lia. } rewrite H0 in Hi. injection Hi as <-.
      replace i with (length pre) by lia. rewrite Nl. auto.
    + intros i r Hi. destruct (Nat.lt_ge_cases i (length bw)) as [H|H]. { rewrite nth_error_app1 in Hi by auto. auto. }
      rewrite nth_error_app2 in Hi by auto. assert (i - length bw = 0). { apply nth_error_Some_lt in Hi. cbn in Hi. lia. } rewrite H0 in Hi. injection Hi as <-.
      replace i with (length pre) by lia. rewrite Nl. destruct R2 as [R21 R22]. split; auto. intros v x Hx. destruct (R22 v x Hx) as [C1 C2]. split; auto.
      assert (W : forall s t l, walk (garc (link_iter rev)) s t l <-> walk (flip_arc (garc links)) s t l). { intros; split; apply walk_mono; intros; apply RA; auto. }
      destruct (x <? INF)%N; cbn in C2 |- *. { destruct C2 as (C2 & C3 & C4). split; auto. split. { apply W; auto. } intros; apply C4, W; auto. } intros; apply C2, W; auto.
  - rewrite E. cbn [bind]. apply (alt_layout_ok (garc links) n lms); auto. destruct lms; [congruence|cbn; lia].
Qed.

(** * The potential *)
Definition alt_h (a : altdata) (t v : nat) : option N := match alt_get a t v with Some (_, r) => r | None => None end.

Section Get.
  Variable arc : nat -> nat -> N -> Prop.
  Variable n : nat.
  Variable a : altdata.
  Variable lms : list nat.
  Variables xs ys : list (list N).
  Hypothesis AO : AltOK lms arc n a xs ys.

  (** the raw maximum for every node *)
  Lemma alt_raw t v : t < n -> v < n -> exists p rv rt qv qt,
    nth_error xs v = Some rv /\ nth_error xs t = Some rt /\ nth_error ys v = Some qv /\ nth_error ys t = Some qt /\
    alt_get a t v = Some (t, if (p <? INF)%N then Some p else None) /\
    ((exists i x y, nth_error rv i = Some x /\ nth_error rt i = Some y /\ p = (y - x)%N) \/ (exists i x y, nth_error qv i = Some x /\ nth_error qt i = Some y /\ p = (x - y)%N)) /\
    (forall i x y, nth_error rv i = Some x -> nth_error rt i = Some y -> (y - x <= p)%N) /\
    (forall i x y, nth_error qv i = Some x -> nth_error qt i = Some y -> (x - y <= p)%N).
  Proof using AO.
    intros Ht Hv. destruct AO as [K KL Fw Bw Lx Ly Rx Ry X Y].
    destruct (slice_rows xs (al_k a) v Rx) as (rv & E1 & L1 & S1). lia. destruct (slice_rows xs (al_k a) t Rx) as (rt & E2 & L2 & S2). lia.
    destruct (slice_rows ys (al_k a) v Ry) as (qv & E3 & L3 & S3). lia. destruct (slice_rows ys (al_k a) t Ry) as (qt & E4 & L4 & S4). lia.
    unfold alt_get. rewrite Fw, Bw, S1, S2, S3, S4. cbn [bind].
    set (A := map (fun '(nd, td) => (td - nd)%N) (combine rv rt)). set (B := map (fun '(nd, td) => (nd - td)%N) (combine qv qt)).
    assert (CN : forall (l1 l2 : list N) i x y, nth_error l1 i = Some x -> nth_error l2 i = Some y -> nth_error (combine l1 l2) i = Some (x, y)).
    { clear. induction l1 as [|u l1 IH]; intros [|w l2] [|i] x y; cbn; try discriminate; auto. congruence. }
    assert (CI : forall (l1 l2 : list N) x y, In (x, y) (combine l1 l2) -> exists i, nth_error l1 i = Some x /\ nth_error l2 i = Some y).
    { clear. induction l1 as [|u l1 IH]; intros [|w l2] x y; cbn; try tauto. intros [[= <- <-]|H]. exists 0; auto. destruct (IH _ _ _ H) as (i & ? & ?). exists (S i); auto. }
    destruct (lmaxN_ok (A ++ B)) as (p & Ep & Hp & Hm).
    { unfold A. destruct rv; [cbn in L1; lia|]. destruct rt; [cbn in L2; lia|]. discriminate. }
    rewrite Ep. cbn [bind]. exists p, rv, rt, qv, qt. repeat (split; [auto; fail|]). split; [|split].
    - apply in_app_or in Hp. destruct Hp as [H|H]; apply in_map_iff in H; destruct H as ([x y] & <- & H); apply CI in H; destruct H as (i & H1 & H2); [left|right]; eauto 10.
    - intros i x y H1 H2. apply Hm, in_or_app. left. apply in_map_iff. exists (x, y). split; auto. eapply nth_error_In, CN; eauto.
    - intros i x y H1 H2. apply Hm, in_or_app. right. apply in_map_iff. exists (x, y). split; auto. eapply nth_error_In, CN; eauto.
  Qed.

  (** consistency along walks *)
  Lemma alt_walk t u v l q : t < n -> u < n -> v < n -> walk arc u v l -> alt_h a t v = Some q -> (l + q < INF)%N -> exists p, alt_h a t u = Some p /\ (p <= l + q)%N.
  Proof using AO.
    intros Ht Hu Hv W Hq HI. destruct (alt_raw t u Ht Hu) as (pu & ru & rt & qu & qt & U1 & T1 & U2 & T2 & EU & MU & _ & _).
    destruct (alt_raw t v Ht Hv) as (pv & rv & rt' & qv & qt' & V1 & T1' & V2 & T2' & EV & _ & M1 & M2).
    assert (rt' = rt) by congruence. assert (qt' = qt) by congruence. subst rt' qt'. clear T1' T2'.
    unfold alt_h in *. rewrite EU. rewrite EV in Hq. destruct (pv <? INF)%N; [|discriminate]. injection Hq as ->.
    destruct AO as [K KL Fw Bw Lx Ly Rx Ry X Y].
    assert (EX : forall (l : list (list N)) k i r r' z y, (forall r, In r l -> length r = k) -> nth_error l i = Some r -> In r' l -> nth_error r' z = Some y -> exists x, nth_error r z = Some x).
    { clear. intros l k i r r' z y H H1 H2 H3. destruct (nth_error r z) eqn:E; eauto. apply nth_error_None in E. apply nth_error_Some_lt in H3. rewrite (H r') in H3 by auto. rewrite (H r) in E; [lia|]. eapply nth_error_In; eauto. }
    assert (P : (pu <= l + q)%N).
    { destruct MU as [(i & x & y & E1 & E2 & ->)|(i & x & y & E1 & E2 & ->)].
      - destruct (EX xs (al_k a) v rv ru i x Rx V1 (nth_error_In _ _ U1) E1) as (x' & E3).
        pose proof (capd_le _ _ _ _ _ _ _ (X u ru i x U1 E1) (X v rv i x' V1 E3) W). pose proof (M1 i x' y E3 E2). lia.
      - destruct (EX ys (al_k a) v qv qu i x Ry V2 (nth_error_In _ _ U2) E1) as (x' & E3).
        apply walk_flip in W. pose proof (capd_le _ _ _ _ _ _ _ (Y v qv i x' V2 E3) (Y u qu i x U2 E1) W). pose proof (M2 i x' y E3 E2). lia. }
    rewrite (proj2 (N.ltb_lt pu INF)) by lia. eauto.
  Qed.
  Lemma alt_target t : t < n -> alt_h a t t = Some 0%N.
  Proof using AO.
    intros Ht. destruct (alt_raw t t Ht Ht) as (p & r & r' & q & q' & E1 & E2 & E3 & E4 & E & M & _). assert (r = r') by congruence. assert (q = q') by congruence. subst.
    unfold alt_h. rewrite E. assert (p = 0)%N. { destruct M as [(i & x & y & A & B & ->)|(i & x & y & A & B & ->)]; rewrite A in B; injection B as ->; lia. } subst. reflexivity.
  Qed.
  (** triangle bounds *)
  Lemma alt_dom t v l q : t < n -> v < n -> alt_h a t v = Some q -> In l lms ->
    (forall x y, (x < INF)%N -> (y < INF)%N -> is_dist arc l v x -> is_dist arc l t y -> (y <= x + q)%N) /\
    (forall x y, (x < INF)%N -> (y < INF)%N -> is_dist arc v l x -> is_dist arc t l y -> (x <= y + q)%N).
  Proof using AO.
    intros Ht Hv Hq Hl. destruct (alt_raw t v Ht Hv) as (p & rv & rt & qv & qt & E1 & E2 & E3 & E4 & E & _ & M1 & M2).
    unfold alt_h in Hq. rewrite E in Hq. destruct (p <? INF)%N; [|discriminate]. injection Hq as ->.
    destruct AO as [K KL Fw Bw Lx Ly Rx Ry X Y]. destruct (In_nth_error _ _ Hl) as (i & Hi). pose proof (nth_error_Some_lt _ _ _ Hi) as Hil. pose proof (nth_error_nth _ _ 0 Hi) as Hin.
    assert (U : forall arc s v x y, capd arc s v x -> (y < INF)%N -> is_dist arc s v y -> x = y).
    { clear. intros arc s v x y [C1 C2] HI [D1 D2]. destruct (x <? INF)%N eqn:Ex; cbn in C2. { destruct C2 as (_ & C2 & C3). pose proof (C3 _ D1). pose proof (D2 _ C2). lia. } pose proof (C2 _ D1). lia. }
    assert (EX : forall ls u r, (forall r, In r ls -> length r = al_k a) -> nth_error ls u = Some r -> exists x : N, nth_error r i = Some x).
    { intros ls u r HR Hu. destruct (nth_error r i) eqn:E'; eauto. apply nth_error_None in E'. rewrite (HR r) in E'; [lia|]. eapply nth_error_In; eauto. }
    split; intros x y Hx Hy Dx Dy.
    - destruct (EX _ _ _ Rx E1) as (x' & Ex). destruct (EX _ _ _ Rx E2) as (y' & Ey). pose proof (M1 i x' y' Ex Ey).
      pose proof (X _ _ _ _ E1 Ex) as Cx. pose proof (X _ _ _ _ E2 Ey) as Cy. rewrite Hin in Cx, Cy. apply U with (y := x) in Cx; auto. apply U with (y := y) in Cy; auto. lia.
    - destruct (EX _ _ _ Ry E3) as (x' & Ex). destruct (EX _ _ _ Ry E4) as (y' & Ey). pose proof (M2 i x' y' Ex Ey).
      pose proof (Y _ _ _ _ E3 Ex) as Cx. pose proof (Y _ _ _ _ E4 Ey) as Cy. rewrite Hin in Cx, Cy.
      assert (FD : forall u z, is_dist arc u l z -> is_dist (flip_arc arc) l u z). { intros u z [F1 F2]. split. apply walk_flip; auto. intros w Hw. apply F2. apply walk_flip_iff in Hw. auto. }
      apply U with (y := x) in Cx; auto. apply U with (y := y) in Cy; auto. lia.
  Qed.
  Lemma alt_small t v p : alt_h a t v = Some p -> (p < INF)%N.
  Proof using. unfold alt_h, alt_get. intros H.
    destruct (slice (al_fw a) (v * al_k a) (v * al_k a + al_k a)); [|discriminate]. destruct (slice (al_fw a) (t * al_k a) (t * al_k a + al_k a)); [|discriminate].
    destruct (slice (al_bw a) (v * al_k a) (v * al_k a + al_k a)); [|discriminate]. destruct (slice (al_bw a) (t * al_k a) (t * al_k a + al_k a)); [|discriminate]. cbn [bind] in H.
    destruct (lmaxN _); [|discriminate]. cbn [bind] in H. destruct (n0 <? INF)%N eqn:E; [|discriminate]. injection H as <-. apply N.ltb_lt; auto.
  Qed.
  Lemma alt_contract : pot_contract n (fun t => t < n) alt_init (alt_get a) (fun _ => True) (fun t e => e = t /\ t < n) (alt_h a).
  Proof using AO.
    split; auto. - intros e t _ Ht. exists t. auto.
    - intros e t v [-> Ht] Hv. destruct (alt_raw t v Ht Hv) as (p & r & r' & q & q' & E1 & E2 & E3 & E4 & E & _). exists t. unfold alt_h. rewrite E. auto.
  Qed.
End Get.
