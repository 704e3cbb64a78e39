(** The bidirectional search: invariants and exactness. *)
From Verif Require Import Base SpecPQ SpecGraph IndexHeap IndexHeapProof TsVec TsVecProof Graph Dijkstra LoopProof DijkstraRef DijkstraProof DijServer DijServerProof Bidir.

Lemma peek_spec n d st : R (P := unit) n d st ->
  (peek_key d = None /\ forall v, aQ st v = None) \/
  exists u k, u < n /\ peek_key d = Some k /\ aQ st u = Some k /\ forall v k', aQ st v = Some k' -> (k < k')%N \/ k = k' /\ u <= v.
Proof.
  intros HR. pose proof HR as [_ _ _ RH RQ]. unfold peek_key, hpeek.
  destruct (nth_error (data (d_queue d)) 0) as [[k u]|] eqn:E; cbn [option_map fst].
  - right. exists u, k. pose proof (inv_wf _ _ _ _ _ RH) as W.
    assert (Hq : aQ st u = Some k).
    { assert (X : abs state (d_queue d) u = Some (k, u)). { apply (abs_In' state st_idx); auto. split; auto. eapply nth_error_In; eauto. }
      rewrite RQ in X. destruct (aQ st u) as [k'|]; cbn in X; congruence. }
    split. { eapply R_queue_lt; eauto. } split; auto. split; auto.
    intros v k' Hv. assert (X : abs state (d_queue d) v = Some (k', v)) by (rewrite RQ, Hv; auto).
    apply (abs_In' state st_idx) in X; auto. destruct X as [X _]. apply In_nth_error in X. destruct X as [j Hj].
    pose proof (root_min state st_idx st_ltb st_order (data (d_queue d)) ltac:(apply RH) j (k, u) (k', v) E Hj) as Y. unfold st_ltb in Y; cbn [fst snd] in Y. lia.
  - left. split; auto. intros v. destruct (aQ st v) as [k|] eqn:Hq; auto. specialize (RQ v). rewrite Hq in RQ. cbn in RQ. unfold abs in RQ.
    destruct (data (d_queue d)); [|discriminate]. destruct (nth_error (positions (d_queue d)) v) as [[i|]|]; try discriminate. destruct i; discriminate.
Qed.

(** A fixed shortest walk [xs 0 .. xs k] from [s1] to [s2] of length [L]; [f m] / [g m]: distance from [s1] / to [s2]. *)
Record path_data (arc : nat -> nat -> N -> Prop) (s1 s2 k : nat) (xs : nat -> nat) (f g : nat -> N) (L : N) : Prop := {
  pd_0 : xs 0 = s1;
  pd_k : xs k = s2;
  pd_f0 : f 0 = 0%N;
  pd_gk : g k = 0%N;
  pd_sum : forall m, m <= k -> (f m + g m = L)%N;
  pd_step : forall m, m < k -> exists w, arc (xs m) (xs (S m)) w /\ (f (S m) = f m + w)%N;
  pd_min1 : forall m l, m <= k -> walk arc s1 (xs m) l -> (f m <= l)%N;
  pd_min2 : forall m l, m <= k -> walk arc (xs m) s2 l -> (g m <= l)%N }.

Lemma pd_between arc s1 s2 k xs f g L : path_data arc s1 s2 k xs f g L -> forall i j, i <= j -> j <= k ->
  exists l, walk arc (xs i) (xs j) l /\ (f j = f i + l)%N.
Proof.
  intros PD i j Hij. induction Hij as [|j Hij IH]; intros Hj. { exists 0%N. split; [constructor|lia]. }
  destruct (IH ltac:(lia)) as (l & W & E). destruct (pd_step _ _ _ _ _ _ _ _ PD j ltac:(lia)) as (w & Ha & E2).
  exists (l + w)%N. split. { eapply walk_snoc; eauto. } lia.
Qed.

Lemma pd_flip arc s1 s2 k xs f g L : path_data arc s1 s2 k xs f g L ->
  path_data (flip_arc arc) s2 s1 k (fun m => xs (k - m)) (fun m => g (k - m)) (fun m => f (k - m)) L.
Proof.
  intros [H0 Hk F0 Gk Hs Hst H1 H2]. split.
  - rewrite Nat.sub_0_r; auto.
  - rewrite Nat.sub_diag; auto.
  - rewrite Nat.sub_0_r; auto.
  - rewrite Nat.sub_diag; auto.
  - intros m Hm. specialize (Hs (k - m) ltac:(lia)). lia.
  - intros m Hm. destruct (Hst (k - S m) ltac:(lia)) as (w & Ha & E). replace (S (k - S m)) with (k - m) in * by lia.
    exists w. split. { exact Ha. } pose proof (Hs (k - m) ltac:(lia)). pose proof (Hs (k - S m) ltac:(lia)). lia.
  - intros m l Hm W. apply H2; [lia|]. apply walk_flip_iff. exact W.
  - intros m l Hm W. apply H1; [lia|]. apply walk_flip_iff. exact W.
Qed.

Lemma pd_of_walk arc s t L : is_dist arc s t L -> exists k xs f g, path_data arc s t k xs f g L.
Proof.
  intros [W M]. assert (X : exists k xs f, xs 0 = s /\ xs k = t /\ f 0 = 0%N /\ f k = L /\
    forall m, m < k -> exists w, arc (xs m) (xs (S m)) w /\ (f (S m) = f m + w)%N).
  { clear M. induction W as [u|u v t w l Ha W (k & xs & f & X1 & X2 & X3 & X4 & X5)].
    - exists 0, (fun _ => u), (fun _ => 0%N). repeat split; auto. intros m Hm. lia.
    - exists (S k), (fun m => match m with 0 => u | S m => xs m end), (fun m => match m with 0 => 0%N | S m => (w + f m)%N end).
      split; auto. split; auto. split; auto. split. { rewrite X4. auto. }
      intros [|m] Hm. { exists w. rewrite X1, X3. split; auto. lia. }
      destruct (X5 m ltac:(lia)) as (w' & Ha' & E). exists w'. split; auto. lia. }
  destruct X as (k & xs & f & X1 & X2 & X3 & X4 & X5).
  assert (Y : forall i j, i <= j -> j <= k -> exists l, walk arc (xs i) (xs j) l /\ (f j = f i + l)%N).
  { intros i j Hij. induction Hij as [|j Hij IH]; intros Hj. { exists 0%N. split; [constructor|lia]. }
    destruct (IH ltac:(lia)) as (l & W' & E). destruct (X5 j ltac:(lia)) as (w & Ha & E2).
    exists (l + w)%N. split. { eapply walk_snoc; eauto. } lia. }
  exists k, xs, f, (fun m => (L - f m)%N). split; auto.
  - lia.
  - intros m Hm. destruct (Y m k Hm (le_n _)) as (l & _ & E). lia.
  - intros m l Hm W'. destruct (Y m k Hm (le_n _)) as (l2 & W2 & E). rewrite X2 in W2. specialize (M _ (walk_app _ _ _ _ _ _ W' W2)). lia.
  - intros m l Hm W'. destruct (Y 0 m ltac:(lia) Hm) as (l1 & W1 & E). rewrite X1 in W1. specialize (M _ (walk_app _ _ _ _ _ _ W1 W')). lia.
Qed.

(** What one search direction needs. *)
Record side_ok {E} (n : nat) (links1 links2 : nat -> option (list (nat * N))) (s1 s2 : nat) (pi1 pi2 : nat -> option N) (ET : E -> Prop)
  (prune1 : E -> nat -> N -> N -> N -> option (E * bool)) (pot1 : E -> nat -> option (E * option N)) : Prop := {
  sd_wf1 : wf_links n links1;
  sd_wf2 : wf_links n links2;
  sd_flip : forall u v w, garc links2 v u w <-> garc links1 u v w;
  sd_s1 : s1 < n;
  sd_s2 : s2 < n;
  sd_small1 : small_pot pi1;
  sd_small2 : small_pot pi2;
  sd_pot : forall e v, ET e -> v < n -> exists e', pot1 e v = Some (e', pi1 v) /\ ET e';
  sd_fin : forall v l1 l2, walk (garc links1) s1 v l1 -> walk (garc links1) v s2 l2 -> (l1 + l2 < INF)%N -> pi1 v <> None /\ pi2 v <> None;
  sd_prune : forall e v x rm mu, ET e -> v < n -> (x < INF)%N -> (mu <= INF)%N -> walk (garc links1) s1 v x ->
    exists e' b, prune1 e v x rm mu = Some (e', b) /\ ET e' /\
      (b = true -> forall y l1 l2 q, walk (garc links1) v y l1 -> walk (garc links1) y s2 l2 -> (x + l1 + l2 < INF)%N ->
         pi2 y = Some q -> (rm <= q + l2)%N -> (mu <= x + l1 + l2)%N) }.

Section Side.
  Context {E : Type}.
  Variable n : nat.
  Variable links1 links2 : nat -> option (list (nat * N)).
  Variable s1 s2 : nat.
  Variable pi1 pi2 : nat -> option N.
  Variable ET : E -> Prop.
  Variable prune1 : E -> nat -> N -> N -> N -> option (E * bool).
  Variable pot1 : E -> nat -> option (E * option N).
  Variable maxd : N.
  Variable k : nat.
  Variable xs : nat -> nat.
  Variable f g : nat -> N.
  Variable L : N.
  Notation arc := (garc links1).

  Record XI (st1 st2 : ast unit) (e : E) (tent : N) (m : nat) : Prop := {
    x_et : ET e;
    x_le : (tent <= INF)%N;
    x_walk : (tent < INF)%N -> walk arc s1 s2 tent /\ (aD st1 m + aD st2 m <= tent)%N;
    x_c : forall v, (aA st1 v < INF)%N -> (aA st2 v < INF)%N -> (tent <= aA st1 v + aA st2 v)%N;
    x_path : (L < N.min tent maxd)%N -> exists i j, i <= j <= k /\
      (aQ st1 (xs i) <> None /\ aA st1 (xs i) = f i) /\ (aQ st2 (xs j) <> None /\ aA st2 (xs j) = g j) /\
      (forall m, m <= j -> aD st1 (xs m) = f m -> aA st1 (xs m) = f m) /\
      (forall m, i <= m <= k -> aD st2 (xs m) = g m -> aA st2 (xs m) = g m) }.

  Notation GI1 := (GInv n fst def_pl all_edges (snb links1) sslk pi1 s1 0%N n []).
  Notation GI2 := (GInv n fst def_pl all_edges (snb links2) sslk pi2 s2 0%N n []).

  Hypothesis SO : side_ok n links1 links2 s1 s2 pi1 pi2 ET prune1 pot1.
  Hypothesis HPD : (L < INF)%N -> path_data arc s1 s2 k xs f g L.

  (** the part of the invariant a settle of side 1 maintains *)
  Definition JS (st2 : ast unit) (tent0 : N) (j : nat) (D AA : nat -> N) (x : E * N * nat) : Prop :=
    let '(e, tent, m) := x in
    ET e /\ (tent <= tent0)%N /\ (tent <= INF)%N /\ ((tent < INF)%N -> walk arc s1 s2 tent /\ (D m + aD st2 m <= tent)%N) /\
    (forall v, (AA v < INF)%N -> (aA st2 v < INF)%N -> (tent <= AA v + aA st2 v)%N) /\
    ((L < N.min tent maxd)%N -> forall m, m <= j -> D (xs m) = f m -> AA (xs m) = f m).

  Lemma walk2 v l : walk (garc links2) s2 v l -> walk arc v s2 l.
  Proof.
    intros W. apply walk_flip in W. eapply walk_mono; [|exact W]. intros a b w H. apply (sd_flip _ _ _ _ _ _ _ _ _ _ SO). exact H.
  Qed.

  Lemma JS_ok d2 st2 tent0 j : R n d2 st2 -> GI2 st2 ->
    ((L < N.min tent0 maxd)%N -> j <= k /\ aQ st2 (xs j) <> None /\ aA st2 (xs j) = g j) ->
    search_ok n links1 fst def_lk all_edges (bd_cb prune1 d2 maxd) (bd_pot pot1) (snb links1) sslk pi1 s1 0%N (JS st2 tent0 j).
  Proof.
    intros HR2 G2 Hj. pose proof SO as [WF1 WF2 FL S1 S2 SM1 SM2 PT FIN PR].
    split; auto.
    - apply snb_links; auto.
    - apply snb_hd; auto.
    - intros u a d Hu Ha _. apply (snb_lk n links1); auto.
    - intros; unfold sslk; lia.
    - intros; unfold sslk; lia.
    - intros D AA [[e tent] m] v (H1 & H2) Hv. destruct (PT e v H1 Hv) as (e' & E1 & H1'). exists (e', tent, m).
      unfold bd_pot. rewrite E1. cbn [bind]. split; auto. split; auto.
    - intros D AA [[e tent] m] v x (H1 & H2 & H3 & H4 & H5 & H6) Hv Hx HI Hre. unfold bd_cb.
      destruct (reach_walk n links1 _ _ _ _ Hre) as (x' & W & Ex). assert (x' = x) by lia. subst x'. clear Ex.
      destruct (PR e v x (odef (peek_key d2) INF) (N.min tent maxd) H1 Hv ltac:(lia) ltac:(lia) W) as (e' & b & E1 & H1' & HB). rewrite E1. cbn [bind].
      assert (HD : forall y, (fupd D v x y <= D y)%N). { intros y. unfold fupd. destruct (Nat.eqb_spec y v) as [->|]; lia. }
      destruct b.
      + exists (e', tent, m), false. split; auto. split; auto. split; auto. split; auto. split. { intros Ht. destruct (H4 Ht). split; auto. specialize (HD m). lia. }
        split; auto. intros HL m' Hm' Hf. destruct (Nat.eq_dec (xs m') v) as [Ev|Ev]. 2: { rewrite fupd_neq in Hf by auto. apply H6; auto. }
        exfalso. rewrite Ev, fupd_eq in Hf. destruct (Hj ltac:(lia)) as (Hjk & Hq & HA).
        pose proof (HPD ltac:(lia)) as PD. destruct (pd_between _ _ _ _ _ _ _ _ PD m' j Hm' Hjk) as (l1 & W1 & El1).
        destruct (pd_between _ _ _ _ _ _ _ _ PD j k Hjk (le_n _)) as (l2 & W2 & El2). rewrite (pd_k _ _ _ _ _ _ _ _ PD) in W2.
        pose proof (pd_sum _ _ _ _ _ _ _ _ PD j Hjk) as S. pose proof (pd_sum _ _ _ _ _ _ _ _ PD k (le_n _)) as Sk. pose proof (pd_gk _ _ _ _ _ _ _ _ PD) as Gk.
        destruct (pd_between _ _ _ _ _ _ _ _ PD 0 j ltac:(lia) Hjk) as (l0 & W0 & El0). rewrite (pd_0 _ _ _ _ _ _ _ _ PD) in W0. rewrite (pd_f0 _ _ _ _ _ _ _ _ PD) in El0.
        destruct (FIN (xs j) l0 l2 W0 W2 ltac:(lia)) as [_ Hp2]. destruct (pi2 (xs j)) as [q|] eqn:Eq; [|congruence].
        assert (HK : (odef (peek_key d2) INF <= q + l2)%N).
        { destruct (peek_spec n d2 st2 HR2) as [(E0 & Q0)|(u0 & k0 & _ & E0 & Q0 & MIN)]. { congruence. } rewrite E0. cbn [odef].
          destruct (aQ st2 (xs j)) as [kj|] eqn:Ekj; [|congruence]. destruct (g_key _ _ _ _ _ _ _ _ _ _ _ _ G2 _ _ Ekj) as [_ X].
          specialize (MIN _ _ Ekj). destruct X as [(p & Ep & Ek)|(_ & Ek)]; [|lia]. assert (p = q) by congruence. subst p. rewrite HA in Ek. lia. }
        rewrite Ev in W1. specialize (HB eq_refl (xs j) l1 l2 q W1 W2 ltac:(lia) Eq HK). lia.
      + rewrite (ts_get_spec N INF n _ _ v (r_dist n d2 st2 HR2)), (proj2 (Nat.ltb_lt v n) Hv). cbn [bind].
        pose proof (g_le _ _ _ _ _ _ _ _ _ _ _ _ G2 v) as L2. rewrite cadd_ok by (unfold INF, U32 in *; lia). cbn [bind].
        assert (X6 : forall y, fupd D v x y = D y \/ y = v /\ fupd D v x y = x). { intros y. unfold fupd. destruct (Nat.eqb_spec y v); auto. }
        destruct (N.ltb_spec (x + aD st2 v) tent) as [Hlt|Hge].
        * exists (e', (x + aD st2 v)%N, v), true. split; auto. split; auto. split; [lia|]. split; [lia|]. split.
          { intros Ht. split. 2: { rewrite fupd_eq. lia. } eapply walk_app; eauto. apply walk2.
            destruct (reach_walk n links2 _ _ _ _ (g_reach _ _ _ _ _ _ _ _ _ _ _ _ G2 v ltac:(lia))) as (y & W2 & ->). rewrite N.add_0_l. auto. }
          split. { intros y. unfold fupd. destruct (Nat.eqb_spec y v) as [->|]; [lia|]. intros A1 A2. specialize (H5 y A1 A2). lia. }
          intros HL m' Hm' Hf. unfold fupd in *. destruct (Nat.eqb_spec (xs m') v); auto. apply H6; auto. lia.
        * exists (e', tent, m), true. split; auto. split; auto. split; auto. split; auto. split. { intros Ht. destruct (H4 Ht). split; auto. specialize (HD m). lia. }
          split. { intros y. unfold fupd. destruct (Nat.eqb_spec y v) as [->|]; [lia|]. auto. }
          intros HL m' Hm' Hf. unfold fupd in *. destruct (Nat.eqb_spec (xs m') v); auto.
  Qed.

  Lemma max_index (Pr : nat -> Prop) (dec : forall m, Pr m \/ ~ Pr m) i j : i <= j -> Pr i -> exists i', i <= i' <= j /\ Pr i' /\ (i' = j \/ ~ Pr (S i')).
  Proof using Type.
    clear -dec. intros Hij. remember (j - i) as d eqn:Ed. revert i Hij Ed. induction d as [|d IH]; intros i Hij Ed Hi.
    - exists i. split; [lia|]. split; auto. left. lia.
    - destruct (dec (S i)) as [H|H]. { destruct (IH (S i)) as (i' & A1 & A2 & A3); auto; try lia. exists i'. split; [lia|]. auto. }
      exists i. split; [lia|]. auto.
  Qed.

  (** One settle of side 1. *)
  Lemma side_step d1 d2 st1 st2 e tent m : R n d1 st1 -> R n d2 st2 -> GI1 st1 -> GI2 st2 -> XI st1 st2 e tent m ->
    ((forall v, aQ st1 v = None) /\ exists d1', bd_settle links1 prune1 pot1 d2 maxd d1 (e, tent, m) = Some (d1', (e, tent, m), None) /\ R n d1' st1) \/
    exists u k' d1' st1' e' tent' m', bd_settle links1 prune1 pot1 d2 maxd d1 (e, tent, m) = Some (d1', (e', tent', m'), Some u) /\ R n d1' st1' /\
      u < n /\ aQ st1 u = Some k' /\ (forall v k'', aQ st1 v = Some k'' -> (k' < k'')%N \/ k' = k'' /\ u <= v) /\
      GI1 st1' /\ XI st1' st2 e' tent' m' /\ aD st1' u = aD st1 u /\ (M n st1' < M n st1)%N.
  Proof using SO HPD.
    intros HR1 HR2 G1 G2 HX. destruct HX as [X1 X2 X3 X4 X5]. pose proof SO as [WF1 WF2 FL S1 S2 SM1 SM2 PT FIN PR].
    assert (Y : exists j, (L < N.min tent maxd)%N -> exists i, i <= j <= k /\
      (aQ st1 (xs i) <> None /\ aA st1 (xs i) = f i) /\ (aQ st2 (xs j) <> None /\ aA st2 (xs j) = g j) /\
      (forall m, m <= j -> aD st1 (xs m) = f m -> aA st1 (xs m) = f m) /\
      (forall m, i <= m <= k -> aD st2 (xs m) = g m -> aA st2 (xs m) = g m)).
    { destruct (N.ltb_spec L (N.min tent maxd)). { destruct (X5 H) as (i & j & Y). exists j. eauto. } exists 0. intros; lia. }
    destruct Y as (j & Y).
    assert (SOK : search_ok n links1 fst def_lk all_edges (bd_cb prune1 d2 maxd) (bd_pot pot1) (snb links1) sslk pi1 s1 0%N (JS st2 tent j)).
    { apply JS_ok; auto. intros HL. destruct (Y HL) as (i & Y1 & Y2 & Y3 & _). split; [lia|]. tauto. }
    assert (J0 : JS st2 tent j (aD st1) (aA st1) (e, tent, m)).
    { split; auto. split; [lia|]. split; auto. split; auto. split; auto. intros HL. destruct (Y HL) as (i & _ & _ & _ & Y4 & _). auto. }
    destruct (settle_ok (pl:=def_pl) SOK S1 ltac:(unfold INF; lia) d1 st1 (e, tent, m) HR1 G1 J0) as [H|(u & k' & d1' & st1' & [[e' tent'] m'] & Es & R1' & Hu & Hq & Hmin & G1' & J1 & Q1 & D1 & M1 & GR & KP)]; [left; auto|right].
    exists u, k', d1', st1', e', tent', m'. split; auto. split; auto. split; auto. split; auto. split; auto. split; auto. split; [|auto].
    destruct J1 as (Z1 & Z2 & Z3 & Z4 & Z5 & Z6). split; auto.
    intros HL. destruct (Y ltac:(lia)) as (i & Hij & (Yi1 & Yi2) & (Yj1 & Yj2) & Yf & Yg). specialize (Z6 HL).
    pose proof (HPD ltac:(lia)) as PD.
    assert (LB : forall v' : nat, forall m0, m0 <= k -> (f m0 <= aD st1' (xs m0))%N).
    { intros _ m0 Hm0. destruct (N.ltb_spec (aD st1' (xs m0)) INF) as [HI|HI]. 2: { pose proof (pd_sum _ _ _ _ _ _ _ _ PD m0 Hm0). lia. }
      destruct (reach_walk n links1 _ _ _ _ (g_reach _ _ _ _ _ _ _ _ _ _ _ _ G1' _ HI)) as (y & W & ->).
      pose proof (pd_min1 _ _ _ _ _ _ _ _ PD m0 y Hm0 W). lia. }
    (* the label of x_i is still accepted *)
    assert (Ai : aA st1' (xs i) = f i).
    { destruct (KP (xs i)) as [(K1 & K2 & _)|K]. { rewrite K2. cbn [popA aA]. auto. }
      cbn [popA aD] in K. pose proof (LB 0 i ltac:(lia)). pose proof (g_le _ _ _ _ _ _ _ _ _ _ _ _ G1 (xs i)). lia. }
    destruct (max_index (fun m => aA st1' (xs m) = f m) ltac:(intros m0; destruct (N.eq_dec (aA st1' (xs m0)) (f m0)); auto) i j ltac:(lia) Ai) as (i' & I1 & I2 & I3).
    exists i', j. split; [lia|]. split; [split; auto|]. 2: { split; auto. split; auto. intros m0 Hm0. apply Yg. lia. }
    intros Hqn. destruct (Nat.eq_dec i' j) as [->|Hne].
    - pose proof (pd_sum _ _ _ _ _ _ _ _ PD j ltac:(lia)). specialize (Z5 (xs j)). lia.
    - destruct I3 as [I3|I3]; [lia|]. apply I3. apply Z6; [lia|].
      destruct (pd_step _ _ _ _ _ _ _ _ PD i' ltac:(lia)) as (w & Ha & Ew).
      destruct (pd_between _ _ _ _ _ _ _ _ PD 0 i' ltac:(lia) ltac:(lia)) as (l0 & W0 & El0). rewrite (pd_0 _ _ _ _ _ _ _ _ PD) in W0. rewrite (pd_f0 _ _ _ _ _ _ _ _ PD) in El0.
      destruct (pd_between _ _ _ _ _ _ _ _ PD i' k ltac:(lia) (le_n _)) as (l2 & W2 & El2). rewrite (pd_k _ _ _ _ _ _ _ _ PD) in W2.
      pose proof (pd_sum _ _ _ _ _ _ _ _ PD k (le_n _)). pose proof (pd_gk _ _ _ _ _ _ _ _ PD). pose proof (pd_sum _ _ _ _ _ _ _ _ PD i' ltac:(lia)).
      destruct (FIN (xs i') l0 l2 W0 W2 ltac:(lia)) as [Hp1 _].
      pose proof (walk_lt n links1 WF1 s1 (xs i') l0 S1 W0) as Hxn.
      assert (Hin : In (xs (S i'), w) (snb links1 (xs i'))) by (apply snb_in; auto).
      pose proof (g_closed _ _ _ _ _ _ _ _ _ _ _ _ G1' (xs i') (xs (S i'), w) Hxn ltac:(lia) Hqn (or_introl Hp1) Hin eq_refl ltac:(lia)) as C.
      cbn [fst] in C. unfold sslk in C. cbn [snd] in C. pose proof (LB 0 (S i') ltac:(lia)). lia.
  Qed.
End Side.

Lemma XI_flip {E} links1 links2 s1 s2 (ET : E -> Prop) maxd k xs f g L st1 st2 e tent m :
  (forall u v w, garc links2 v u w <-> garc links1 u v w) ->
  XI links1 s1 s2 ET maxd k xs f g L st1 st2 e tent m ->
  XI links2 s2 s1 ET maxd k (fun m => xs (k - m)) (fun m => g (k - m)) (fun m => f (k - m)) L st2 st1 e tent m.
Proof.
  intros FL [X1 X2 X3 X4 X5]. split; auto.
  - intros H. destruct (X3 H) as [W Y]. split; [|lia]. apply walk_flip in W. eapply walk_mono; [|exact W]. intros a b w Hab. apply FL. exact Hab.
  - intros v H1 H2. specialize (X4 v H2 H1). lia.
  - intros HL. destruct (X5 HL) as (i & j & H1 & (H2 & H3) & (H4 & H5) & H6 & H7). exists (k - j), (k - i). split; [lia|].
    replace (k - (k - j)) with j by lia. replace (k - (k - i)) with i by lia.
    split; [auto|]. split; [auto|]. split; intros m0 Hm0; [apply H7|apply H6]; lia.
Qed.

Lemma npath_hd arc u p t l : npath arc u p t l -> exists q, p = u :: q.
Proof. destruct 1; eauto. Qed.
Lemma npath_rev arc u p t l : npath arc u p t l -> npath (flip_arc arc) t (rev p) u l.
Proof.
  induction 1 as [u|u v t w l p Ha H IH]; cbn [rev app]. { constructor. }
  rewrite N.add_comm. eapply npath_app; eauto. rewrite <- (N.add_0_r w). econstructor; [exact Ha|]. constructor.
Qed.
Lemma npath_mono (a1 a2 : nat -> nat -> N -> Prop) u p v l : (forall u v w, a1 u v w -> a2 u v w) -> npath a1 u p v l -> npath a2 u p v l.
Proof. intros H; induction 1; econstructor; eauto. Qed.

(** keys that can occur in a queue *)
Definition key_ok (pi : nat -> option N) (o : option N) : Prop :=
  forall k, o = Some k -> k = 0%N \/ exists v p a, pi v = Some p /\ (a < INF)%N /\ (k = p + a)%N.

(** the terminal of a search, with potential [po], is on top of the queue (key [o]) although a walk at most that long was already found *)
Definition term (arc : nat -> nat -> N -> Prop) (s t : nat) (po : option N) (o : option N) (mu : N) : Prop :=
  exists k y p, o = Some k /\ po = Some p /\ (k = p + y)%N /\ walk arc s t y /\ (y < INF)%N /\ (mu <= y)%N.

(** Assumptions on stopping criterion and direction chooser. *)
Record choice_ok {E C} (arc : nat -> nat -> N -> Prop) (s t : nat) (pf pb : nat -> option N) (ET : E -> Prop)
  (stop : E -> option N -> option N -> N -> option bool) (ch : chooser C) : Prop := {
  co_stop : forall e kf kb mu, ET e -> (mu <= INF)%N -> key_ok pf kf -> key_ok pb kb -> exists b, stop e kf kb mu = Some b /\
    (b = true -> forall k1 k2, kf = Some k1 -> kb = Some k2 ->
      forall u v l1 l2 l3 p q, walk arc s u l1 -> walk arc u v l2 -> walk arc v t l3 -> (l1 + l2 + l3 < INF)%N -> (forall l, walk arc s t l -> (l1 + l2 + l3 <= l)%N) ->
        pf u = Some p -> pb v = Some q -> (k1 <= p + l1)%N -> (k2 <= q + l3)%N -> (mu <= l1 + l2 + l3)%N);
  co_go : forall e kf kb mu c c' dir, ET e -> (mu <= INF)%N -> key_ok pf kf -> key_ok pb kb -> s <> t ->
    ch_may_stop ch c = true -> stop e kf kb mu = Some false -> ch_choose ch c kf kb = (c', dir) ->
    if (dir : bool) then kf <> None /\ ~ term arc s t (pf t) kf mu /\ (ch_may_stop ch c' = false -> kb <> None /\ ~ term arc s t (pb s) kb mu)
    else kb <> None /\ ~ term arc s t (pb s) kb mu /\ ch_may_stop ch c' = true;
  co_forced : forall c kf kb c' dir, ch_may_stop ch c = false -> kb <> None -> ch_choose ch c kf kb = (c', dir) -> dir = false /\ ch_may_stop ch c' = true;
  co_init : ch_may_stop ch (ch_init ch) = true }.

(** A search step succeeds whatever the tentative distance. *)
Lemma side_total_ok {E} n links1 links2 s1 s2 pi1 pi2 (ET : E -> Prop) prune1 pot1 maxd d2 st2 :
  side_ok n links1 links2 s1 s2 pi1 pi2 ET prune1 pot1 -> R n d2 st2 -> (forall v, (aD st2 v <= INF)%N) ->
  search_ok n links1 fst def_lk all_edges (bd_cb prune1 d2 maxd) (bd_pot pot1) (snb links1) sslk pi1 s1 0%N
    (fun _ _ x => ET (fst (fst x)) /\ (snd (fst x) <= INF)%N).
Proof.
  intros SO HR2 HD2. pose proof SO as [WF1 WF2 FL S1 S2 SM1 SM2 PT FIN PR].
  split; auto.
  - apply snb_links; auto.
  - apply snb_hd; auto.
  - intros u a d Hu Ha _. apply (snb_lk n links1); auto.
  - intros; unfold sslk; lia.
  - intros; unfold sslk; lia.
  - intros D AA [[e tent] m] v (H1 & H2) Hv. cbn [fst snd] in *. destruct (PT e v H1 Hv) as (e' & E1 & H1'). exists (e', tent, m).
    unfold bd_pot. rewrite E1. cbn [bind fst snd]. auto.
  - intros D AA [[e tent] m] v x (H1 & H2) Hv Hx HI Hre. cbn [fst snd] in *. unfold bd_cb.
    destruct (reach_walk n links1 _ _ _ _ Hre) as (x' & W & Ex). assert (x' = x) by lia. subst x'. clear Ex.
    destruct (PR e v x (odef (peek_key d2) INF) (N.min tent maxd) H1 Hv ltac:(lia) ltac:(lia) W) as (e' & b & E1 & H1' & HB). rewrite E1. cbn [bind].
    destruct b. { exists (e', tent, m), false. auto. }
    rewrite (ts_get_spec N INF n _ _ v (r_dist n d2 st2 HR2)), (proj2 (Nat.ltb_lt v n) Hv). cbn [bind].
    specialize (HD2 v). rewrite cadd_ok by (unfold INF, U32 in *; lia). cbn [bind].
    destruct (N.ltb_spec (x + aD st2 v) tent) as [Hlt|Hge]; eexists; exists true; (split; [reflexivity|]); cbn [fst snd]; split; auto; lia.
Qed.

    (** the first step of a query with [s = t] *)
    Lemma settle_start {E} n (ET : E -> Prop) maxd links1 links2 s1 s2 pi1 pi2 prune1 pot1 d1 d2 pr st2 e m : side_ok n links1 links2 s1 s2 pi1 pi2 ET prune1 pot1 ->
      R n d1 (initA s1 0%N pr) -> R n d2 st2 -> (forall v, (aD st2 v <= INF)%N) -> ET e ->
      exists d1' st1' e' tent' m', bd_settle links1 prune1 pot1 d2 maxd d1 (e, INF, m) = Some (d1', (e', tent', m'), Some s1) /\ R n d1' st1' /\
        GInv n fst def_pl all_edges (snb links1) sslk pi1 s1 0%N n [] st1' /\ ET e' /\ aD st1' s1 = 0%N.
    Proof.
      intros SO HR1 HR2 HD2 HE. pose proof (side_total_ok n links1 links2 s1 s2 pi1 pi2 ET prune1 pot1 maxd d2 st2 SO HR2 HD2) as SOK.
      pose proof (sd_s1 _ _ _ _ _ _ _ _ _ _ SO) as S1. assert (I0 : (0 < INF)%N) by (unfold INF; lia).
      destruct (settle_ok (pl:=def_pl) SOK S1 I0 d1 (initA s1 0%N pr) (e, INF, m) HR1 (GInv_init SOK S1 I0 pr) ltac:(cbn; split; auto; lia))
        as [(Q0 & _)|(u & k' & d1' & st1' & [[e' tent'] m'] & Es & R1' & Hu & Hq & Hmin & G1' & J1 & Q1 & D1 & M1 & _)].
      { specialize (Q0 s1). cbn in Q0. rewrite fupd_eq in Q0. discriminate. }
      assert (u = s1). { cbn in Hq. unfold fupd in Hq. destruct (Nat.eqb_spec u s1); congruence. } subst u.
      exists d1', st1', e', tent', m'. split; auto. split; auto. split; auto. split; [apply J1|]. rewrite D1. cbn. apply fupd_eq.
    Qed.


Section Loop.
  Context {E C : Type}.
  Variable n : nat.
  Variable fwl bwl : nat -> option (list (nat * N)).
  Variable bp : bipot E.
  Variable ch : chooser C.
  Variable s t : nat.
  Variable pf pb : nat -> option N.
  Variable ET : E -> Prop.
  Variable maxd : N.
  Hypothesis SOf : side_ok n fwl bwl s t pf pb ET (bp_prune_fw bp) (bp_fw bp).
  Hypothesis SOb : side_ok n bwl fwl t s pb pf ET (bp_prune_bw bp) (bp_bw bp).
  Hypothesis CO : choice_ok (garc fwl) s t pf pb ET (bp_stop bp) ch.
  Notation GIf := (GInv n fst def_pl all_edges (snb fwl) sslk pf s 0%N n []).
  Notation GIb := (GInv n fst def_pl all_edges (snb bwl) sslk pb t 0%N n []).

  Lemma key_peek (links : nat -> option (list (nat * N))) pi s0 d st : R n d st -> GInv n fst def_pl all_edges (snb links) sslk pi s0 0%N n [] st -> key_ok pi (peek_key d).
  Proof using Type.
    clear. intros HR G k Hk. destruct (peek_spec n d st HR) as [[E0 _]|(u & k0 & _ & E0 & Q0 & _)]; [congruence|].
    assert (k0 = k) by congruence. subst k0. destruct (g_key _ _ _ _ _ _ _ _ _ _ _ _ G u k Q0) as [HA [(p & Hp & Ek)|(_ & Ek)]]; auto.
    right. exists u, p, (aA st u). auto.
  Qed.

  Section Path.
    Variable k : nat.
    Variable xs : nat -> nat.
    Variable f g : nat -> N.
    Variable L : N.
    Hypothesis HPD : (L < INF)%N -> path_data (garc fwl) s t k xs f g L.
    Notation XIf := (XI fwl s t ET maxd k xs f g L).

    (** ghost: abstract states of both searches *)
    Definition BI (gs : ast unit * ast unit) (x : bstate (E := E) (C := C)) : Prop :=
      let '(stf, stb) := gs in
      let '(df, db, (e, tent, m), c) := x in
      R n df stf /\ R n db stb /\ GIf stf /\ GIb stb /\
      ((s <> t /\ XIf stf stb e tent m /\ (ch_may_stop ch c = false -> peek_key db <> None /\ forall u k0, aQ stb u = Some k0 -> (forall v k', aQ stb v = Some k' -> (k0 < k')%N \/ k0 = k' /\ u <= v) -> u <> s))
       \/ (s = t /\ tent = INF /\ ET e /\ c = ch_init ch /\ exists pr1 pr2, stf = initA s 0%N pr1 /\ stb = initA t 0%N pr2)).
    Definition BQ (r : dij unit * dij unit * (E * N * nat) * option N) : Prop :=
      let '(df, db, (e, _, m), o) := r in
      exists stf stb, R n df stf /\ R n db stb /\ GIf stf /\ GIb stb /\ ET e /\
        (forall x, o = Some x -> (x < INF)%N /\ walk (garc fwl) s t x /\ (aD stf m + aD stb m <= x)%N) /\
        ((L < maxd)%N -> (L < INF)%N -> exists x, o = Some x /\ (x <= L)%N).

    Lemma flip_garc : forall u v w, garc fwl v u w <-> garc bwl u v w.
    Proof. apply (sd_flip _ _ _ _ _ _ _ _ _ _ SOb). Qed.
    Lemma HPDb : (L < INF)%N -> path_data (garc bwl) t s k (fun m => xs (k - m)) (fun m => g (k - m)) (fun m => f (k - m)) L.
    Proof.
      intros HL. pose proof (pd_flip _ _ _ _ _ _ _ _ (HPD HL)) as [H0 Hk F0 Gk Hs Hst H1 H2].
      assert (WW : forall a b l, walk (garc bwl) a b l -> walk (flip_arc (garc fwl)) a b l).
      { intros a b l. apply walk_mono. intros u v w H. apply flip_garc. exact H. }
      split; auto. intros m Hm. destruct (Hst m Hm) as (w & Ha & Ew). exists w. split; auto. apply flip_garc. exact Ha.
    Qed.

    Lemma peek_le d st v k0 : R n d st -> aQ st v = Some k0 -> exists k1, peek_key d = Some k1 /\ (k1 <= k0)%N.
    Proof using Type.
      clear. intros HR Hq. destruct (peek_spec n d st HR) as [[_ E0]|(u & k1 & _ & E0 & _ & Hm)]; [congruence|]. exists k1. split; auto. specialize (Hm _ _ Hq). lia.
    Qed.

    Lemma no_stop df db stf stb e tent m : R n df stf -> R n db stb -> GIf stf -> GIb stb -> XIf stf stb e tent m ->
      bp_stop bp e (peek_key df) (peek_key db) (N.min tent maxd) = Some true -> ~ (L < N.min tent maxd)%N.
    Proof.
      intros HRf HRb GF GB [X1 X2 X3 X4 X5] Es HL. destruct (X5 HL) as (i & j & Hij & (Qi & Ai) & (Qj & Aj) & _).
      pose proof (HPD ltac:(lia)) as PD.
      destruct (pd_between _ _ _ _ _ _ _ _ PD 0 i ltac:(lia) ltac:(lia)) as (l1 & W1 & E1). rewrite (pd_0 _ _ _ _ _ _ _ _ PD) in W1. rewrite (pd_f0 _ _ _ _ _ _ _ _ PD) in E1.
      destruct (pd_between _ _ _ _ _ _ _ _ PD i j ltac:(lia) ltac:(lia)) as (l2 & W2 & E2).
      destruct (pd_between _ _ _ _ _ _ _ _ PD j k ltac:(lia) (le_n _)) as (l3 & W3 & E3). rewrite (pd_k _ _ _ _ _ _ _ _ PD) in W3.
      pose proof (pd_sum _ _ _ _ _ _ _ _ PD k (le_n _)) as Sk. pose proof (pd_gk _ _ _ _ _ _ _ _ PD) as Gk. pose proof (pd_sum _ _ _ _ _ _ _ _ PD j ltac:(lia)) as Sj.
      destruct (sd_fin _ _ _ _ _ _ _ _ _ _ SOf (xs i) l1 (l2 + l3)%N W1 (walk_app _ _ _ _ _ _ W2 W3) ltac:(lia)) as [Pi _].
      destruct (sd_fin _ _ _ _ _ _ _ _ _ _ SOf (xs j) (l1 + l2)%N l3 (walk_app _ _ _ _ _ _ W1 W2) W3 ltac:(lia)) as [_ Pj].
      destruct (pf (xs i)) as [p|] eqn:Ep; [|congruence]. destruct (pb (xs j)) as [q|] eqn:Eq; [|congruence].
      destruct (aQ stf (xs i)) as [ki|] eqn:Eki; [|congruence]. destruct (aQ stb (xs j)) as [kj|] eqn:Ekj; [|congruence].
      destruct (peek_le df stf (xs i) ki HRf Eki) as (k1 & K1 & K1'). destruct (peek_le db stb (xs j) kj HRb Ekj) as (k2 & K2 & K2').
      assert (B1 : (ki <= p + l1)%N). { destruct (g_key _ _ _ _ _ _ _ _ _ _ _ _ GF _ _ Eki) as [_ [(p' & Ep' & ->)|(_ & ->)]]; [|lia]. assert (p' = p) by congruence. subst. lia. }
      assert (B2 : (kj <= q + l3)%N). { destruct (g_key _ _ _ _ _ _ _ _ _ _ _ _ GB _ _ Ekj) as [_ [(p' & Ep' & ->)|(_ & ->)]]; [|lia]. assert (p' = q) by congruence. subst. lia. }
      destruct (co_stop _ _ _ _ _ _ _ _ CO e (peek_key df) (peek_key db) (N.min tent maxd) X1 ltac:(lia) (key_peek fwl pf s df stf HRf GF) (key_peek bwl pb t db stb HRb GB)) as (b & Eb & SB).
      assert (MN : forall l, walk (garc fwl) s t l -> (l1 + l2 + l3 <= l)%N).
      { intros l Wl. rewrite <- (pd_k _ _ _ _ _ _ _ _ PD) in Wl. pose proof (pd_min1 _ _ _ _ _ _ _ _ PD k l (le_n _) Wl). lia. }
      rewrite Es in Eb. injection Eb as <-. specialize (SB eq_refl k1 k2 K1 K2 (xs i) (xs j) l1 l2 l3 p q W1 W2 W3 ltac:(lia) MN Ep Eq ltac:(lia) ltac:(lia)). lia.
    Qed.

    (** a terminal on top of its queue is a [term] *)
    Lemma is_term_f df stf stb e tent m u k0 : R n df stf -> GIf stf -> GIb stb -> XIf stf stb e tent m -> s <> t ->
      aQ stf u = Some k0 -> (forall v k', aQ stf v = Some k' -> (k0 < k')%N \/ k0 = k' /\ u <= v) -> u = t ->
      term (garc fwl) s t (pf t) (peek_key df) (N.min tent maxd).
    Proof.
      intros HRf GF GB [X1 X2 X3 X4 X5] Hne Hq Hmin ->.
      destruct (peek_spec n df stf HRf) as [[_ E0]|(u' & k1 & _ & E0 & Q0 & Hm)]; [congruence|].
      assert (k1 = k0). { specialize (Hm _ _ Hq). specialize (Hmin _ _ Q0). lia. } subst k1.
      destruct (g_key _ _ _ _ _ _ _ _ _ _ _ _ GF _ _ Hq) as [HA [(p & Ep & Ek)|(Et & _)]]; [|congruence].
      exists k0, (aA stf t), p. split; auto. split; auto. split; auto.
      destruct (reach_walk n fwl _ _ _ _ (g_acc _ _ _ _ _ _ _ _ _ _ _ _ GF t HA)) as (y & W & Ey). rewrite Ey, N.add_0_l in *. split; auto. split; auto.
      specialize (X4 t). rewrite (g_s _ _ _ _ _ _ _ _ _ _ _ _ GB) in X4. unfold INF in *. lia.
    Qed.
    Lemma is_term_b db stf stb e tent m u k0 : R n db stb -> GIf stf -> GIb stb -> XIf stf stb e tent m -> s <> t ->
      aQ stb u = Some k0 -> (forall v k', aQ stb v = Some k' -> (k0 < k')%N \/ k0 = k' /\ u <= v) -> u = s ->
      term (garc fwl) s t (pb s) (peek_key db) (N.min tent maxd).
    Proof.
      intros HRb GF GB [X1 X2 X3 X4 X5] Hne Hq Hmin ->.
      destruct (peek_spec n db stb HRb) as [[_ E0]|(u' & k1 & _ & E0 & Q0 & Hm)]; [congruence|].
      assert (k1 = k0). { specialize (Hm _ _ Hq). specialize (Hmin _ _ Q0). lia. } subst k1.
      destruct (g_key _ _ _ _ _ _ _ _ _ _ _ _ GB _ _ Hq) as [HA [(p & Ep & Ek)|(Et & _)]]; [|congruence].
      exists k0, (aA stb s), p. split; auto. split; auto. split; auto.
      destruct (reach_walk n bwl _ _ _ _ (g_acc _ _ _ _ _ _ _ _ _ _ _ _ GB s HA)) as (y & W & Ey). rewrite Ey, N.add_0_l in *. split. { apply (walk2 n fwl bwl s t pf pb ET _ _ SOf); auto. } split; auto.
      specialize (X4 s). rewrite (g_s _ _ _ _ _ _ _ _ _ _ _ _ GF) in X4. unfold INF in *. lia.
    Qed.

    Lemma loop_step gs x : BI gs x -> exists r, bd_step fwl bwl bp ch s t maxd x = Some r /\
      match r with inl x' => exists gs', BI gs' x' /\ (M n (fst gs') + M n (snd gs') < M n (fst gs) + M n (snd gs))%N | inr r' => BQ r' end.
    Proof.
      destruct gs as [stf stb], x as [[[df db] [[e tent] m]] c]. intros (HRf & HRb & GF & GB & HB).
      pose proof (sd_s1 _ _ _ _ _ _ _ _ _ _ SOf) as Hs. pose proof (sd_s1 _ _ _ _ _ _ _ _ _ _ SOb) as Ht.
      pose proof (key_peek fwl pf s df stf HRf GF) as KF. pose proof (key_peek bwl pb t db stb HRb GB) as KB.
      unfold bd_step. destruct HB as [(Hne & HX & HC)|(Est & -> & HE & -> & pr1 & pr2 & Ef & Eb)].
      - pose proof (x_et _ _ _ _ _ _ _ _ _ _ _ _ _ _ _ HX) as HE. pose proof (x_le _ _ _ _ _ _ _ _ _ _ _ _ _ _ _ HX) as HT.
        destruct (co_stop _ _ _ _ _ _ _ _ CO e (peek_key df) (peek_key db) (N.min tent maxd) HE ltac:(lia) KF KB) as (b & Es & _).
        assert (STOPPED : b = true -> BQ (df, db, (e, tent, m), if (tent =? INF)%N then None else Some tent)).
        { intros ->. pose proof (no_stop df db stf stb e tent m HRf HRb GF GB HX Es) as NS. exists stf, stb. repeat (split; [assumption|]).
          split. { intros x. destruct (N.eqb_spec tent INF); [discriminate|]. intros [= <-]. split; [lia|]. apply HX. lia. }
          intros HL HI. exists tent. destruct (N.eqb_spec tent INF) as [->|]; [lia|]. split; auto. lia. }
        assert (FW : forall c' : C, peek_key df <> None ->
           (forall u k0, aQ stf u = Some k0 -> (forall v k', aQ stf v = Some k' -> (k0 < k')%N \/ k0 = k' /\ u <= v) -> u <> t) ->
           (ch_may_stop ch c' = false -> peek_key db <> None /\ forall u k0, aQ stb u = Some k0 -> (forall v k', aQ stb v = Some k' -> (k0 < k')%N \/ k0 = k' /\ u <= v) -> u <> s) ->
           exists r, ('(df', (e', tent', m'), o) <- bd_settle fwl (bp_prune_fw bp) (bp_fw bp) db maxd df (e, tent, m) ;;
             match o with
             | Some u => if u =? t then x <- ts_get N INF (d_dist df') t ;; Some (inr (df', db, (e', tent', t), Some x)) else Some (inl (df', db, (e', tent', m'), c'))
             | None => Some (inl (df', db, (e', tent', m'), c'))
             end) = Some r /\
             match r with inl x' => exists gs', BI gs' x' /\ (M n (fst gs') + M n (snd gs') < M n (fst (stf, stb)) + M n (snd (stf, stb)))%N | inr r' => BQ r' end).
        { intros c' Hk Hnt HC'.
          destruct (side_step n fwl bwl s t pf pb ET (bp_prune_fw bp) (bp_fw bp) maxd k xs f g L SOf HPD df db stf stb e tent m HRf HRb GF GB HX)
            as [(Q0 & _)|(u & k' & d1' & st1' & e' & tent' & m' & E1 & R1 & Hu & Hq & Hmin & G1 & X1 & D1 & M1)].
          { exfalso. apply Hk. destruct (peek_spec n df stf HRf) as [[E0 _]|(u0 & k0 & _ & _ & E0 & _)]; [exact E0|]. rewrite Q0 in E0. discriminate. }
          rewrite E1. cbn [bind]. destruct (Nat.eqb_spec u t) as [->|]. { destruct (Hnt t k' Hq Hmin eq_refl). }
          eexists. split; [reflexivity|]. exists (st1', stb). cbn [fst snd]. split; [|lia]. do 4 (split; [assumption|]). left. auto. }
        assert (BW : forall c' : C, peek_key db <> None ->
           (forall u k0, aQ stb u = Some k0 -> (forall v k', aQ stb v = Some k' -> (k0 < k')%N \/ k0 = k' /\ u <= v) -> u <> s) ->
           ch_may_stop ch c' = true ->
           exists r, ('(db', (e', tent', m'), o) <- bd_settle bwl (bp_prune_bw bp) (bp_bw bp) df maxd db (e, tent, m) ;;
             match o with
             | Some u => if u =? s then x <- ts_get N INF (d_dist db') s ;; Some (inr (df, db', (e', tent', s), Some x)) else Some (inl (df, db', (e', tent', m'), c'))
             | None => Some (inl (df, db', (e', tent', m'), c'))
             end) = Some r /\
             match r with inl x' => exists gs', BI gs' x' /\ (M n (fst gs') + M n (snd gs') < M n (fst (stf, stb)) + M n (snd (stf, stb)))%N | inr r' => BQ r' end).
        { intros c' Hk Hnt HC'.
          pose proof (XI_flip fwl bwl s t ET maxd k xs f g L stf stb e tent m (sd_flip _ _ _ _ _ _ _ _ _ _ SOf) HX) as HX'.
          destruct (side_step n bwl fwl t s pb pf ET (bp_prune_bw bp) (bp_bw bp) maxd k _ _ _ L SOb HPDb db df stb stf e tent m HRb HRf GB GF HX')
            as [(Q0 & _)|(u & k' & d1' & st1' & e' & tent' & m' & E1 & R1 & Hu & Hq & Hmin & G1 & X1 & D1 & M1)].
          { exfalso. apply Hk. destruct (peek_spec n db stb HRb) as [[E0 _]|(u0 & k0 & _ & _ & E0 & _)]; [exact E0|]. rewrite Q0 in E0. discriminate. }
          rewrite E1. cbn [bind]. destruct (Nat.eqb_spec u s) as [->|]. { destruct (Hnt s k' Hq Hmin eq_refl). }
          apply (XI_flip bwl fwl) in X1; [|apply (sd_flip _ _ _ _ _ _ _ _ _ _ SOb)].
          eexists. split; [reflexivity|]. exists (stf, st1'). cbn [fst snd]. split; [|lia]. do 4 (split; [assumption|]).
          left. split; auto. split; [|congruence]. destruct X1 as [Y1 Y2 Y3 Y4 Y5]. split; auto.
          intros HL. destruct (Y5 HL) as (i & j & H1 & (H2 & H3) & (H4 & H5) & H6 & H7). exists i, j.
          assert (SUB : forall m0, m0 <= k -> k - (k - m0) = m0) by (intros; lia).
          rewrite (SUB i), (SUB j) in * by lia. split; auto. split; auto. split; auto. split.
          - intros m0 Hm0. specialize (H6 m0 Hm0). rewrite (SUB m0) in H6 by lia. auto.
          - intros m0 Hm0. specialize (H7 m0 Hm0). rewrite (SUB m0) in H7 by lia. auto. }
        destruct (ch_may_stop ch c) eqn:Em.
        + rewrite Es. cbn [bind]. destruct b. { eexists. split; [reflexivity|]. apply STOPPED; auto. }
          destruct (ch_choose ch c (peek_key df) (peek_key db)) as [c' dir] eqn:Ec.
          pose proof (co_go _ _ _ _ _ _ _ _ CO e (peek_key df) (peek_key db) (N.min tent maxd) c c' dir HE ltac:(lia) KF KB Hne Em Es Ec) as GO.
          destruct dir.
          * destruct GO as (GO1 & GO2 & GO3). apply FW; auto.
            { intros u k0 Hq Hmin Hu. apply GO2. eapply is_term_f; eauto. }
            { intros Hc. destruct (GO3 Hc) as [GO4 GO5]. split; auto. intros u k0 Hq Hmin Hu. apply GO5. eapply is_term_b; eauto. }
          * destruct GO as (GO1 & GO2 & GO3). apply BW; auto. intros u k0 Hq Hmin Hu. apply GO2. eapply is_term_b; eauto.
        + cbn [bind]. destruct (HC eq_refl) as [HC1 HC2]. destruct (ch_choose ch c (peek_key df) (peek_key db)) as [c' dir] eqn:Ec.
          destruct (co_forced _ _ _ _ _ _ _ _ CO c _ _ c' dir Em HC1 Ec) as [-> Hc']. apply BW; auto.
      - subst stf stb. assert (PKf : peek_key df = Some 0%N).
        { destruct (peek_spec n df _ HRf) as [[_ E0]|(u & k1 & _ & E0 & Q0 & _)]. { specialize (E0 s). cbn in E0. rewrite fupd_eq in E0. discriminate. }
          cbn in Q0. unfold fupd in Q0. destruct (u =? s); congruence. }
        assert (PKb : peek_key db = Some 0%N).
        { destruct (peek_spec n db _ HRb) as [[_ E0]|(u & k1 & _ & E0 & Q0 & _)]. { specialize (E0 t). cbn in E0. rewrite fupd_eq in E0. discriminate. }
          cbn in Q0. unfold fupd in Q0. destruct (u =? t); congruence. }
        rewrite PKf, PKb in *. rewrite (co_init _ _ _ _ _ _ _ _ CO).
        destruct (co_stop _ _ _ _ _ _ _ _ CO e (Some 0%N) (Some 0%N) (N.min INF maxd) HE ltac:(lia) KF KB) as (b & Es & SB). rewrite Es. cbn [bind].
        destruct b.
        + eexists. split; [reflexivity|]. rewrite N.eqb_refl. exists (initA s 0%N pr1), (initA t 0%N pr2). repeat (split; [assumption|]). split; [discriminate|].
          intros HL HI. exfalso.
          destruct (sd_fin _ _ _ _ _ _ _ _ _ _ SOf s 0%N 0%N (walk_nil _ _) ltac:(rewrite <- Est; constructor) ltac:(unfold INF; lia)) as [Pf Pb].
          destruct (pf s) as [p|] eqn:Ep; [|congruence]. destruct (pb s) as [q|] eqn:Eq; [|congruence].
          specialize (SB eq_refl 0%N 0%N eq_refl eq_refl s s 0%N 0%N 0%N p q (walk_nil _ _) (walk_nil _ _) ltac:(rewrite <- Est; constructor) ltac:(unfold INF; lia) ltac:(intros; lia) Ep Eq ltac:(lia) ltac:(lia)).
          unfold INF in *. lia.
        + destruct (ch_choose ch (ch_init ch) (Some 0%N) (Some 0%N)) as [c' dir]. destruct dir.
          * destruct (settle_start n ET maxd fwl bwl s t pf pb (bp_prune_fw bp) (bp_fw bp) df db pr1 (initA t 0%N pr2) e m SOf HRf HRb) as (d1' & st1' & e' & tent' & m' & E1 & R1 & G1 & T1 & D1); auto.
            { intros v. apply (g_le _ _ _ _ _ _ _ _ _ _ _ _ GB). }
            rewrite E1. cbn [bind]. rewrite <- Est. rewrite Nat.eqb_refl.
            rewrite (ts_get_spec N INF n _ _ s (r_dist n d1' st1' R1)), (proj2 (Nat.ltb_lt s n) Hs). cbn [bind]. eexists. split; [reflexivity|].
            exists st1', (initA t 0%N pr2). split; auto. split; auto. split; auto. split; auto. split; auto. split.
            { intros x [= <-]. rewrite D1. split; [unfold INF; lia|]. split. { rewrite <- Est. constructor. } cbn. rewrite <- Est, fupd_eq. lia. }
            intros _ _. eexists. split; [reflexivity|]. lia.
          * destruct (settle_start n ET maxd bwl fwl t s pb pf (bp_prune_bw bp) (bp_bw bp) db df pr2 (initA s 0%N pr1) e m SOb HRb HRf) as (d1' & st1' & e' & tent' & m' & E1 & R1 & G1 & T1 & D1); auto.
            { intros v. apply (g_le _ _ _ _ _ _ _ _ _ _ _ _ GF). }
            rewrite E1. cbn [bind]. rewrite Est. rewrite Nat.eqb_refl.
            rewrite (ts_get_spec N INF n _ _ t (r_dist n d1' st1' R1)), (proj2 (Nat.ltb_lt t n) Ht). cbn [bind]. eexists. split; [reflexivity|].
            exists (initA s 0%N pr1), st1'. split; auto. split; auto. split; auto. split; auto. split; auto. split.
            { intros x [= <-]. rewrite D1. split; [unfold INF; lia|]. split. { rewrite Est. constructor. } cbn. rewrite Est, fupd_eq. lia. }
            intros _ _. eexists. split; [reflexivity|]. lia.
    Qed.
  End Path.
End Loop.
