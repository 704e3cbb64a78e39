(** Scanning a path against a shortest path tree: the caches and the deviation rank. *)
From Verif Require Import Base SpecGraph GraphProof UBS.

Definition cached (cache : ranks) (v : nat) : Prop := exists pp, nth_error cache v = Some (Some pp).

Lemma in_firstn (l : list nat) k x : In x (firstn k l) <-> exists i, i < k /\ nth_error l i = Some x.
    Proof.
      split.
      - intros H. apply In_nth_error in H. destruct H as (i & Hi). rewrite nth_error_firstn' in Hi. destruct (Nat.ltb_spec i k); [|discriminate]. eauto.
      - intros (i & Hi & E). apply nth_error_In with i. rewrite nth_error_firstn'. destruct (Nat.ltb_spec i k); [auto|lia].
    Qed.

(** ** Tree paths to the root *)
Section TPath.
  Variable n : nat.
  Variable arc : nat -> nat -> N -> Prop.   (** towards the root *)
  Variable root : nat.
  Variable delta : nat -> N.
  Inductive tpath (P : nat -> option nat) : nat -> list nat -> Prop :=
  | tp_root : root < n -> tpath P root [root]
  | tp_step v u w p : v <> root -> v < n -> P v = Some u -> arc v u w -> delta v = (w + delta u)%N -> tpath P u p -> tpath P v (v :: p).

  Lemma tpath_det P v p : tpath P v p -> forall q, tpath P v q -> p = q.
  Proof.
    induction 1 as [|v u w p Hv Hn HP HA HD Ht IH]; intros q Hq; inversion Hq; subst; auto; try contradiction.
    assert (u0 = u) by congruence. subst. f_equal. auto.
  Qed.
  Lemma tpath_lt P v p : tpath P v p -> Forall (fun x => x < n) p.
  Proof. induction 1; constructor; auto. Qed.
  Lemma tpath_hd P v p : tpath P v p -> exists q, p = v :: q.
  Proof. destruct 1; eauto. Qed.
  Lemma tpath_suffix P v p i u : tpath P v p -> nth_error p i = Some u -> tpath P u (skipn i p).
  Proof.
    intros H. revert i. induction H as [|v u' w p Hv Hn HP HA HD Ht IH]; intros i Hi.
    - destruct i as [|[|i]]; cbn in Hi; try discriminate. injection Hi as <-. cbn. constructor. auto.
    - destruct i; cbn in *. { injection Hi as <-. econstructor; eauto. } auto.
  Qed.
  Lemma tpath_walk P v p i u : tpath P v p -> nth_error p i = Some u -> (delta u <= delta v)%N /\ walk arc v u (delta v - delta u).
  Proof.
    intros H. revert i. induction H as [|v u' w p Hv Hn HP HA HD Ht IH]; intros i Hi.
    - destruct i as [|[|i]]; cbn in Hi; try discriminate. injection Hi as <-. rewrite N.sub_diag. split; [lia|]. constructor.
    - destruct i; cbn in *. { injection Hi as <-. rewrite N.sub_diag. split; [lia|]. constructor. }
      destruct (IH i Hi) as [A B]. split; [lia|]. replace (delta v - delta u)%N with (w + (delta u' - delta u))%N by lia. econstructor; eauto.
  Qed.
  Lemma tpath_nodup P v p : tpath P v p -> NoDup p.
  Proof.
    intros H. induction H as [|v u w p Hv Hn HP HA HD Ht IH]. { repeat constructor; auto. }
    constructor; auto. intros Hin. apply In_nth_error in Hin. destruct Hin as (i & Hi). pose proof (tpath_suffix _ _ _ _ _ Ht Hi) as H1.
    assert (H2 : tpath P v (v :: p)) by (econstructor; eauto). pose proof (tpath_det _ _ _ H1 _ H2) as E. pose proof (nth_error_Some_lt _ _ _ Hi).
    apply (f_equal (@length nat)) in E. rewrite skipn_length in E. cbn in E. lia.
  Qed.
  Lemma tpath_len P v p : tpath P v p -> length p <= n.
  Proof.
    intros H. rewrite <- (seq_length n 0). apply NoDup_incl_length. { eapply tpath_nodup; eauto. }
    intros x Hx. pose proof (tpath_lt _ _ _ H) as F. rewrite Forall_forall in F. specialize (F x Hx). apply in_seq. lia.
  Qed.
  Lemma tpath_root_in P v p : tpath P v p -> In root p.
  Proof. induction 1; cbn; auto. Qed.
  Lemma tpath_tl_root P v p : tpath P v p -> v <> root -> In root (tl p).
  Proof. intros H Hv. inversion H; subst; [contradiction|]. cbn. eapply tpath_root_in; eauto. Qed.

  (** ** The cache of path parents *)
  Section Cache.
    Variable win : nat -> bool.
    Variable onp : nat -> option bool.
    Hypothesis onp_win : forall v, v < n -> onp v = Some (win v).
    Hypothesis win_root : win root = true.

    (** cached values are right *)
    Definition CO (P : nat -> option nat) (cache : ranks) : Prop := length cache = n /\
      forall v pp, nth_error cache v = Some (Some pp) -> v <> root /\ exists p, tpath P v p /\ find win (tl p) = Some pp.
    (** cached nodes are found from the nodes of [l] *)
    Definition CW (P : nat -> option nat) (cache : ranks) (l : list nat) : Prop :=
      forall v, cached cache v -> exists x p i, In x l /\ tpath P x p /\ nth_error p i = Some v /\ forall j u, j <= i -> nth_error p j = Some u -> cached cache u.

    Lemma path_parent_ok P Q v p : (forall v u, P v = Some u -> Q v = Some u) -> tpath P v p -> v <> root -> forall fuel cache, length p <= fuel -> CO P cache ->
      exists cache' pp, path_parent Q onp fuel cache v = Some (cache', pp) /\ find win (tl p) = Some pp /\ nth_error cache' v = Some (Some pp) /\ CO P cache' /\
        (forall u, cached cache u -> cached cache' u) /\
        (forall u, cached cache' u -> cached cache u \/ exists i, nth_error p i = Some u /\ forall j u', j <= i -> nth_error p j = Some u' -> cached cache' u').
    Proof.
      intros HPQ H. induction H as [|v u w p Hv Hn HP HA HD Ht IH]; intros Hne fuel cache Hf HC; [contradiction|].
      assert (Hp : tpath P v (v :: p)) by (econstructor; eauto). destruct HC as [Lc HC].
      destruct fuel as [|fuel]; [cbn in Hf; lia|]. cbn [path_parent tl]. destruct (nth_error_lt cache v ltac:(lia)) as [c Ec]. rewrite Ec. cbn [bind].
      destruct c as [pp|].
      { destruct (HC v pp Ec) as (_ & q & Hq & Hfi). rewrite (tpath_det _ _ _ Hq _ Hp) in Hfi. exists cache, pp. cbn [tl] in Hfi. split; auto. split; auto. split; auto. split; [split; auto|]. split; auto. }
      rewrite (HPQ _ _ HP). cbn [bind]. assert (Hu : u < n). { pose proof (tpath_lt _ _ _ Ht) as F. destruct (tpath_hd _ _ _ Ht) as (q & ->). inversion F; auto. }
      rewrite (onp_win u Hu). cbn [bind]. destruct (tpath_hd _ _ _ Ht) as (q & Eq).
      assert (Hset : forall c1 pp, length c1 = n -> CO P c1 -> find win p = Some pp ->
        set_at c1 v (Some pp) = Some (upd c1 v (Some pp)) /\ nth_error (upd c1 v (Some pp)) v = Some (Some pp) /\ CO P (upd c1 v (Some pp)) /\ (forall x, cached c1 x -> cached (upd c1 v (Some pp)) x) /\
        (forall x, cached (upd c1 v (Some pp)) x -> cached c1 x \/ x = v)).
      { intros c1 pp L1 [_ C1] Hfi. rewrite set_at_lt by lia. split; auto. split. { apply nth_error_upd_eq. lia. } split; [split|split].
        - rewrite upd_length. auto.
        - intros x y Hx. destruct (Nat.eq_dec x v) as [->|Hx2].
          + rewrite nth_error_upd_eq in Hx by lia. injection Hx as <-. split; auto. exists (v :: p). auto.
          + rewrite nth_error_upd_neq in Hx by auto. auto.
        - intros x (y & Hx). destruct (Nat.eq_dec x v) as [->|Hx2]. { exists pp. apply nth_error_upd_eq. lia. } exists y. rewrite nth_error_upd_neq; auto.
        - intros x (y & Hx). destruct (Nat.eq_dec x v) as [->|Hx2]; auto. left. exists y. rewrite nth_error_upd_neq in Hx; auto. }
      destruct (win u) eqn:Ew.
      - assert (Hfi : find win p = Some u). { rewrite Eq. cbn. rewrite Ew. auto. }
        destruct (Hset cache u Lc (conj Lc HC) Hfi) as (E & N1 & C1 & M1 & B1). rewrite E. cbn [bind]. exists (upd cache v (Some u)), u.
        split; auto. split; auto. split; auto. split; auto. split; auto. intros x Hx. destruct (B1 x Hx) as [| ->]; auto. right. exists 0. split; auto. intros j y Hj Hy. destruct j; [|lia]. cbn in Hy. injection Hy as <-. auto.
      - assert (Hur : u <> root) by (intros ->; congruence).
        destruct (IH Hur fuel cache ltac:(cbn in Hf; lia) (conj Lc HC)) as (c1 & pp & E1 & F1 & N1 & C1 & M1 & B1). rewrite E1. cbn [bind].
        assert (Hfi : find win p = Some pp). { rewrite Eq. cbn. rewrite Ew. rewrite Eq in F1. auto. }
        destruct (Hset c1 pp (proj1 C1) C1 Hfi) as (E & N2 & C2 & M2 & B2). rewrite E. cbn [bind]. exists (upd c1 v (Some pp)), pp.
        split; auto. split; auto. split; auto. split; auto. split; auto. intros x Hx. destruct (B2 x Hx) as [Hx1| ->].
        + destruct (B1 x Hx1) as [|(i & Hi & Hall)]; auto. right. exists (S i). split; auto. intros [|j] y Hj Hy; cbn in Hy. { injection Hy as <-. exists pp. auto. } apply M2. apply (Hall j); auto. lia.
        + right. exists 0. split; auto. intros j y Hj Hy. destruct j; [|lia]. cbn in Hy. injection Hy as <-. auto.
    Qed.

    Lemma cached_dec cache v : cached cache v \/ ~ cached cache v.
    Proof. unfold cached. destruct (nth_error cache v) as [[pp|]|]; [left; eauto|right; intros (x & H); discriminate|right; intros (x & H); discriminate]. Qed.

    Lemma reset_ok P Q v p : (forall v u, P v = Some u -> Q v = Some u) -> tpath P v p -> forall fuel cache, length p <= fuel -> CO P cache ->
      exists cache' k, reset_cache Q fuel cache v = Some cache' /\ CO P cache' /\
        (forall i u, i < k -> nth_error p i = Some u -> cached cache u) /\ (exists u, nth_error p k = Some u /\ ~ cached cache u) /\
        (forall u, cached cache' u <-> cached cache u /\ ~ In u (firstn k p)).
    Proof.
      intros HPQ H. induction H as [Hr|v u w p Hv Hn HP HA HD Ht IH]; intros fuel cache Hf HC.
      - destruct fuel as [|fuel]; [cbn in Hf; lia|]. cbn [reset_cache]. destruct HC as [Lc HC]. destruct (nth_error_lt cache root ltac:(lia)) as [c Ec]. rewrite Ec. cbn [bind].
        destruct c as [pp|]. { destruct (HC root pp Ec). contradiction. } exists cache, 0. split; auto. split; [split; auto|]. split; [intros; lia|]. split. { exists root. split; auto. intros (pp & H). congruence. }
        intros u. cbn. tauto.
      - destruct fuel as [|fuel]; [cbn in Hf; lia|]. cbn [reset_cache]. destruct HC as [Lc HC]. destruct (nth_error_lt cache v ltac:(lia)) as [c Ec]. rewrite Ec. cbn [bind].
        destruct c as [pp|].
        + rewrite set_at_lt by lia. cbn [bind]. rewrite (HPQ _ _ HP). cbn [bind]. set (c1 := upd cache v None).
          assert (C1 : CO P c1). { split. { unfold c1. rewrite upd_length. auto. } intros x y Hx. unfold c1 in Hx. destruct (Nat.eq_dec x v) as [->|]. { rewrite nth_error_upd_eq in Hx by lia. discriminate. } rewrite nth_error_upd_neq in Hx; auto. }
          assert (M1 : forall x, cached c1 x <-> cached cache x /\ x <> v).
          { intros x. unfold cached, c1. destruct (Nat.eq_dec x v) as [->|]. { rewrite nth_error_upd_eq by lia. split; [intros (? & ?); discriminate|tauto]. } rewrite nth_error_upd_neq by auto. tauto. }
          assert (Hp : tpath P v (v :: p)) by (econstructor; eauto). pose proof (tpath_nodup _ _ _ Hp) as ND. inversion ND as [|? ? Hni ND']; subst.
          destruct (IH fuel c1 ltac:(cbn in Hf; lia) C1) as (c' & k & E & C' & Hk & (u' & Hu' & Hnc) & Hiff). exists c', (S k). split; auto. split; auto. split; [|split].
          * intros [|i] x Hi Hx; cbn in Hx. { injection Hx as <-. exists pp. auto. } apply (M1 x). apply (Hk i); auto. lia.
          * exists u'. split; auto. intros Hc. apply Hnc. apply M1. split; auto. intros ->. apply Hni. eapply nth_error_In; eauto.
          * intros x. cbn [firstn In]. rewrite Hiff, M1. intuition.
        + exists cache, 0. split; auto. split; [split; auto|]. split; [intros; lia|]. split. { exists v. split; auto. intros (y & H). congruence. } intros x. cbn. tauto.
    Qed.

    Lemma reset_CW P v p cache cache' k l : tpath P v p ->
      (forall i u, i < k -> nth_error p i = Some u -> cached cache u) -> (exists u, nth_error p k = Some u /\ ~ cached cache u) ->
      (forall u, cached cache' u <-> cached cache u /\ ~ In u (firstn k p)) -> CW P cache (v :: l) -> CW P cache' l.
    Proof.
      intros Hp Hk (uk & Huk & Hnc) Hiff HW z Hz. apply Hiff in Hz. destruct Hz as [Hz Hzn]. destruct (HW z Hz) as (x & q & i & Hx & Hq & Hi & Hall).
      destruct Hx as [<-|Hx].
      - exfalso. rewrite (tpath_det _ _ _ Hq _ Hp) in *. destruct (Nat.lt_ge_cases i k). { apply Hzn. apply in_firstn. eauto. } apply Hnc. apply (Hall k); auto.
      - exists x, q, i. split; auto. split; auto. split; auto. intros j u Hj Hu. apply Hiff. split; [eauto|]. intros Hin. apply in_firstn in Hin. destruct Hin as (j' & Hj' & Hu').
        pose proof (tpath_suffix _ _ _ _ _ Hq Hu) as S1. pose proof (tpath_suffix _ _ _ _ _ Hp Hu') as S2. pose proof (tpath_det _ _ _ S1 _ S2) as ES.
        assert (Hs : forall a, nth_error q (j + a) = nth_error p (j' + a)). { intros a. rewrite <- !nth_error_skipn'. rewrite ES. auto. }
        destruct (Nat.lt_ge_cases (j' + (i - j)) k) as [Hlt|Hge].
        + apply Hzn. apply in_firstn. exists (j' + (i - j)). split; auto. rewrite <- Hs. replace (j + (i - j)) with i by lia. auto.
        + apply Hnc. apply (Hall (j + (k - j')) uk); [lia|]. rewrite Hs. replace (j' + (k - j')) with k by lia. auto.
    Qed.

    Lemma resets_ok P Q l : (forall v u, P v = Some u -> Q v = Some u) -> (forall v, In v l -> v < n) -> forall cache, CO P cache -> CW P cache l ->
      exists cache', foldM (reset_cache Q (S n)) l cache = Some cache' /\ CO P cache' /\ forall v, ~ cached cache' v.
    Proof.
      intros HPQ. induction l as [|v l IH]; intros Hl cache HC HW; cbn [foldM].
      - exists cache. split; auto. split; auto. intros v Hv. destruct (HW v Hv) as (x & _ & _ & [] & _).
      - pose proof (Hl v (or_introl eq_refl)) as Hv. destruct (cached_dec cache v) as [(pp & Hpp)|Hnc].
        2: { cbn [reset_cache]. destruct (nth_error_lt cache v ltac:(destruct HC; lia)) as [c Ec]. rewrite Ec. cbn [bind]. destruct c as [pp|]. { exfalso. apply Hnc. exists pp. auto. } cbn [bind].
          apply IH; auto. { intros x Hx. apply Hl. cbn. auto. } intros z Hz. destruct (HW z Hz) as (x & p & i & [<-|Hx] & Hp & Hi & Hall); [|exists x, p, i; auto].
          exfalso. apply Hnc. apply (Hall 0); [lia|]. destruct (tpath_hd _ _ _ Hp) as (q & ->). auto. }
        destruct (proj2 HC v pp Hpp) as (_ & p & Hp & _). pose proof (tpath_len _ _ _ Hp).
        destruct (reset_ok P Q v p HPQ Hp (S n) cache ltac:(lia) HC) as (c' & k & E & C' & Hk & Hu & Hiff). rewrite E. cbn [bind].
        apply IH; auto. { intros x Hx. apply Hl. cbn. auto. } eapply reset_CW; eauto.
    Qed.
  End Cache.
End TPath.

Section Mono.
  Variable n : nat.
  Variable arc : nat -> nat -> N -> Prop.
  Variable root : nat.
  Variable delta : nat -> N.
  Variable win : nat -> bool.
  Definition tgrow (P P' : nat -> option nat) : Prop := forall v p, tpath n arc root delta P v p -> tpath n arc root delta P' v p.
  Lemma CO_grow P P' cache : tgrow P P' -> CO n arc root delta win P cache -> CO n arc root delta win P' cache.
  Proof. intros G [L H]. split; auto. intros v pp E. destruct (H v pp E) as (A & p & B & C). split; auto. exists p. auto. Qed.
  Lemma CW_grow P P' cache l : tgrow P P' -> CW n arc root delta P cache l -> CW n arc root delta P' cache l.
  Proof. intros G H v Hv. destruct (H v Hv) as (x & p & i & A & B & C). exists x, p, i. auto. Qed.
End Mono.

Section ScanProof.
  Context {T : Type}.
  Variable n : nat.
  Variable arc : nat -> nat -> N -> Prop.
  Variable xs : list nat.
  Variable m : nat.
  Variable delta : nat -> N.
  Variable L : nat -> N.
  Variable rho : nat -> nat.
  Variable dist : T -> nat -> option (T * N).
  Variable unpack : T -> nat -> option T.
  Variable tpred : T -> nat -> option nat.
  Variable pdist : nat -> option N.
  Variable comb : nat -> nat -> nat.
  Variable pr : ranks.
  Variables start stop : nat.
  Variable win : nat -> bool.
  Variable K : T -> Prop.
  Variable gp : T -> nat -> option nat.   (** the part of the tree that does not change any more *)
  Hypothesis Hgp : forall t v u, K t -> gp t v = Some u -> tpred t v = Some u.
  Notation X i := (nth i xs 0).
  Notation root := (X m).
  Notation tp P := (tpath n arc root delta P).
  Notation grow P P' := (tgrow n arc root delta P P').

  Hypothesis Hlen : length xs = S m.
  Hypothesis Hn : forall v, In v xs -> v < n.
  Hypothesis Hwin : forall v, v < n -> in_window pr start stop v = Some (win v).
  Hypothesis win_in : forall v, win v = true <-> In v xs.
  Hypothesis Hrank : forall i, i <= m -> rank_of pr (X i) = Some (rho i).
  Hypothesis rho_inj : forall i j, i <= m -> j <= m -> rho i = rho j -> i = j.
  Hypothesis Hpd : forall i, i <= m -> pdist (X i) = Some (L i).
  Hypothesis Hcomb : forall i j, i <= m -> j <= m -> comb (rho i) (rho j) = rho (Nat.max i j).
  Hypothesis Lm : L m = 0%N.
  Hypothesis Lstep : forall i, i < m -> exists w, arc (X i) (X (S i)) w /\ (forall w', arc (X i) (X (S i)) w' -> (w <= w')%N) /\ L i = (w + L (S i))%N.
  Hypothesis Hdist : forall i, i <= m -> is_dist arc (X i) root (delta (X i)).
  Hypothesis HKd : forall t i, K t -> i <= m -> exists t', dist t (X i) = Some (t', delta (X i)) /\ K t' /\ grow (gp t) (gp t').
  Hypothesis HKu : forall t i, K t -> i <= m -> exists t' p, unpack t (X i) = Some t' /\ K t' /\ grow (gp t) (gp t') /\ tp (gp t') (X i) p.

  Lemma X_in i : i <= m -> In (X i) xs.
  Proof. intros. apply nth_In. lia. Qed.
  Lemma in_X v : In v xs -> exists i, i <= m /\ v = X i.
  Proof. intros H. destruct (In_nth _ _ 0 H) as (i & Hi & E). exists i. split; auto. lia. Qed.
  Lemma skipn_X i : i <= m -> skipn i xs = X i :: skipn (S i) xs.
  Proof.
    intros Hi. clear - Hi Hlen. assert (H : i < length xs) by lia. clear Hlen Hi. revert i H. induction xs as [|a l IH]; intros [|i] H; cbn in *; try lia; auto.
    apply IH. lia.
  Qed.

  (** the path itself is a walk *)
  Lemma L_walk i k : i <= k -> k <= m -> (L k <= L i)%N /\ walk arc (X i) (X k) (L i - L k).
  Proof.
    intros Hik Hk. remember (k - i) as d. revert i Hik Heqd. induction d as [|d IH]; intros i Hik Hd.
    - assert (i = k) by lia. subst. rewrite N.sub_diag. split; [lia|constructor].
    - destruct (Lstep i ltac:(lia)) as (w & HA & _ & E). destruct (IH (S i) ltac:(lia) ltac:(lia)) as [A B]. split; [lia|].
      replace (L i - L k)%N with (w + (L (S i) - L k))%N by lia. econstructor; eauto.
  Qed.
  Lemma delta_le i : i <= m -> (delta (X i) <= L i)%N.
  Proof. intros Hi. destruct (L_walk i m Hi (le_n _)) as [_ W]. rewrite Lm, N.sub_0_r in W. apply (proj2 (Hdist i Hi)); auto. Qed.
  Lemma opt_suffix J k : J <= k -> k <= m -> delta (X J) = L J -> delta (X k) = L k.
  Proof.
    intros HJ Hk E. destruct (L_walk J k HJ Hk) as [A W]. pose proof (delta_le k Hk). pose proof (proj2 (Hdist J ltac:(lia)) _ (walk_app _ _ _ _ _ _ W (proj1 (Hdist k Hk)))). lia.
  Qed.
  Lemma root_delta : delta root = 0%N.
  Proof. pose proof (delta_le m (le_n _)). lia. Qed.

  (** what is known of the first [j] nodes *)
  Definition seen (P : nat -> option nat) (dev : option nat) (j : nat) : Prop :=
    forall i, i < j -> delta (X i) <> L i /\ exists p, tp P (X i) p /\
      (nth_error p 1 = Some (X (S i)) \/ exists c D, c <= m /\ find win (tl p) = Some (X c) /\ dev = Some D /\ c <= D).

  Lemma seen_walk P dev J : J <= m -> delta (X J) = L J -> seen P dev J -> forall len i p, length p <= len -> i < J -> tp P (X i) p ->
    exists D, dev = Some D /\ J <= D /\ (D <= m -> (L D <= delta (X i))%N /\ walk arc (X i) (X D) (delta (X i) - L D)).
  Proof.
    intros HJ EJ HS. induction len as [|len IH]; intros i p Hl Hi Hp. { destruct (tpath_hd _ _ _ _ _ _ _ Hp) as (q & ->). cbn in Hl. lia. }
    destruct (HS i Hi) as (Hne & p' & Hp' & Hc). rewrite (tpath_det _ _ _ _ _ _ _ Hp' _ Hp) in Hc. clear p' Hp'.
    assert (Hstep : forall q c, c < J -> 0 < q -> nth_error p q = Some (X c) -> exists D, dev = Some D /\ J <= D /\ (D <= m -> (L D <= delta (X i))%N /\ walk arc (X i) (X D) (delta (X i) - L D))).
    { intros q c Hc' Hq Eq. pose proof (tpath_suffix _ _ _ _ _ _ _ _ _ Hp Eq) as Hs. destruct (tpath_walk _ _ _ _ _ _ _ _ _ Hp Eq) as [A1 W1].
      destruct (IH c (skipn q p) ltac:(rewrite skipn_length; lia) Hc' Hs) as (D & ED & HD & HDw). exists D. split; auto. split; auto. intros HDm. destruct (HDw HDm) as [A2 W2]. split; [lia|].
      replace (delta (X i) - L D)%N with (delta (X i) - delta (X c) + (delta (X c) - L D))%N by lia. eapply walk_app; eauto. }
    destruct Hc as [H1|(c & D & Hcm & Hf & ED & HcD)].
    - destruct (Nat.lt_ge_cases (S i) J). { apply (Hstep 1 (S i)); auto. }
      exfalso. assert (J = S i) by lia. subst J. destruct (Lstep i ltac:(lia)) as (w0 & HA & Hmin & EL). inversion Hp as [|? u w q Hv Hvn HP HA' HD Ht]; subst; [discriminate|].
      cbn in H1. destruct (tpath_hd _ _ _ _ _ _ _ Ht) as (q' & ->). cbn in H1. injection H1 as ->. pose proof (Hmin w HA'). pose proof (delta_le i ltac:(lia)). lia.
    - destruct (find_some _ _ Hf) as [Hin _]. apply In_nth_error in Hin. destruct Hin as (q & Hq). assert (Hq' : nth_error p (S q) = Some (X c)). { destruct p; [destruct q; discriminate|exact Hq]. }
      destruct (Nat.lt_ge_cases c J). { apply (Hstep (S q) c); auto. lia. }
      exists D. split; auto. split; [lia|]. intros HDm. destruct (tpath_walk _ _ _ _ _ _ _ _ _ Hp Hq') as [A1 W1]. destruct (L_walk c D HcD HDm) as [A2 W2]. rewrite (opt_suffix J c) in * by auto.
      split; [lia|]. replace (delta (X i) - L D)%N with (delta (X i) - L c + (L c - L D))%N by lia. eapply walk_app; eauto.
  Qed.

  Notation Scan := (scan n dist unpack tpred pdist comb pr start stop).
  Lemma scan_cons node next rest t cache dev sub : Scan (node :: next :: rest) t cache dev sub =
    (path_dist <- pdist node ;;
     '(t, shortest) <- dist t node ;;
     if (path_dist =? shortest)%N then Some (t, cache, dev, sub) else
     sub <- rank_of pr node ;;
     t <- unpack t node ;;
     p <- tpred t node ;;
     if negb (p =? next) && negb (shortest =? path_dist)%N then
       '(cache, _) <- path_parent (tpred t) (in_window pr start stop) n cache node ;;
       pp <- rank_of cache node ;; r <- rank_of pr pp ;;
       Scan (next :: rest) t cache (Some match dev with Some d => comb d r | None => r end) sub
     else Scan (next :: rest) t cache dev sub).
  Proof. reflexivity. Qed.
  Lemma scan_ok k : forall j t cache dev sub, j + k = m -> K t -> CO n arc root delta win (gp t) cache -> CW n arc root delta (gp t) cache (firstn j xs) ->
    seen (gp t) dev j -> (forall D, dev = Some D -> D <= m /\ 0 < j) ->
    exists t' cache' dev' J, Scan (skipn j xs) t cache (option_map rho dev) sub = Some (t', cache', option_map rho dev', if J =? j then sub else rho (J - 1)) /\ j <= J <= m /\
      K t' /\ CO n arc root delta win (gp t') cache' /\ CW n arc root delta (gp t') cache' (firstn J xs) /\ delta (X J) = L J /\ seen (gp t') dev' J /\ (forall D, dev' = Some D -> D <= m /\ 0 < J).
  Proof.
    assert (HF : forall i, i <= m -> firstn (S i) xs = firstn i xs ++ [X i]).
    { clear - Hlen. intros i Hi. assert (i < length xs) by lia. clear Hlen Hi. revert i H. induction xs as [|a l IH]; intros [|i] H; cbn in *; try lia; auto. rewrite IH by lia. auto. }
    induction k as [|k IH]; intros j t cache dev sub Hj HK HC HW HS HD.
    - assert (j = m) by lia. subst j. rewrite skipn_X by lia. rewrite skipn_all2 by lia. cbn [scan]. exists t, cache, dev, m. rewrite Nat.eqb_refl. split; auto. split; [lia|].
      repeat (split; auto). rewrite Lm. apply root_delta.
    - rewrite skipn_X by lia. rewrite (skipn_X (S j)) by lia. rewrite scan_cons. rewrite Hpd by lia. cbn [bind].
      destruct (HKd t j HK ltac:(lia)) as (t1 & E1 & K1 & G1). rewrite E1. cbn [bind].
      pose proof (CO_grow _ _ _ _ _ _ _ _ G1 HC) as C1. pose proof (CW_grow _ _ _ _ _ _ _ _ G1 HW) as W1.
      assert (S1 : seen (gp t1) dev j). { intros i Hi. destruct (HS i Hi) as (A & p & B & C). split; auto. exists p. auto. }
      destruct (N.eqb_spec (L j) (delta (X j))) as [Eq|Hne].
      { exists t1, cache, dev, j. rewrite Nat.eqb_refl. split; auto. split; [lia|]. repeat (split; auto). }
      rewrite Hrank by lia. cbn [bind]. destruct (HKu t1 j K1 ltac:(lia)) as (t2 & p & E2 & K2 & G2 & Hp). rewrite E2. cbn [bind].
      pose proof (CO_grow _ _ _ _ _ _ _ _ G2 C1) as C2. pose proof (CW_grow _ _ _ _ _ _ _ _ G2 W1) as W2.
      assert (S2 : seen (gp t2) dev j). { intros i Hi. destruct (S1 i Hi) as (A & q & B & C). split; auto. exists q. auto. }
      assert (Hjr : X j <> root). { intros Er. pose proof (Hrank j ltac:(lia)) as R1. rewrite Er, Hrank in R1 by lia. injection R1 as R1. apply rho_inj in R1; lia. }
      inversion Hp as [|? u w q Hv Hvn HP HA' HDl Ht]; [congruence|]. subst. rewrite (Hgp _ _ _ K2 HP). cbn [bind].
      destruct (tpath_hd _ _ _ _ _ _ _ Ht) as (q' & Eq').
      assert (HFW : forall c', CW n arc root delta (gp t2) c' (firstn j xs) -> CW n arc root delta (gp t2) c' (firstn (S j) xs)).
      { intros c' H v Hvc. destruct (H v Hvc) as (x & p' & i & A & B). exists x, p', i. split; auto. rewrite HF by lia. apply in_or_app. auto. }
      assert (Hout : forall cache' dev', CO n arc root delta win (gp t2) cache' -> CW n arc root delta (gp t2) cache' (firstn (S j) xs) -> seen (gp t2) dev' (S j) -> (forall D, dev' = Some D -> D <= m) ->
        exists t' c' d' J, Scan (skipn (S j) xs) t2 cache' (option_map rho dev') (rho j) = Some (t', c', option_map rho d', if J =? j then sub else rho (J - 1)) /\ j <= J <= m /\
          K t' /\ CO n arc root delta win (gp t') c' /\ CW n arc root delta (gp t') c' (firstn J xs) /\ delta (X J) = L J /\ seen (gp t') d' J /\ (forall D, d' = Some D -> D <= m /\ 0 < J)).
      { intros cache' dev' HC' HW' HS' HD'. destruct (IH (S j) t2 cache' dev' (rho j) ltac:(lia) K2 HC' HW' HS') as (t' & c' & d' & J & E & HJ & R). { intros D ED. split; [auto|lia]. }
        exists t', c', d', J. rewrite E. split; [|split; [lia|auto]]. destruct (Nat.eqb_spec J j); [lia|]. destruct (Nat.eqb_spec J (S j)) as [EJ|]; auto. rewrite EJ. replace (S j - 1) with j by lia. auto. }
      rewrite (skipn_X (S j)) in Hout by lia.
      destruct (Nat.eqb_spec u (X (S j))) as [->|Hu]; cbn [negb andb].
      + apply Hout; auto.
        * intros i Hi. destruct (Nat.eq_dec i j) as [->|]; [|apply S2; lia]. split; [auto|]. exists (X j :: q). split; [exact Hp|]. left. rewrite Eq'. auto.
        * intros D ED. apply HD; auto.
      + destruct (N.eqb_spec (delta (X j)) (L j)); [congruence|]. cbn [negb].
        destruct (path_parent_ok n arc root delta win (in_window pr start stop) Hwin (proj2 (win_in root) (X_in m (le_n _))) (gp t2) (tpred t2) (X j) (X j :: q) (fun v u => Hgp t2 v u K2) Hp Hjr n cache (tpath_len _ _ _ _ _ _ _ Hp) C2)
          as (c3 & pp & E3 & F3 & N3 & C3 & M3 & B3). rewrite E3. cbn [bind]. unfold rank_of at 1. rewrite N3. cbn [bind].
        assert (Hppx : In pp xs). { apply win_in. destruct (find_some _ _ F3). auto. } destruct (in_X pp Hppx) as (c & Hcm & ->). rewrite Hrank by lia. cbn [bind].
        set (dev3 := Some (match dev with Some D => Nat.max D c | None => c end)).
        assert (Ed : Some match option_map rho dev with Some d => comb d (rho c) | None => rho c end = option_map rho dev3).
        { unfold dev3. destruct dev as [D|]; cbn; auto. rewrite Hcomb; auto. apply HD; auto. }
        rewrite Ed. apply Hout; auto.
        * intros v Hvc. destruct (B3 v Hvc) as [Hold|(i & Hi & Hall)].
          -- destruct (W2 v Hold) as (x & p' & i & A & B & C & D). exists x, p', i. split. { rewrite HF by lia. apply in_or_app; auto. } split; auto. split; auto. intros j' u' Hj' Hu'. apply M3. eapply D; eauto.
          -- exists (X j), (X j :: q), i. split. { rewrite HF by lia. apply in_or_app; cbn; auto. } auto.
        * intros i Hi. destruct (Nat.eq_dec i j) as [->|Hij].
          -- split; auto. exists (X j :: q). split; auto. right. exists c. eexists. split; auto. split; [exact F3|]. split; [reflexivity|]. destruct dev; lia.
          -- destruct (S2 i ltac:(lia)) as (A & p' & B & C). split; auto. exists p'. split; auto. destruct C as [C|(c' & D & C1' & C2' & C3' & C4')]; auto. right. exists c'. eexists. split; auto. split; [eauto|]. split; [reflexivity|]. rewrite C3'. lia.
        * intros D ED. unfold dev3 in ED. injection ED as <-. destruct dev as [D|]; auto. destruct (HD D eq_refl). lia.
  Qed.

  Lemma all_none_iff cache : all_none cache = true <-> forall v, ~ cached cache v.
  Proof.
    unfold all_none. rewrite forallb_forall. split.
    - intros H v (pp & E). specialize (H _ (nth_error_In _ _ E)). discriminate.
    - intros H [pp|] Hin; auto. apply In_nth_error in Hin. destruct Hin as (v & E). exfalso. apply (H v). exists pp. auto.
  Qed.

  Lemma scan_reset_ok dbg path t cache sub : (forall v, In v path <-> In v xs) -> K t -> length cache = n -> all_none cache = true ->
    exists t' cache' dev J, scan_reset dbg n dist unpack tpred pdist comb pr start stop xs path t cache sub = Some (t', cache', option_map rho dev, if J =? 0 then sub else rho (J - 1)) /\
      K t' /\ length cache' = n /\ all_none cache' = true /\ J <= m /\ (forall i, i < J -> (delta (X i) < L i)%N) /\ (forall i, J <= i <= m -> delta (X i) = L i) /\
      (J = 0 -> dev = None) /\
      (0 < J -> exists D, dev = Some D /\ J <= D <= m /\ forall i, i < J -> (L D <= delta (X i))%N /\ walk arc (X i) (X D) (delta (X i) - L D)).
  Proof.
    intros Hpath HK Lc Hnone. pose proof (proj1 (all_none_iff cache) Hnone) as HN.
    destruct (scan_ok m 0 t cache None sub ltac:(lia) HK) as (t' & c' & dev & J & E & HJ & K' & C' & W' & EJ & HS & HD).
    - split; auto. intros v pp E. exfalso. apply (HN v). exists pp. auto.
    - intros v Hv. exfalso. apply (HN v). auto.
    - intros i Hi. lia.
    - intros D; discriminate.
    - cbn [skipn option_map] in E. unfold scan_reset. rewrite E. cbn [bind].
      assert (WP : CW n arc root delta (gp t') c' path).
      { intros v Hv. destruct (W' v Hv) as (x & p & i & A & B). exists x, p, i. split; auto. apply Hpath. apply in_firstn in A. destruct A as (q & _ & Eq). eapply nth_error_In; eauto. }
      destruct (resets_ok n arc root delta win (in_window pr start stop) Hwin (proj2 (win_in root) (X_in m (le_n _))) (gp t') (tpred t') path (fun v u => Hgp t' v u K') (fun v Hv => Hn v (proj1 (Hpath v) Hv)) c' C' WP) as (c2 & E2 & C2 & N2). rewrite E2. cbn [bind].
      rewrite (proj2 (all_none_iff c2) N2). unfold dassert. rewrite andb_false_r. exists t', c2, dev, J. split; auto. split; auto. split. { apply C2. } split. { apply all_none_iff. auto. }
      split; [lia|]. split. { intros i Hi. pose proof (delta_le i ltac:(lia)). destruct (HS i Hi) as [H1 _]. lia. } split. { intros i Hi. apply (opt_suffix J); auto; lia. }
      assert (HDJ : 0 < J -> exists D, dev = Some D /\ J <= D <= m /\ forall i, i < J -> (L D <= delta (X i))%N /\ walk arc (X i) (X D) (delta (X i) - L D)).
      { intros H0. destruct (HS 0 H0) as (_ & p0 & Hp0 & _). destruct (seen_walk _ _ _ (proj2 HJ) EJ HS (length p0) 0 p0 (le_n _) H0 Hp0) as (D & ED & HJD & _). exists D. split; auto. destruct (HD D ED) as [HDm _]. split; [lia|].
        intros i Hi. destruct (HS i Hi) as (_ & p & Hp & _). destruct (seen_walk _ _ _ (proj2 HJ) EJ HS (length p) i p (le_n _) Hi Hp) as (D' & ED' & _ & HW'). assert (D' = D) by congruence. subst D'. auto. }
      split; auto. intros ->. destruct dev as [D|]; auto. destruct (HD D eq_refl). lia.
  Qed.
End ScanProof.
