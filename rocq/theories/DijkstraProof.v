(** Invariants of a (time-dependent FIFO, goal-directed, possibly pruned) Dijkstra search. *)
From Verif Require Import Base SpecPQ SpecGraph IndexHeap IndexHeapProof TsVec TsVecProof Dijkstra LoopProof DijkstraRef.

Section Search.
  Context {A P E : Type}.
  Variable n : nat.
  Variable links : nat -> option (list A).
  Variable hd : A -> nat.
  Variable lk : nat -> N -> A -> option N.
  Variable pl : A -> P.
  Variable epred : A -> bool.
  Variable cb : E -> nat -> N -> option (E * bool).
  Variable pot : E -> nat -> option (E * option N).

  Variable nb : nat -> list A.
  Variable slk : nat -> N -> A -> N.
  Variable pi : nat -> option N.
  Variable s : nat.
  Variable d0 : N.
  Variable J : (nat -> N) -> (nat -> N) -> E -> Prop.

  (** one step of a walk / with the arc *)
  Definition gstep (u : nat) (d : N) (v : nat) (d' : N) : Prop :=
    u < n /\ exists a, In a (nb u) /\ epred a = true /\ hd a = v /\ slk u d a = d'.
  Definition gstepl (u : nat) (d : N) (l : P) (v : nat) (d' : N) : Prop :=
    u < n /\ exists a, In a (nb u) /\ epred a = true /\ hd a = v /\ slk u d a = d' /\ pl a = l.
  Notation reach' := (reach gstep).

  (** Assumptions on graph, ops, potential and callbacks. *)
  Record search_ok : Prop := {
    so_links : forall u, u < n -> links u = Some (nb u);
    so_hd : forall u a, u < n -> In a (nb u) -> hd a < n;
    so_lk : forall u a d, u < n -> In a (nb u) -> epred a = true -> (d < INF)%N ->
      exists x, lk u d a = Some x /\ ((slk u d a < INF)%N -> x = slk u d a) /\ ((INF <= slk u d a)%N -> (INF <= x)%N);
    so_mono : forall u a d d', u < n -> In a (nb u) -> (d <= d')%N -> (slk u d a <= slk u d' a)%N;
    so_ext : forall u a d, u < n -> In a (nb u) -> (d <= slk u d a)%N;
    so_pi : forall v p, pi v = Some p -> (p + INF <= U32)%N;
    so_pot : forall D AA e v, J D AA e -> v < n -> exists e', pot e v = Some (e', pi v) /\ J D AA e';
    so_cb : forall D AA e v x, J D AA e -> v < n -> (x < D v)%N -> (D v <= INF)%N -> reach' s d0 v x ->
      exists e' b, cb e v x = Some (e', b) /\ J (fupd D v x) (if b : bool then fupd AA v x else AA) e' }.
  Hypothesis HS : search_ok.
  Hypothesis Hs : s < n.
  Hypothesis Hd0 : (d0 < INF)%N.
  Set Default Proof Using "All".
  Lemma Hlinks u : u < n -> links u = Some (nb u). Proof. apply (so_links HS). Qed.
  Lemma Hhd u a : u < n -> In a (nb u) -> hd a < n. Proof. apply (so_hd HS). Qed.
  Lemma Hlk u a d : u < n -> In a (nb u) -> epred a = true -> (d < INF)%N ->
    exists x, lk u d a = Some x /\ ((slk u d a < INF)%N -> x = slk u d a) /\ ((INF <= slk u d a)%N -> (INF <= x)%N).
  Proof. apply (so_lk HS). Qed.
  Lemma Hmono u a d d' : u < n -> In a (nb u) -> (d <= d')%N -> (slk u d a <= slk u d' a)%N. Proof. apply (so_mono HS). Qed.
  Lemma Hext u a d : u < n -> In a (nb u) -> (d <= slk u d a)%N. Proof. apply (so_ext HS). Qed.
  Lemma Hpi v p : pi v = Some p -> (p + INF <= U32)%N. Proof. apply (so_pi HS). Qed.
  Lemma HJpot D AA e v : J D AA e -> v < n -> exists e', pot e v = Some (e', pi v) /\ J D AA e'. Proof. apply (so_pot HS). Qed.
  Lemma HJcb D AA e v x : J D AA e -> v < n -> (x < D v)%N -> (D v <= INF)%N -> reach' s d0 v x ->
    exists e' b, cb e v x = Some (e', b) /\ J (fupd D v x) (if b : bool then fupd AA v x else AA) e'.
  Proof. apply (so_cb HS). Qed.

  Lemma reach_ge x dx t d : reach' x dx t d -> (dx <= d)%N.
  Proof. induction 1 as [|v d y d' Hr IH (Hv & a & Ha & _ & _ & Hsl)]; [lia|]. pose proof (Hext v a d Hv Ha). lia. Qed.
  Lemma reach_lt x dx t d : x < n -> reach' x dx t d -> t < n.
  Proof. intros Hx. induction 1 as [|v d y d' Hr IH (Hv & a & Ha & _ & Hh & Hsl)]; auto. rewrite <- Hh. apply (Hhd v); auto. Qed.

  Inductive tree (D : nat -> N) (Pr : nat -> nat * P) : nat -> Prop :=
  | tree_root : tree D Pr s
  | tree_step v u a : v <> s -> u < n -> Pr v = (u, pl a) -> In a (nb u) -> epred a = true -> hd a = v ->
      (D u < INF)%N -> (slk u (D u) a <= D v)%N -> tree D Pr u -> tree D Pr v.

  (** [u], [pre]: the node being settled and its arcs done so far ([u = n]: none) *)
  Record GInv (u : nat) (pre : list A) (st : ast P) : Prop := {
    g_le : forall v, (aD st v <= aA st v <= INF)%N;
    g_d0 : forall v, (d0 <= aD st v)%N;
    g_s : aA st s = d0;
    g_out : forall v, n <= v -> aD st v = INF /\ aQ st v = None;
    g_reach : forall v, (aD st v < INF)%N -> reach' s d0 v (aD st v);
    g_acc : forall v, (aA st v < INF)%N -> reach' s d0 v (aA st v);
    g_key : forall v k, aQ st v = Some k -> (aA st v < INF)%N /\
      ((exists p, pi v = Some p /\ k = p + aA st v)%N \/ v = s /\ k = d0);
    g_closed : forall v a, v < n -> (aA st v < INF)%N -> aQ st v = None -> pi v <> None \/ v = s ->
      In a (nb v) -> epred a = true -> (v = u -> In a pre) -> (aD st (hd a) <= slk v (aA st v) a)%N;
    g_tree : forall v, (aD st v < INF)%N -> tree (aD st) (aP st) v }.

  Definition Me (st : ast P) (v : nat) : N := (2 * aD st v + match aQ st v with Some _ => 1 | None => 0 end)%N.
  Definition M (st : ast P) : N := sumN n (Me st).

  (** what a settle does to the other nodes *)
  Definition grow (st st' : ast P) : Prop := forall v,
    (aD st' v <= aD st v)%N /\ (aQ st v <> None -> aQ st' v <> None) /\ (aA st' v = aA st v \/ pi v = None \/ aQ st' v <> None).
  Lemma grow_refl st : grow st st.
  Proof. intros v. split; [lia|]. auto. Qed.
  Lemma grow_trans a b c : grow a b -> grow b c -> grow a c.
  Proof.
    intros H1 H2 v. destruct (H1 v) as (A1 & B1 & C1). destruct (H2 v) as (A2 & B2 & C2). split; [lia|]. split; auto.
    destruct C2 as [C2|[C2|C2]]; auto. rewrite C2. destruct C1 as [C1|[C1|C1]]; auto.
  Qed.

  (** a settle of a node with label [b] changes other nodes only by giving them a smaller label, at least [b] *)
  Definition keep (b : N) (st st' : ast P) : Prop := forall v,
    (aD st' v = aD st v /\ aA st' v = aA st v /\ aQ st' v = aQ st v /\ aP st' v = aP st v) \/ (b <= aD st' v < aD st v)%N.
  Lemma keep_refl b st : keep b st st.
  Proof. intros v. auto. Qed.
  Lemma keep_trans b x y z : keep b x y -> keep b y z -> keep b x z.
  Proof.
    intros H1 H2 v. destruct (H1 v) as [(A1 & A2 & A3 & A4)|A1], (H2 v) as [(B1 & B2 & B3 & B4)|B1]; try (right; lia).
    left. repeat split; congruence.
  Qed.

  Lemma tree_update D Pr u a v x : (forall y, (d0 <= D y)%N) -> D s = d0 ->
    u < n -> In a (nb u) -> epred a = true -> hd a = v -> slk u (D u) a = x -> (x < D v)%N -> (D v <= INF)%N -> tree D Pr u ->
    forall y, (y = v \/ tree D Pr y) -> tree (fupd D v x) (fupd Pr v (u, pl a)) y.
  Proof.
    intros Hb HDs Hu Ha Hp Hv Hx Hlt HI Tu.
    assert (Hvs : v <> s). { intros ->. specialize (Hb u). pose proof (Hext u a (D u) Hu Ha). lia. }
    assert (Huv : u <> v). { intros ->. pose proof (Hext v a (D v) Hu Ha). lia. }
    assert (T1 : forall y, tree D Pr y -> (D y < D v)%N -> tree (fupd D v x) (fupd Pr v (u, pl a)) y).
    { induction 1 as [|y u' a' Hy Hu' EP Ha' Hp' Hh' HD Hs' T IH]; intros Hlt'. { constructor. }
      assert (y <> v) by (intros ->; lia). pose proof (Hext u' a' (D u') Hu' Ha') as X. assert (u' <> v) by (intros ->; lia).
      apply (tree_step _ _ y u' a'); auto; rewrite ?(fupd_neq _ v) by auto; auto. apply IH. lia. }
    pose proof (Hext u a (D u) Hu Ha) as Xu.
    assert (Tv : tree (fupd D v x) (fupd Pr v (u, pl a)) v).
    { apply (tree_step _ _ v u a); auto; rewrite ?fupd_eq, ?(fupd_neq _ v) by auto; auto; try lia. apply T1; auto. lia. }
    intros y [->|T]; auto. induction T as [|y u' a' Hy Hu' EP Ha' Hp' Hh' HD Hs' T IH]. { constructor. }
    destruct (Nat.eq_dec y v) as [->|Hyv]; auto.
    destruct (Nat.eq_dec u' v) as [->|Huv'].
    - apply (tree_step _ _ y v a'); auto; rewrite ?fupd_eq, ?(fupd_neq _ v) by auto; auto; try lia.
      pose proof (Hmono v a' x (D v) Hu' Ha' ltac:(lia)). lia.
    - apply (tree_step _ _ y u' a'); auto; rewrite ?(fupd_neq _ v) by auto; auto.
  Qed.

  Lemma relaxA_ok u pre st e a : GInv u pre st -> J (aD st) (aA st) e -> u < n -> In a (nb u) ->
    aQ st u = None -> (aD st u < INF)%N ->
    exists st' e', relaxA n hd lk pl epred cb pot u (st, e) a = Some (st', e') /\
      GInv u (pre ++ [a]) st' /\ J (aD st') (aA st') e' /\ aQ st' u = None /\ aD st' u = aD st u /\ (M st' <= M st)%N /\ grow st st' /\ keep (aD st u) st st'.
  Proof.
    intros G HJ Hu Ha Hq HDu. unfold relaxA.
    destruct (epred a) eqn:Hep; cbn [negb].
    2:{ exists st, e. split; auto. split; [|split; [auto|split; [auto|split; [auto|split; [lia|split; [apply grow_refl|apply keep_refl]]]]]].
        destruct G. split; auto. intros v a' H1 H2 H3 H4 H5 H6 H7. apply g_closed0; auto. intros Hv. specialize (H7 Hv). apply in_app_or in H7. destruct H7 as [H7|[<-|[]]]; auto. congruence. }
    destruct (Hlk u a (aD st u) Hu Ha Hep HDu) as (x & Ex & Hx1 & Hx2). rewrite Ex; cbn [bind].
    set (v := hd a) in *. assert (Hv : v < n) by (apply (Hhd u a); auto). rewrite (proj2 (Nat.ltb_lt _ _) Hv). cbn [guard bind].
    pose proof (g_le u pre st G) as Gle.
    pose proof (Hext u a (aD st u) Hu Ha) as Xu.
    destruct (N.ltb_spec x (aD st v)) as [Hlt|Hge].
    2:{ exists st, e. split; auto. split; [|split; [auto|split; [auto|split; [auto|split; [lia|split; [apply grow_refl|apply keep_refl]]]]]].
        assert (Hge' : (aD st v <= slk u (aD st u) a)%N). { specialize (Gle v). destruct (N.lt_ge_cases (slk u (aD st u) a) INF) as [C|C]. { rewrite <- Hx1; auto. } lia. }
        destruct G. split; auto. intros v' a' H1 H2 H3 H4 H5 H6 H7.
        destruct (Nat.eq_dec v' u) as [->|Hne]; [|apply g_closed0; auto; congruence]. specialize (H7 eq_refl). apply in_app_or in H7. destruct H7 as [H7|[<-|[]]]. { apply g_closed0; auto. }
        fold v. pose proof (Hmono u a (aD st u) (aA st u) Hu Ha ltac:(apply Gle)). lia. }
    assert (HxI : (x < INF)%N). { specialize (Gle v). lia. }
    assert (Hxe : slk u (aD st u) a = x). { destruct (N.lt_ge_cases (slk u (aD st u) a) INF) as [C|C]. { rewrite Hx1; auto. } specialize (Hx2 C). lia. }
    assert (Rx : reach' s d0 v x). { eapply reach_snoc. { apply (g_reach u pre st G); eauto. } split; auto. exists a. auto. }
    assert (HDs : aD st s = d0). { pose proof (g_s u pre st G). pose proof (g_d0 u pre st G s). specialize (Gle s). lia. }
    assert (Hvs : v <> s). { intros E1. rewrite E1 in Hlt. rewrite HDs in Hlt. pose proof (g_d0 u pre st G u). lia. }
    assert (Huv : u <> v). { intros E1. rewrite <- E1 in Hlt. lia. }
    destruct (HJcb _ _ e v x HJ Hv Hlt ltac:(apply (N.le_trans _ (aA st v)); apply Gle) Rx) as (e1 & b & Ecb & HJ1). rewrite Ecb; cbn [bind].
    (* common part: the state with D, P updated, A and Q changed at v only *)
    assert (COM : forall A' Q', (forall y, y <> v -> A' y = aA st y) -> (forall y, y <> v -> Q' y = aQ st y) ->
        (A' v = x /\ (pi v = None /\ Q' v = aQ st v /\ aQ st v = None \/ exists p, pi v = Some p /\ Q' v = Some (p + x)%N) \/ A' v = aA st v /\ Q' v = aQ st v) ->
        let st' := mkA (fupd (aD st) v x) A' (fupd (aP st) v (u, pl a)) Q' in
        GInv u (pre ++ [a]) st' /\ aQ st' u = None /\ aD st' u = aD st u /\ (M st' <= M st)%N /\ grow st st' /\ keep (aD st u) st st').
    { intros A' Q' HA HQ Hcase st'. split.
      - split; cbn [aD aA aP aQ st'].
        + intros y. destruct (Nat.eq_dec y v) as [->|Hy].
          * rewrite fupd_eq. specialize (Gle v). destruct Hcase as [[-> _]|[-> _]]; lia.
          * rewrite fupd_neq, HA by auto. apply Gle.
        + intros y. unfold fupd. destruct (y =? v). { pose proof (g_d0 u pre st G u). lia. } apply (g_d0 u pre st G).
        + rewrite HA by auto. apply (g_s u pre st G).
        + intros y Hy. destruct (g_out u pre st G y Hy). rewrite fupd_neq, HQ by lia. auto.
        + intros y. destruct (Nat.eq_dec y v) as [->|Hy]. { rewrite fupd_eq. auto. } rewrite fupd_neq by auto. apply (g_reach u pre st G).
        + intros y. destruct (Nat.eq_dec y v) as [->|Hy]. { destruct Hcase as [[-> _]|[-> _]]; auto. apply (g_acc u pre st G). }
          rewrite HA by auto. apply (g_acc u pre st G).
        + intros y k. destruct (Nat.eq_dec y v) as [->|Hy].
          * destruct Hcase as [[-> [(_ & -> & ->)|(p & Hp & ->)]]|[-> ->]].
            -- discriminate.
            -- intros [= <-]. split; auto. left. eauto.
            -- apply (g_key u pre st G).
          * rewrite HA, HQ by auto. apply (g_key u pre st G).
        + intros y a' H1 H2 H3 H4 H5 H6 H7.
          destruct (Nat.eq_dec y v) as [->|Hy].
          * destruct Hcase as [[_ [(H8 & _)|(p & Hp & H8)]]|[H8 H9]].
            -- destruct H4; congruence.
            -- congruence.
            -- rewrite H8 in *. rewrite H9 in H3. assert (X : (aD st (hd a') <= slk v (aA st v) a')%N) by (apply (g_closed u pre st G); auto; congruence).
               unfold fupd. destruct (Nat.eqb_spec (hd a') v) as [E1|]; auto. rewrite E1 in X. lia.
          * rewrite HA in * by auto. rewrite HQ in H3 by auto. unfold fupd. fold v.
            destruct (Nat.eq_dec y u) as [->|Hyu].
            -- specialize (H7 eq_refl). apply in_app_or in H7. destruct H7 as [H7|[<-|[]]].
               ++ assert (X : (aD st (hd a') <= slk u (aA st u) a')%N) by (apply (g_closed u pre st G); auto).
                  destruct (Nat.eqb_spec (hd a') v) as [E1|]; auto. rewrite E1 in X. lia.
               ++ fold v. rewrite Nat.eqb_refl. rewrite <- Hxe. apply Hmono; auto. apply Gle.
            -- assert (X : (aD st (hd a') <= slk y (aA st y) a')%N) by (apply (g_closed u pre st G); auto; congruence).
               destruct (Nat.eqb_spec (hd a') v) as [E1|]; auto. rewrite E1 in X. lia.
        + intros y Hy. apply (tree_update (aD st) (aP st) u a v x); auto.
          * intros z. apply (g_d0 u pre st G).
          * apply (N.le_trans _ (aA st v)); apply Gle.
          * apply (g_tree u pre st G); auto.
          * destruct (Nat.eq_dec y v) as [->|Hyv]; auto. right. rewrite fupd_neq in Hy by auto. apply (g_tree u pre st G); auto.
      - cbn [aD aA aP aQ st']. split; [rewrite HQ; auto|]. split; [rewrite fupd_neq; auto|]. split.
        + unfold M. pose proof (sumN_change n (Me st') (Me st) v Hv) as X.
          assert (Y : forall j, j <> v -> Me st' j = Me st j). { intros j Hj. unfold Me, st'; cbn [aD aQ]. rewrite fupd_neq, HQ by auto. auto. }
          specialize (X Y). assert (Z : (Me st' v <= Me st v)%N). { unfold Me, st'; cbn [aD aQ]. rewrite fupd_eq. destruct (Q' v), (aQ st v); lia. } lia.
        + split.
          2:{ intros y. cbn [aD aA aP aQ st']. destruct (Nat.eq_dec y v) as [->|Hy]. { right. rewrite fupd_eq. lia. } left. rewrite !fupd_neq, HA, HQ by auto. auto. }
          intros y. cbn [aD aA aP aQ st']. destruct (Nat.eq_dec y v) as [->|Hy].
          * rewrite fupd_eq. split; [lia|]. destruct Hcase as [[-> [(H1 & -> & _)|(p & Hp & ->)]]|[-> ->]]; split; auto; try discriminate; right; right; discriminate.
          * rewrite fupd_neq, HA, HQ by auto. split; [lia|]. auto. }
    destruct b.
    - destruct (HJpot _ _ e1 v HJ1 Hv) as (e2 & Epot & HJ2). rewrite Epot; cbn [bind].
      destruct (pi v) as [p|] eqn:Hpv.
      + assert (EW : cadd p x = Some (p + x)%N). { apply cadd_ok. pose proof (Hpi v p Hpv). lia. } rewrite EW. cbn [bind].
        assert (EG : match aQ st v with Some k => (p + x <=? k)%N | None => true end = true).
        { destruct (aQ st v) as [k|] eqn:Hqv; auto. destruct (g_key u pre st G v k Hqv) as [_ [(p' & Hp' & ->)|(C & _)]]; [|congruence].
          assert (p' = p) by congruence. subst p'. specialize (Gle v). lia. }
        rewrite EG; cbn [guard bind]. eexists; eexists; split; [reflexivity|].
        destruct (COM (fupd (aA st) v x) (fupd (aQ st) v (Some (p + x)%N))) as (C1 & C2 & C3 & C4 & C5 & C6).
        { intros; apply fupd_neq; auto. } { intros; apply fupd_neq; auto. }
        { left. rewrite !fupd_eq. split; auto. right. exists p. auto. }
        split; [exact C1|]. split; [exact HJ2|]. auto.
      + eexists; eexists; split; [reflexivity|].
        assert (Hqv : aQ st v = None). { destruct (aQ st v) as [k|] eqn:Hqv; auto. destruct (g_key u pre st G v k Hqv) as [_ [(p' & Hp' & _)|(C & _)]]; congruence. }
        destruct (COM (fupd (aA st) v x) (aQ st)) as (C1 & C2 & C3 & C4 & C5 & C6); auto.
        { intros; apply fupd_neq; auto. } { left. rewrite fupd_eq. auto. }
        split; [exact C1|]. split; [exact HJ2|]. auto.
    - eexists; eexists; split; [reflexivity|].
      destruct (COM (aA st) (aQ st)) as (C1 & C2 & C3 & C4 & C5 & C6); auto. split; [exact C1|]. split; [exact HJ1|]. auto.
  Qed.

  Lemma relaxes_ok u todo : forall pre st e, GInv u pre st -> J (aD st) (aA st) e -> u < n -> (forall a, In a todo -> In a (nb u)) ->
    aQ st u = None -> (aD st u < INF)%N ->
    exists st' e', foldM (relaxA n hd lk pl epred cb pot u) todo (st, e) = Some (st', e') /\
      GInv u (pre ++ todo) st' /\ J (aD st') (aA st') e' /\ aQ st' u = None /\ aD st' u = aD st u /\ (M st' <= M st)%N /\ grow st st' /\ keep (aD st u) st st'.
  Proof.
    induction todo as [|a todo IH]; intros pre st e G HJ Hu Ht Hq HD; cbn [foldM].
    - exists st, e. split; auto. rewrite app_nil_r. split; [auto|]. split; [auto|]. split; [auto|]. split; [auto|]. split; [lia|]. split; [apply grow_refl|apply keep_refl].
    - destruct (relaxA_ok u pre st e a G HJ Hu ltac:(apply Ht; left; auto) Hq HD) as (st1 & e1 & E1 & G1 & J1 & Q1 & D1 & M1 & W1 & K1).
      rewrite E1; cbn [bind]. destruct (IH (pre ++ [a]) st1 e1 G1 J1 Hu ltac:(intros; apply Ht; right; auto) Q1 ltac:(lia)) as (st2 & e2 & E2 & G2 & J2 & Q2 & D2 & M2 & W2 & K2).
      exists st2, e2. split; auto. rewrite <- app_assoc in G2. split; [auto|]. split; [auto|]. split; [auto|]. split; [congruence|]. split; [lia|]. split; [eapply grow_trans; eauto|]. rewrite D1 in K2. eapply keep_trans; eauto.
  Qed.

  Lemma GInv_pop st u k : GInv n [] st -> aQ st u = Some k -> u < n -> GInv u [] (popA st u).
  Proof.
    intros G Hq Hu. destruct G. split; cbn [popA aD aA aP aQ]; auto.
    - intros v Hv. destruct (g_out0 v Hv). unfold fupd. destruct (v =? u); auto.
    - intros v k'. unfold fupd. destruct (v =? u); [discriminate|]. apply g_key0.
    - intros v a H1 H2 H3 H4 H5 H6 H7. unfold fupd in H3. destruct (Nat.eqb_spec v u) as [->|Hne]. { destruct (H7 eq_refl). } apply g_closed0; auto. lia.
  Qed.

  Lemma GInv_done st u : GInv u (nb u) st -> GInv n [] st.
  Proof.
    intros G. destruct G. split; auto. intros v a H1 H2 H3 H4 H5 H6 H7. apply g_closed0; auto. intros ->. auto.
  Qed.

  Lemma pop_ok st u k e : GInv n [] st -> J (aD st) (aA st) e -> aQ st u = Some k -> u < n ->
    exists st' e', foldM (relaxA n hd lk pl epred cb pot u) (nb u) (popA st u, e) = Some (st', e') /\
      GInv n [] st' /\ J (aD st') (aA st') e' /\ aQ st' u = None /\ aD st' u = aD st u /\ (M st' < M st)%N /\ grow (popA st u) st' /\ keep (aD st u) (popA st u) st'.
  Proof.
    intros G HJ Hq Hu. destruct (g_key _ _ _ G u k Hq) as [HA _]. pose proof (g_le _ _ _ G u).
    destruct (relaxes_ok u (nb u) [] (popA st u) e (GInv_pop st u k G Hq Hu) HJ Hu ltac:(auto)) as (st' & e' & E1 & G' & J' & Q' & D' & M' & W' & K').
    { cbn. apply fupd_eq. } { cbn. lia. }
    exists st', e'. split; auto. split. { apply (GInv_done st' u); auto. } split; auto. split; auto. split; auto. split; auto.
    pose proof (sumN_change n (Me (popA st u)) (Me st) u Hu) as X. unfold M in *.
    assert (Y : forall j, j <> u -> Me (popA st u) j = Me st j). { intros j Hj. unfold Me, popA; cbn [aD aQ]. rewrite fupd_neq by auto. auto. }
    specialize (X Y). assert (Z1 : Me (popA st u) u = (2 * aD st u)%N) by (unfold Me; cbn [popA aD aQ]; rewrite fupd_eq; lia).
    assert (Z2 : Me st u = (2 * aD st u + 1)%N) by (unfold Me; rewrite Hq; lia). lia.
  Qed.

  Notation settle' := (settle links hd lk pl epred cb pot).

  (** One settle step of the model. *)
  Lemma settle_ok d st e : R n d st -> GInv n [] st -> J (aD st) (aA st) e ->
    ((forall v, aQ st v = None) /\ exists d', settle' d e = Some (d', e, None) /\ R n d' st) \/
    exists u k d' st' e', settle' d e = Some (d', e', Some u) /\ R n d' st' /\
      u < n /\ aQ st u = Some k /\ (forall v k', aQ st v = Some k' -> (k < k')%N \/ k = k' /\ u <= v) /\
      GInv n [] st' /\ J (aD st') (aA st') e' /\ aQ st' u = None /\ aD st' u = aD st u /\ (M st' < M st)%N /\ grow (popA st u) st' /\ keep (aD st u) (popA st u) st'.
  Proof.
    intros HR G HJ. destruct (settle_refines n links hd lk pl epred cb pot d st e HR) as [(H1 & H2)|(u & k & H1 & H2 & H3)]; [left; auto|right].
    assert (Hu : u < n) by (apply (R_queue_lt n d st u k HR H1)).
    destruct (pop_ok st u k e G HJ H1 Hu) as (st' & e' & E1 & G' & J' & Q' & D' & M' & W' & K').
    destruct (H3 (nb u) st' e' (Hlinks u Hu) E1) as (d' & E2 & R2).
    exists u, k, d', st', e'. repeat (split; [assumption|]). assumption.
  Qed.

  Lemma GInv_init pr : GInv n [] (initA s d0 pr).
  Proof.
    split; cbn [initA aD aA aP aQ].
    - intros v. unfold fupd. destruct (v =? s); lia.
    - intros v. unfold fupd. destruct (v =? s); lia.
    - apply fupd_eq.
    - intros v Hv. rewrite !fupd_neq by lia. auto.
    - intros v. unfold fupd. destruct (Nat.eqb_spec v s) as [->|]; [|lia]. constructor.
    - intros v. unfold fupd. destruct (Nat.eqb_spec v s) as [->|]; [|lia]. constructor.
    - intros v k. unfold fupd. destruct (Nat.eqb_spec v s) as [->|]; [|discriminate]. intros [= <-]. auto.
    - intros v a H1 H2 H3. unfold fupd in H2, H3. destruct (Nat.eqb_spec v s); [discriminate|lia].
    - intros v. unfold fupd at 1. destruct (Nat.eqb_spec v s) as [->|]; [|lia]. constructor.
  Qed.

  Lemma M_init pr : (M (initA s d0 pr) < dij_fuel n)%N.
  Proof.
    unfold M, dij_fuel. pose proof (sumN_const n (2 * INF + 1) (Me (initA s d0 pr))) as X.
    assert (Y : forall i, i < n -> (Me (initA s d0 pr) i <= 2 * INF + 1)%N). { intros i Hi. unfold Me; cbn [initA aD aQ]. unfold fupd. destruct (i =? s); lia. }
    specialize (X Y). lia.
  Qed.

  (** Frontier: a walk to [v] is either dominated by the label of [v] or passes a queued node whose label
      dominates the walk's prefix. *)
  Lemma frontier st v d : GInv n [] st -> (forall v, aA st v = aD st v) -> (d < INF)%N -> reach' s d0 v d ->
    (forall x dx, reach' s d0 x dx -> reach' x dx v d -> pi x <> None \/ x = s) ->
    (aD st v <= d)%N \/ exists x dx, aQ st x <> None /\ (aD st x <= dx)%N /\ reach' s d0 x dx /\ reach' x dx v d.
  Proof.
    intros G HA. intros Hd H. revert Hd. induction H as [|v d y d' H IH Hst]; intros Hd Hpn.
    - left. rewrite <- HA. rewrite (g_s _ _ _ G). lia.
    - pose proof Hst as (Hv & a & Ha & Hep & Hh & Hsl). pose proof (Hext v a d Hv Ha) as X.
      destruct IH as [IH|(x & dx & H1 & H2 & H3 & H4)].
      + lia.
      + intros x dx R1 R2. apply (Hpn x dx R1). econstructor; eauto.
      + destruct (aQ st v) as [k|] eqn:Hq.
        * right. exists v, d. rewrite Hq. split; [discriminate|]. split; [auto|]. split; [auto|]. eapply reach_snoc; [apply reach_nil|exact Hst].
        * left. pose proof (Hmono v a (aD st v) d Hv Ha IH).
          assert (C : (aD st (hd a) <= slk v (aA st v) a)%N).
          { apply (g_closed _ _ _ G); auto. { rewrite HA. lia. } { apply (Hpn v d H). eapply reach_snoc; [apply reach_nil|exact Hst]. } lia. }
          rewrite HA, Hh in C. lia.
      + right. exists x, dx. repeat (split; [assumption|]). econstructor; eauto.
  Qed.

  (** The predecessor tree yields the search path. *)
  Inductive chain (Pr : nat -> nat * P) : nat -> list nat -> list P -> Prop :=
  | chain_root : chain Pr s [s] []
  | chain_step v u l p q : v <> s -> Pr v = (u, l) -> chain Pr u p q -> chain Pr v (p ++ [v]) (q ++ [l]).

  Lemma tree_chain D Pr v : tree D Pr v -> D s = d0 -> exists p q d, chain Pr v p q /\ (d <= D v)%N /\ reach_path P gstepl s d0 v d p q.
  Proof.
    induction 1 as [|v u a Hv Hu EP Ha Hp Hh HD Hsl T IH]; intros Es.
    - exists [s], [], d0. split; [constructor|]. split; [lia|constructor].
    - destruct (IH Es) as (p & q & d & C & L & RP). exists (p ++ [v]), (q ++ [pl a]), (slk u d a).
      split. { econstructor; eauto. } split. { pose proof (Hmono u a d (D u) Hu Ha L). lia. }
      econstructor; eauto. split; auto. exists a. auto.
  Qed.

  Lemma chain_det Pr v p q : chain Pr v p q -> forall p' q', chain Pr v p' q' -> p' = p /\ q' = q.
  Proof.
    induction 1 as [|v u l p q Hv E1 C IH]; intros p' q' C'.
    - inversion C'; subst; auto. congruence.
    - inversion C' as [|v' u' l' p1 q1 Hv' E2 C2]; subst; [congruence|]. rewrite E1 in E2. injection E2 as <- <-.
      destruct (IH _ _ C2) as [-> ->]. auto.
  Qed.
  Lemma chain_prefix Pr v p q : chain Pr v p q -> forall y, In y p -> exists p1 q1 p2, chain Pr y p1 q1 /\ p = p1 ++ p2.
  Proof.
    induction 1 as [|v u l p q Hv E1 C IH]; intros y Hy.
    - destruct Hy as [<-|[]]. exists [s], [], []. split; [constructor|auto].
    - apply in_app_or in Hy. destruct Hy as [Hy|[<-|[]]].
      + destruct (IH y Hy) as (p1 & q1 & p2 & C1 & ->). exists p1, q1, (p2 ++ [v]). split; auto. rewrite app_assoc. auto.
      + exists (p ++ [v]), (q ++ [l]), []. split; [econstructor; eauto|]. rewrite app_nil_r. auto.
  Qed.
  Lemma chain_nodup Pr v p q : chain Pr v p q -> NoDup p.
  Proof.
    induction 1 as [|v u l p q Hv E1 C IH]. { repeat constructor. intros []. }
    apply NoDup_app_intro; auto. { repeat constructor. intros []. }
    intros y Hy [<-|[]]. destruct (chain_prefix _ _ _ _ C v Hy) as (p1 & q1 & p2 & C1 & ->).
    assert (C2 : chain Pr v ((p1 ++ p2) ++ [v]) (q ++ [l])) by (econstructor; eauto).
    destruct (chain_det _ _ _ _ C1 _ _ C2) as [E2 _]. apply (f_equal (@length _)) in E2. rewrite !app_length in E2. cbn in E2. lia.
  Qed.
  Lemma chain_len Pr v p q : chain Pr v p q -> length p = S (length q).
  Proof. induction 1; auto. rewrite !app_length; cbn. lia. Qed.
  Lemma rp_lt v d p q : reach_path P gstepl s d0 v d p q -> forall y, In y p -> y < n.
  Proof.
    induction 1 as [|v d l y d' p q H IH Hst]; intros z Hz. { destruct Hz as [<-|[]]; auto. }
    apply in_app_or in Hz. destruct Hz as [Hz|[<-|[]]]; auto. destruct Hst as (Hv & a & Ha & _ & <- & _). apply (Hhd v); auto.
  Qed.
  Lemma rp_reach v d p q : reach_path P gstepl s d0 v d p q -> reach' s d0 v d.
  Proof. induction 1 as [|v d l y d' p q H IH Hst]. { constructor. } econstructor; eauto. destruct Hst as (Hv & a & H1 & H2 & H3 & H4 & _). split; auto. exists a; auto. Qed.

  Lemma back_chain (d : dij P) st v p q : R n d st -> chain (aP st) v p q -> (forall y, In y p -> y < n) ->
    forall fuel, length q <= fuel ->
    back_nodes fuel (d_pred d) s v = Some (rev p) /\ back_links fuel (d_pred d) s v = Some (rev q).
  Proof.
    intros HR C. induction C as [|v u l p q Hv E1 C IH]; intros Hlt fuel Hf.
    - destruct fuel; cbn [back_nodes back_links]; rewrite Nat.eqb_refl; auto.
    - rewrite app_length in Hf; cbn in Hf. destruct fuel as [|fuel]; [lia|]. cbn [back_nodes back_links].
      rewrite (proj2 (Nat.eqb_neq v s) Hv). rewrite (r_pred n d st HR v) by (apply Hlt; apply in_or_app; right; left; auto). rewrite E1. cbn [bind].
      destruct (IH ltac:(intros; apply Hlt; apply in_or_app; auto) fuel ltac:(lia)) as [E2 E3]. rewrite E2, E3. cbn [bind].
      rewrite !rev_app_distr. auto.
  Qed.

  (** Paths read off a search state. *)
  Lemma paths_ok (d : dij P) st v : R n d st -> GInv n [] st -> (aD st v < INF)%N ->
    exists p q x, node_path d s v = Some p /\ edge_path d s v = Some q /\ (x <= aD st v)%N /\
      reach_path P gstepl s d0 v x p q /\ NoDup p.
  Proof.
    intros HR G HD. assert (HDs : aD st s = d0). { pose proof (g_s _ _ _ G). pose proof (g_d0 _ _ _ G s). pose proof (g_le _ _ _ G s). lia. }
    destruct (tree_chain _ _ _ (g_tree _ _ _ G v HD) HDs) as (p & q & x & C & L & RP).
    pose proof (chain_nodup _ _ _ _ C) as ND. pose proof (rp_lt _ _ _ _ RP) as LT. pose proof (chain_len _ _ _ _ C) as CL.
    assert (Hlen : length p <= n). { rewrite <- (seq_length n 0). apply NoDup_incl_length; auto. intros y Hy. apply in_seq. specialize (LT y Hy). lia. }
    destruct (back_chain d st v p q HR C LT (length (d_pred d))) as [E1 E2]. { rewrite (r_plen n d st HR). lia. }
    exists p, q, x. unfold node_path, edge_path. rewrite E1, E2. cbn [bind]. rewrite !rev_involutive. auto.
  Qed.

  (** Searches whose callback never rejects. *)
  Section Uni.
    Hypothesis HJA : forall D AA e, J D AA e -> forall v, AA v = D v.
    Notation run' := (run_until links hd lk pl epred cb pot).

    (** outcome of the settle loop, before any assumption on the quality of the potential *)
    Lemma run_ok d e pr t : R n d (initA s d0 pr) -> J (aD (initA s d0 pr)) (aA (initA s d0 pr)) e ->
      exists d' e' r st', run' n t d e = Some (d', e', r) /\ R n d' st' /\ GInv n [] st' /\ J (aD st') (aA st') e' /\
        match r with
        | Some x => t < n /\ x = aD st' t /\ exists st e1 k, GInv n [] st /\ J (aD st) (aA st) e1 /\ aQ st t = Some k /\ aD st t = x /\
                    (forall v k', aQ st v = Some k' -> (k <= k')%N)
        | None => (forall v, aQ st' v = None) /\ ((aD st' t < INF)%N -> pi t = None)
        end.
    Proof.
      intros HR HJ. unfold run_until.
      set (step := fun _ : dij P * E => _).
      set (I := fun st '(d, e) => R n d st /\ GInv n [] st /\ J (aD st) (aA st) e /\ ((aD st t < INF)%N -> pi t = None \/ aQ st t <> None)).
      set (Q := fun '(d', e', r) => exists st', R n d' st' /\ GInv n [] st' /\ J (aD st') (aA st') e' /\
        match r with
        | Some x => t < n /\ x = aD st' t /\ exists st e1 k, GInv n [] st /\ J (aD st) (aA st) e1 /\ aQ st t = Some k /\ aD st t = x /\
                    (forall v k', aQ st v = Some k' -> (k <= k')%N)
        | None => (forall v, aQ st' v = None) /\ ((aD st' t < INF)%N -> pi t = None)
        end).
      destruct (loopN_ghost step I Q (fun st => M st) (dij_fuel n) (initA s d0 pr) (d, e)) as (((d' & e') & r) & E1 & st' & H).
      - intros st (d1 & e1) (HR1 & G1 & J1 & T1). unfold step.
        destruct (settle_ok d1 st e1 HR1 G1 J1) as [(HQ & d2 & E2 & R2)|(u & k & d2 & st2 & e2 & E2 & R2 & Hu & Hk & Hmin & G2 & J2 & Q2 & D2 & M2 & W2 & K2)].
        + rewrite E2. cbn [bind]. eexists; split; [reflexivity|]. exists st. split; [auto|]. split; [auto|]. split; [auto|]. split; [auto|].
          intros HD. destruct (T1 HD) as [?|C]; auto. destruct C. auto.
        + rewrite E2. cbn [bind]. destruct (Nat.eqb_spec u t) as [->|Hne].
          * rewrite (ts_get_spec N INF n _ _ t (r_dist n d2 st2 R2)), (proj2 (Nat.ltb_lt t n) Hu). cbn [bind]. eexists; split; [reflexivity|].
            exists st2. split; [auto|]. split; [auto|]. split; [auto|]. split; [auto|]. split; [auto|].
            exists st, e1, k. split; [auto|]. split; [auto|]. split; [auto|]. split; [congruence|]. intros v k' Hk'. specialize (Hmin v k' Hk'). lia.
          * eexists; split; [reflexivity|]. exists st2. split; [|auto]. split; [auto|]. split; [auto|]. split; [auto|].
            intros HD. destruct (W2 t) as (W3 & W4 & W5). destruct W5 as [W5|[W5|W5]]; auto.
            pose proof (HJA _ _ _ J2 t) as Y. rewrite W5 in Y. cbn in Y. rewrite (HJA _ _ _ J1 t) in Y.
            destruct (T1 ltac:(congruence)) as [K|K]; auto. right. apply W4. cbn. rewrite fupd_neq by auto. auto.
      - split; [auto|]. split; [apply GInv_init|]. split; [auto|]. cbn. unfold fupd. destruct (t =? s); [right; discriminate|lia].
      - apply M_init.
      - exists d', e', r, st'. split; auto.
    Qed.

    (** Exactness for a target whose potential is admissible: every walk from [x] to [t] that can still arrive
        before [INF] takes at least [pi x - pi t]. *)
    Definition admissible (t : nat) : Prop := forall x dx d, reach' s d0 x dx -> reach' x dx t d -> (d < INF)%N ->
      exists p, pi x = Some p /\ forall q, pi t = Some q -> (dx + p <= d + q)%N.

    Lemma run_exact d e pr t : R n d (initA s d0 pr) -> J (aD (initA s d0 pr)) (aA (initA s d0 pr)) e -> admissible t ->
      exists d' e' r st', run' n t d e = Some (d', e', r) /\ R n d' st' /\ GInv n [] st' /\ J (aD st') (aA st') e' /\
        earliest gstep s d0 t r /\ (forall x, r = Some x -> x = aD st' t).
    Proof.
      intros HR HJ Hadm. destruct (run_ok d e pr t HR HJ) as (d' & e' & r & st' & E1 & R1 & G1 & J1 & H).
      exists d', e', r, st'. split; [auto|]. split; [auto|]. split; [auto|]. split; [auto|].
      destruct r as [x|].
      - destruct H as (Ht & Hx & st & e1 & k & G & J2 & Hq & HD & Hmin). split; [|congruence].
        assert (HAI : (aA st t < INF)%N) by (apply (g_key _ _ _ G t k Hq)). rewrite (HJA _ _ _ J2 t) in HAI.
        split; [lia|]. split. { rewrite <- HD. apply (g_reach _ _ _ G); auto. }
        intros dd Hr. destruct (N.lt_ge_cases dd INF) as [Hdd|Hdd]; [|lia].
        destruct (frontier st t dd G (HJA _ _ _ J2) Hdd Hr) as [F|(y & dy & Hqy & HDy & Ry & Ry2)].
        + intros y dy Ry Ry2. destruct (Hadm y dy dd Ry Ry2 Hdd) as (p & -> & _). left; discriminate.
        + lia.
        + destruct (aQ st y) as [ky|] eqn:Hqy'; [|congruence]. specialize (Hmin y ky Hqy').
          destruct (Hadm y dy dd Ry Ry2 Hdd) as (p & Hp & Hle). destruct (Hadm t dd dd Hr (reach_nil _ _ _) Hdd) as (q & Hq' & _). specialize (Hle q Hq').
          destruct (g_key _ _ _ G y ky Hqy') as [_ K1]. destruct (g_key _ _ _ G t k Hq) as [_ K2].
          rewrite (HJA _ _ _ J2 y) in K1. rewrite (HJA _ _ _ J2 t) in K2.
          assert (ky <= p + dy)%N. { destruct K1 as [(p' & E2 & ->)|(-> & ->)]; [assert (p' = p) by congruence; lia|]. pose proof (g_d0 _ _ _ G s). lia. }
          destruct K2 as [(q' & E2 & ->)|(-> & ->)]. { assert (q' = q) by congruence. lia. }
          assert (aD st s = d0). { rewrite <- (HJA _ _ _ J2 s). apply (g_s _ _ _ G). }
          assert (d0 <= dd)%N; [|lia].
          apply (reach_ge _ _ _ _ Hr).
      - destruct H as (HQ & HT). split; [|congruence]. intros dd Hr. destruct (N.lt_ge_cases dd INF) as [Hdd|Hdd]; [|lia]. exfalso.
        destruct (frontier st' t dd G1 (HJA _ _ _ J1) Hdd Hr) as [F|(y & dy & Hqy & _)].
        + intros y dy Ry Ry2. destruct (Hadm y dy dd Ry Ry2 Hdd) as (p & -> & _). left; discriminate.
        + destruct (Hadm t dd dd Hr (reach_nil _ _ _) Hdd) as (q & Hq' & _). specialize (HT ltac:(lia)). congruence.
        + apply Hqy, HQ.
    Qed.

    (** Searches that run until the queue is empty ([t = n]). *)
    Lemma run_all d e pr : R n d (initA s d0 pr) -> J (aD (initA s d0 pr)) (aA (initA s d0 pr)) e ->
      (forall v, v < n -> pi v <> None) ->
      exists d' e' st', run' n n d e = Some (d', e', None) /\ R n d' st' /\ GInv n [] st' /\ J (aD st') (aA st') e' /\
        forall v, v < n -> earliest gstep s d0 v (if (aD st' v <? INF)%N then Some (aD st' v) else None) /\ (aD st' v <= INF)%N.
    Proof.
      intros HR HJ Hpn. destruct (run_ok d e pr n HR HJ) as (d' & e' & r & st' & E1 & R1 & G1 & J1 & H).
      destruct r as [x|]. { destruct H; lia. }
      exists d', e', st'. split; [auto|]. split; [auto|]. split; [auto|]. split; [auto|]. intros v Hv.
      destruct H as (HQ & _). pose proof (g_le _ _ _ G1 v) as L. split; [|lia].
      assert (F : forall dd, reach' s d0 v dd -> (dd < INF)%N -> (aD st' v <= dd)%N).
      { intros dd Hr Hdd. destruct (frontier st' v dd G1 (HJA _ _ _ J1) Hdd Hr) as [F|(y & dy & Hqy & _)]; auto.
        - intros y dy Ry _. left. apply Hpn. apply (reach_lt _ _ _ _ Hs Ry).
        - destruct Hqy. auto. }
      destruct (N.ltb_spec (aD st' v) INF) as [C|C].
      - split; [auto|]. split. { apply (g_reach _ _ _ G1); auto. }
        intros dd Hr. destruct (N.lt_ge_cases dd INF) as [Hdd|Hdd]; [auto|lia].
      - intros dd Hr. destruct (N.lt_ge_cases dd INF) as [Hdd|Hdd]; [|lia]. specialize (F dd Hr Hdd). lia.
    Qed.

    (** Determinism: searches for the same query started from different (leftover) search states. *)
    Definition sim (a b : ast P) : Prop := forall v, aD a v = aD b v /\ aQ a v = aQ b v /\ ((aD a v < INF)%N -> v <> s -> aP a v = aP b v).

    Lemma relaxA_sim u pre1 pre2 st1 e1 st2 e2 a st1' e1' st2' e2' : GInv u pre1 st1 -> GInv u pre2 st2 ->
      J (aD st1) (aA st1) e1 -> J (aD st2) (aA st2) e2 -> u < n -> In a (nb u) -> (aD st1 u < INF)%N -> sim st1 st2 ->
      relaxA n hd lk pl epred cb pot u (st1, e1) a = Some (st1', e1') -> relaxA n hd lk pl epred cb pot u (st2, e2) a = Some (st2', e2') -> sim st1' st2'.
    Proof.
      intros G1 G2 J1 J2 Hu Ha HDu S. unfold relaxA. destruct (epred a) eqn:Hep; cbn [negb]. 2:{ intros [= <- _] [= <- _]. auto. }
      destruct (S u) as (SDu & _). rewrite <- SDu. destruct (Hlk u a (aD st1 u) Hu Ha Hep HDu) as (x & Ex & Hx1 & Hx2). rewrite Ex; cbn [bind].
      assert (Hv : hd a < n) by (apply (Hhd u a); auto). rewrite (proj2 (Nat.ltb_lt _ _) Hv). cbn [guard bind].
      destruct (S (hd a)) as (SDv & SQv & _). rewrite <- SDv.
      destruct (N.ltb_spec x (aD st1 (hd a))) as [Hlt|Hge]. 2:{ intros [= <- _] [= <- _]. auto. }
      assert (HxI : (x < INF)%N). { pose proof (g_le _ _ _ G1 (hd a)). lia. }
      assert (Hxe : slk u (aD st1 u) a = x). { destruct (N.lt_ge_cases (slk u (aD st1 u) a) INF) as [C|C]. { rewrite Hx1; auto. } specialize (Hx2 C). lia. }
      assert (Rx : reach' s d0 (hd a) x). { eapply reach_snoc. { apply (g_reach u pre1 st1 G1); eauto. } split; auto. exists a. auto. }
      assert (L1 : (aD st1 (hd a) <= INF)%N) by (pose proof (g_le _ _ _ G1 (hd a)); lia).
      destruct (HJcb _ _ e1 (hd a) x J1 Hv Hlt L1 Rx) as (f1 & b1 & Ec1 & Jc1).
      destruct (HJcb _ _ e2 (hd a) x J2 Hv ltac:(rewrite <- SDv; auto) ltac:(rewrite <- SDv; auto) Rx) as (f2 & b2 & Ec2 & Jc2).
      rewrite Ec1, Ec2. cbn [bind].
      assert (b1 = true). { destruct b1; auto. pose proof (HJA _ _ _ Jc1 (hd a)) as Y. rewrite fupd_eq in Y. rewrite (HJA _ _ _ J1) in Y. lia. }
      assert (b2 = true). { destruct b2; auto. pose proof (HJA _ _ _ Jc2 (hd a)) as Y. rewrite fupd_eq in Y. rewrite (HJA _ _ _ J2) in Y. lia. }
      subst b1 b2.
      destruct (HJpot _ _ f1 (hd a) Jc1 Hv) as (h1 & Ep1 & _). destruct (HJpot _ _ f2 (hd a) Jc2 Hv) as (h2 & Ep2 & _). rewrite Ep1, Ep2. cbn [bind].
      destruct (pi (hd a)) as [p|].
      - destruct (cadd p x) as [kn|]; cbn [bind]; [|discriminate]. rewrite <- SQv. destruct (guard _) as [[]|]; cbn [bind]; [|discriminate].
        intros [= <- _] [= <- _]. intros v. cbn [aD aQ aP]. unfold fupd. destruct (Nat.eqb_spec v (hd a)) as [->|]; auto.
      - intros [= <- _] [= <- _]. intros v. cbn [aD aQ aP]. destruct (S v) as (S1 & S2 & S3). unfold fupd. destruct (Nat.eqb_spec v (hd a)) as [->|]; auto.
    Qed.

    Lemma relaxes_sim u todo : forall pre1 pre2 st1 e1 st2 e2 st1' e1' st2' e2', GInv u pre1 st1 -> GInv u pre2 st2 ->
      J (aD st1) (aA st1) e1 -> J (aD st2) (aA st2) e2 -> u < n -> (forall a, In a todo -> In a (nb u)) -> (aD st1 u < INF)%N -> aQ st1 u = None -> sim st1 st2 ->
      foldM (relaxA n hd lk pl epred cb pot u) todo (st1, e1) = Some (st1', e1') -> foldM (relaxA n hd lk pl epred cb pot u) todo (st2, e2) = Some (st2', e2') -> sim st1' st2'.
    Proof.
      induction todo as [|a todo IH]; intros pre1 pre2 st1 e1 st2 e2 st1' e1' st2' e2' G1 G2 J1 J2 Hu Ht HD Hq S; cbn [foldM].
      { intros [= <- _] [= <- _]. auto. }
      assert (Ha : In a (nb u)) by (apply Ht; left; auto).
      assert (Hq2 : aQ st2 u = None) by (destruct (S u) as (_ & <- & _); auto). assert (HD2 : (aD st2 u < INF)%N) by (destruct (S u) as (<- & _); auto).
      destruct (relaxA_ok u pre1 st1 e1 a G1 J1 Hu Ha Hq HD) as (s1 & f1 & E1 & G1' & J1' & Q1' & D1' & _).
      destruct (relaxA_ok u pre2 st2 e2 a G2 J2 Hu Ha Hq2 HD2) as (s2 & f2 & E2 & G2' & J2' & Q2' & D2' & _).
      rewrite E1, E2. cbn [bind]. apply (IH (pre1 ++ [a]) (pre2 ++ [a])); auto.
      - intros b Hb. apply Ht. right; auto.
      - congruence.
      - apply (relaxA_sim u pre1 pre2 st1 e1 st2 e2 a s1 f1 s2 f2); auto.
    Qed.

    Lemma settle_det d1 st1 e1 d2 st2 e2 : R n d1 st1 -> GInv n [] st1 -> J (aD st1) (aA st1) e1 ->
      R n d2 st2 -> GInv n [] st2 -> J (aD st2) (aA st2) e2 -> sim st1 st2 ->
      exists d1' e1' d2' e2' o st1' st2', settle' d1 e1 = Some (d1', e1', o) /\ settle' d2 e2 = Some (d2', e2', o) /\
        R n d1' st1' /\ GInv n [] st1' /\ J (aD st1') (aA st1') e1' /\ R n d2' st2' /\ GInv n [] st2' /\ J (aD st2') (aA st2') e2' /\
        sim st1' st2' /\ match o with Some u => u < n /\ (M st1' < M st1)%N | None => True end.
    Proof.
      intros R1 G1 J1 R2 G2 J2 S.
      destruct (settle_refines n links hd lk pl epred cb pot d1 st1 e1 R1) as [(N1 & d1' & E1 & R1')|(u & k & Q1 & M1 & F1)].
      - destruct (settle_refines n links hd lk pl epred cb pot d2 st2 e2 R2) as [(N2 & d2' & E2 & R2')|(u & k & Q2 & M2 & F2)].
        + exists d1', e1, d2', e2, None, st1, st2. repeat (split; [assumption|]). auto.
        + destruct (S u) as (_ & X & _). rewrite N1, Q2 in X. discriminate.
      - destruct (settle_refines n links hd lk pl epred cb pot d2 st2 e2 R2) as [(N2 & d2' & E2 & R2')|(u2 & k2 & Q2 & M2 & F2)].
        + destruct (S u) as (_ & X & _). rewrite N2, Q1 in X. discriminate.
        + assert (u2 = u).
          { destruct (S u) as (_ & X & _). destruct (S u2) as (_ & X2 & _). specialize (M1 u2 k2 ltac:(congruence)). specialize (M2 u k ltac:(congruence)). lia. }
          subst u2. assert (Hu : u < n) by (apply (R_queue_lt n d1 st1 u k R1 Q1)).
          destruct (pop_ok st1 u k e1 G1 J1 Q1 Hu) as (st1' & e1' & E1 & G1' & J1' & _ & _ & Mx & _).
          destruct (pop_ok st2 u k2 e2 G2 J2 Q2 Hu) as (st2' & e2' & E2 & G2' & J2' & _).
          destruct (F1 _ _ _ (Hlinks u Hu) E1) as (d1' & S1 & R1'). destruct (F2 _ _ _ (Hlinks u Hu) E2) as (d2' & S2 & R2').
          exists d1', e1', d2', e2', (Some u), st1', st2'. repeat (split; [assumption|]). split; [|auto].
          apply (relaxes_sim u (nb u) [] [] (popA st1 u) e1 (popA st2 u) e2 st1' e1' st2' e2'); auto.
          * apply (GInv_pop st1 u k); auto.
          * apply (GInv_pop st2 u k2); auto.
          * cbn. destruct (g_key _ _ _ G1 u k Q1). pose proof (g_le _ _ _ G1 u). lia.
          * cbn. apply fupd_eq.
          * intros v. destruct (S v) as (X1 & X2 & X3). cbn. unfold fupd. destruct (v =? u); auto.
    Qed.

    Lemma sim_chain st1 st2 v p q : GInv n [] st1 -> sim st1 st2 -> (aD st1 v < INF)%N -> chain (aP st1) v p q -> chain (aP st2) v p q.
    Proof.
      intros G S HD C. induction C as [|v u l p q Hv E1 C IH]. { constructor. }
      assert (HDu : (aD st1 u < INF)%N). { pose proof (g_tree _ _ _ G v HD) as T. inversion T as [|v' u' a H1 H2 H3 H4 H5 H6 H7]; subst; [congruence|]. rewrite E1 in H3. injection H3 as ->. auto. }
      econstructor; eauto. destruct (S v) as (_ & _ & X). rewrite <- X; auto.
    Qed.

    Lemma run_det d1 e1 pr1 d2 e2 pr2 t : R n d1 (initA s d0 pr1) -> J (aD (initA s d0 pr1)) (aA (initA s d0 pr1)) e1 ->
      R n d2 (initA s d0 pr2) -> J (aD (initA s d0 pr2)) (aA (initA s d0 pr2)) e2 ->
      exists d1' e1' d2' e2' r, run' n t d1 e1 = Some (d1', e1', r) /\ run' n t d2 e2 = Some (d2', e2', r) /\
        exists st1 st2, R n d1' st1 /\ GInv n [] st1 /\ R n d2' st2 /\ GInv n [] st2 /\ sim st1 st2.
    Proof.
      intros R1 J1 R2 J2.
      set (step := fun '(d, e) => '(d', e', o) <- settle' d e ;;
        match o with
        | None => Some (inr (d', e', None))
        | Some u => if u =? t then x <- ts_get N INF (d_dist d') u ;; Some (inr (d', e', Some x)) else Some (inl (d', e'))
        end).
      set (I := fun st (x y : dij P * E) => R n (fst x) st /\ GInv n [] st /\ J (aD st) (aA st) (snd x) /\
        exists st2, R n (fst y) st2 /\ GInv n [] st2 /\ J (aD st2) (aA st2) (snd y) /\ sim st st2).
      set (Q := fun (x y : dij P * E * option N) => snd x = snd y /\ exists st1 st2, R n (fst (fst x)) st1 /\ GInv n [] st1 /\ R n (fst (fst y)) st2 /\ GInv n [] st2 /\ sim st1 st2).
      destruct (loopN_pair step step I Q (fun st => M st) (dij_fuel n) (initA s d0 pr1) (d1, e1) (d2, e2)) as (((d1' & e1') & r1) & ((d2' & e2') & r2) & E1 & E2 & HQ).
      - intros st (x1 & f1) (x2 & f2) (A1 & A2 & A3 & st2 & B1 & B2 & B3 & S). cbn [fst snd] in *.
        destruct (settle_det x1 st f1 x2 st2 f2 A1 A2 A3 B1 B2 B3 S) as (d1' & e1' & d2' & e2' & o & st1' & st2' & F1 & F2 & C1 & C2 & C3 & D1 & D2 & D3 & S' & HM).
        unfold step. rewrite F1, F2. cbn [bind]. destruct o as [u|].
        + destruct HM as [Hu HM]. destruct (Nat.eqb_spec u t) as [->|Hne].
          * rewrite (ts_get_spec N INF n _ _ t (r_dist n d1' st1' C1)), (ts_get_spec N INF n _ _ t (r_dist n d2' st2' D1)), (proj2 (Nat.ltb_lt t n) Hu). cbn [bind].
            eexists; eexists; split; [reflexivity|]. split; [reflexivity|]. split; cbn [fst snd]. { destruct (S' t) as (-> & _). auto. }
            exists st1', st2'. auto.
          * eexists; eexists; split; [reflexivity|]. split; [reflexivity|]. exists st1'. split; [|auto]. split; [auto|]. split; [auto|]. split; [auto|]. exists st2'. auto.
        + eexists; eexists; split; [reflexivity|]. split; [reflexivity|]. split; cbn [fst snd]; auto. exists st1', st2'. auto.
      - split; [auto|]. split; [apply GInv_init|]. split; [auto|]. exists (initA s d0 pr2). split; [auto|]. split; [apply GInv_init|]. split; [auto|].
        intros v. cbn. split; auto. split; auto. intros HD Hv. unfold fupd in HD. destruct (Nat.eqb_spec v s); [congruence|lia].
      - apply M_init.
      - destruct HQ as [HQ1 HQ2]. cbn [fst snd] in *. subst r2. exists d1', e1', d2', e2', r1. unfold run_until. fold step. auto.
    Qed.

    Lemma paths_det (d1 d2 : dij P) st1 st2 v : R n d1 st1 -> GInv n [] st1 -> R n d2 st2 -> GInv n [] st2 -> sim st1 st2 -> (aD st1 v < INF)%N ->
      node_path d1 s v = node_path d2 s v /\ edge_path d1 s v = edge_path d2 s v.
    Proof.
      intros R1 G1 R2 G2 S HD. assert (HDs : aD st1 s = d0). { pose proof (g_s _ _ _ G1). pose proof (g_d0 _ _ _ G1 s). pose proof (g_le _ _ _ G1 s). lia. }
      destruct (tree_chain _ _ _ (g_tree _ _ _ G1 v HD) HDs) as (p & q & x & C & L & RP).
      pose proof (chain_nodup _ _ _ _ C) as ND. pose proof (rp_lt _ _ _ _ RP) as LT. pose proof (chain_len _ _ _ _ C) as CL.
      assert (Hlen : length p <= n). { rewrite <- (seq_length n 0). apply NoDup_incl_length; auto. intros y Hy. apply in_seq. specialize (LT y Hy). lia. }
      destruct (back_chain d1 st1 v p q R1 C LT (length (d_pred d1))) as [E1 E2]. { rewrite (r_plen n d1 st1 R1). lia. }
      destruct (back_chain d2 st2 v p q R2 (sim_chain _ _ _ _ _ G1 S HD C) LT (length (d_pred d2))) as [E3 E4]. { rewrite (r_plen n d2 st2 R2). lia. }
      unfold node_path, edge_path. rewrite E1, E2, E3, E4. auto.
    Qed.

    (** Settling order of a search without goal direction. *)
    Section Order.
      Hypothesis Hpi0 : forall v, pi v = Some 0%N.
      Definition settled (st : ast P) (v : nat) : Prop := (aD st v < INF)%N /\ aQ st v = None.
      Definition ZInv (K : N) (st : ast P) : Prop :=
        (forall v k, aQ st v = Some k -> (K <= k)%N) /\ (forall v, settled st v -> (aD st v <= K)%N).

      Lemma key0 st v k : GInv n [] st -> (forall v, aA st v = aD st v) -> aQ st v = Some k -> k = aD st v /\ (aD st v < INF)%N.
      Proof.
        intros G HA Hq. destruct (g_key _ _ _ G v k Hq) as [H1 H2]. rewrite HA in *. split; auto. rewrite Hpi0 in H2.
        destruct H2 as [(p & [= <-] & ->)|(-> & ->)]. { lia. } rewrite <- HA. symmetry. apply (g_s _ _ _ G).
      Qed.

      Lemma unsettled_far st e K v d : GInv n [] st -> J (aD st) (aA st) e -> (forall v k, aQ st v = Some k -> (K <= k)%N) ->
        reach' s d0 v d -> (d < INF)%N -> ~ settled st v -> (K <= d)%N.
      Proof.
        intros G HJ Z Hr Hd Hn. pose proof (HJA _ _ _ HJ) as HA.
        destruct (frontier st v d G HA Hd Hr) as [F|(x & dx & Hq & HD & R1 & R2)].
        - intros x dx _ _. rewrite Hpi0. left; discriminate.
        - destruct (aQ st v) as [k|] eqn:Hq. { destruct (key0 st v k G HA Hq) as [-> _]. specialize (Z v _ Hq). lia. }
          destruct Hn. split; auto. lia.
        - destruct (aQ st x) as [k|] eqn:Hq'; [|congruence]. destruct (key0 st x k G HA Hq') as [-> _]. specialize (Z x _ Hq'). pose proof (reach_ge _ _ _ _ R2). lia.
      Qed.

      Lemma settle_order d st e K : R n d st -> GInv n [] st -> J (aD st) (aA st) e -> ZInv K st ->
        ((forall v, aQ st v = None) /\ exists d', settle' d e = Some (d', e, None) /\ R n d' st) \/
        exists u d' st' e', settle' d e = Some (d', e', Some u) /\ R n d' st' /\ u < n /\
          GInv n [] st' /\ J (aD st') (aA st') e' /\ (M st' < M st)%N /\ ZInv (aD st' u) st' /\ (K <= aD st' u)%N /\ (aD st' u < INF)%N /\
          earliest gstep s d0 u (Some (aD st' u)) /\ ~ settled st u /\ (forall v, settled st' v <-> settled st v \/ v = u) /\
          (forall v, settled st v -> aD st' v = aD st v).
      Proof.
        intros HR G HJ [Z1 Z2]. destruct (settle_ok d st e HR G HJ) as [H|(u & k & d' & st' & e' & E1 & R1 & Hu & Hk & Hmin & G1 & J1 & Q1 & D1 & M1 & W1 & K1)]; [left; auto|right].
        pose proof (HJA _ _ _ HJ) as HA. destruct (key0 st u k G HA Hk) as [-> HDI].
        assert (Z1' : forall v k, aQ st v = Some k -> (aD st u <= k)%N). { intros v k' Hk'. specialize (Hmin v k' Hk'). lia. }
        assert (Hset : forall v, settled st' v <-> settled st v \/ v = u).
        { intros v. destruct (Nat.eq_dec v u) as [->|Hne]. { split; auto. intros _. split; auto. lia. }
          destruct (K1 v) as [(A1 & A2 & A3 & A4)|A1]; cbn [popA aD aA aQ aP] in *.
          - rewrite fupd_neq in A3 by auto. unfold settled. rewrite A1, A3. intuition.
          - split.
            + intros [H1 H2]. exfalso. destruct (W1 v) as (_ & _ & [W|[W|W]]); cbn [popA aA] in W.
              * rewrite (HJA _ _ _ J1), HA in W. lia.
              * rewrite Hpi0 in W. discriminate.
              * auto.
            + intros [[H1 H2]|]; [|congruence]. specialize (Z2 v (conj H1 H2)). specialize (Z1 u _ Hk). lia. }
        exists u, d', st', e'. split; [auto|]. split; [auto|]. split; [auto|]. split; [auto|]. split; [auto|]. split; [auto|].
        specialize (Z1 u _ Hk).
        split. { split.
          - intros v k' Hk'. destruct (key0 st' v k' G1 (HJA _ _ _ J1) Hk') as [-> Hx]. rewrite D1.
            destruct (K1 v) as [(A1 & A2 & A3 & A4)|A1]; cbn [popA aD aA aQ aP] in *; [|lia]. unfold fupd in A3. destruct (v =? u); [congruence|].
            rewrite A3 in Hk'. specialize (Z1' v _ Hk'). lia.
          - intros v Hs'. apply Hset in Hs'. destruct Hs' as [Hs'| ->]; [|lia]. specialize (Z2 v Hs'). specialize (W1 v). cbn in W1. lia. }
        split; [lia|]. split; [lia|]. split.
        { split; [lia|]. split. { apply (g_reach _ _ _ G1). lia. } intros dd Hr. destruct (N.lt_ge_cases dd INF) as [Hdd|]; [|lia]. rewrite D1.
          apply (unsettled_far st e (aD st u) u dd G HJ Z1' Hr Hdd). intros [_ C]. congruence. }
        split. { intros [_ C]. congruence. } split; auto.
        intros v [H1 H2]. specialize (Z2 v (conj H1 H2)). destruct (K1 v) as [(A1 & _)|A1]; cbn [popA aD] in *; auto. lia.
      Qed.

      Lemma ZInv_init pr : ZInv 0 (initA s d0 pr).
      Proof. split. { intros; lia. } intros v [H1 H2]. cbn in *. unfold fupd in *. destruct (v =? s); [discriminate|lia]. Qed.
    End Order.
  End Uni.
End Search.
Arguments reach_ge {A P E n links hd lk pl epred cb pot nb slk pi s d0 J}.
Arguments reach_lt {A P E n links hd lk pl epred cb pot nb slk pi s d0 J}.
Arguments relaxA_ok {A P E n links hd lk pl epred cb pot nb slk pi s d0 J}.
Arguments relaxes_ok {A P E n links hd lk pl epred cb pot nb slk pi s d0 J}.
Arguments GInv_pop {A P E n links hd lk pl epred cb pot nb slk pi s d0 J}.
Arguments GInv_done {A P E n links hd lk pl epred cb pot nb slk pi s d0 J}.
Arguments pop_ok {A P E n links hd lk pl epred cb pot nb slk pi s d0 J}.
Arguments settle_ok {A P E n links hd lk pl epred cb pot nb slk pi s d0 J}.
Arguments GInv_init {A P E n links hd lk pl epred cb pot nb slk pi s d0 J}.
Arguments M_init {A P E n links hd lk pl epred cb pot nb slk pi s d0 J}.
Arguments frontier {A P E n links hd lk pl epred cb pot nb slk pi s d0 J}.
Arguments tree_chain {A P E n links hd lk pl epred cb pot nb slk pi s d0 J}.
Arguments paths_ok {A P E n links hd lk pl epred cb pot nb slk pi s d0 J}.
Arguments rp_reach {A P E n links hd lk pl epred cb pot nb slk pi s d0 J}.
Arguments rp_lt {A P E n links hd lk pl epred cb pot nb slk pi s d0 J}.
Arguments run_ok {A P E n links hd lk pl epred cb pot nb slk pi s d0 J}.
Arguments run_exact {A P E n links hd lk pl epred cb pot nb slk pi s d0 J}.
Arguments run_all {A P E n links hd lk pl epred cb pot nb slk pi s d0 J}.
Arguments settle_det {A P E n links hd lk pl epred cb pot nb slk pi s d0 J}.
Arguments run_det {A P E n links hd lk pl epred cb pot nb slk pi s d0 J}.
Arguments paths_det {A P E n links hd lk pl epred cb pot nb slk pi s d0 J}.
Arguments key0 {A P E n links hd lk pl epred cb pot nb slk pi s d0 J}.
Arguments unsettled_far {A P E n links hd lk pl epred cb pot nb slk pi s d0 J}.
Arguments settle_order {A P E n links hd lk pl epred cb pot nb slk pi s d0 J}.
Arguments ZInv_init {A P E n links hd lk pl epred cb pot nb slk pi s d0 J}.
