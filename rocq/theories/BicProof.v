(** The biconnected components: the search always ends without a failed assertion, and outside of an emitted component
    every connected region touches it in at most one node. *)
From Verif Require Import Base SpecGraph Graph GraphProof GraphIdProof GraphXProof GraphRevProof GraphOpsProof GraphSpecProof LoopProof CCHContractProof NodeOrder SepTree CCH IndexHeap TsVec Dijkstra DijServer PLF TopoDij VTopo VTopoProof.

Definition ends (es : list (nat * nat)) (x : nat) : Prop := exists e, In e es /\ (x = fst e \/ x = snd e).
Lemma ends_app a b x : ends (a ++ b) x <-> ends a x \/ ends b x.
Proof. unfold ends. split. - intros (e & H & X). apply in_app_or in H. destruct H; [left|right]; eauto. - intros [(e & H & X)|(e & H & X)]; exists e; split; auto; apply in_or_app; auto. Qed.
Lemma ends_cons u v b x : ends ((u, v) :: b) x <-> x = u \/ x = v \/ ends b x.
Proof. unfold ends. split. - intros (e & [<-|H] & X); cbn in X; [tauto|right; right; eauto]. - intros [->|[->|(e & H & X)]]; [exists (u, v)|exists (u, v)|exists e]; cbn; auto. Qed.
Lemma ends_nil x : ~ ends [] x.
Proof. intros (e & [] & _). Qed.

Section Tarjan.
  Variable n : nat.
  Variable hs : nat -> list nat.
  Hypothesis Hlt : forall u, u < n -> Forall (fun v => v < n) (hs u).
  Hypothesis Hsym : forall u v, u < n -> v < n -> In v (hs u) -> In u (hs v).

  Set Default Proof Using "All".
  (** lists as functions *)
  Definition nu (num : list (option nat)) (v : nat) : option nat := nth v num None.

  Section Inv.
    Variable num : nat -> option nat.
    Variable low par : nat -> nat.

    (** no arc leaves the nodes numbered [a, b) except towards [v] *)
    Definition closed (v a b : nat) : Prop :=
      forall y ky z, y < n -> num y = Some ky -> a <= ky < b -> In z (hs y) -> exists kz, num z = Some kz /\ (a <= kz < b \/ z = v).

    Definition cover (K : nat -> Prop) (a b y ky : nat) : Prop :=
      exists v' a' b', a < a' /\ b' <= b /\ a' <= ky < b' /\ closed v' a' b' /\ K v' /\ (forall u ku, K u -> num u = Some ku -> ~ a' <= ku < b').

    (** what an emitted component (a list of edges) is *)
    Definition comp_ok (comp : list (nat * nat)) : Prop :=
      (forall x, ends comp x -> x < n) /\
      (comp = [] \/ exists v w a b, closed v a b /\ ends comp v /\ num w = Some a /\ ends comp w /\ (forall x, ends comp x -> x = v \/ exists k, num x = Some k /\ a <= k < b) /\
        (exists kv, num v = Some kv /\ kv < a) /\
        forall y ky, y < n -> num y = Some ky -> a <= ky < b -> ends comp y \/ cover (ends comp) a b y ky).

    (** segment of a stack node [x] with the unread neighbours [l]: the nodes numbered [k, hi) *)
    Record SEG (base x : nat) (l : list nat) (k hi : nat) (es : list (nat * nat)) : Prop := {
      g_x : x < n;
      g_num : num x = Some k;
      g_hi : k < hi;
      g_low : base <= low x <= k;
      g_suf : exists pre, hs x = pre ++ l /\
        forall z, In z pre -> exists kz, num z = Some kz /\ (low x <= kz \/ z = par x);
      g_in : forall y ky z, y < n -> num y = Some ky -> k <= ky < hi -> y <> x -> In z (hs y) -> exists kz, num z = Some kz /\ low x <= kz;
      g_es : forall u1 u2, In (u1, u2) es -> u1 < n /\ In u2 (hs u1) /\ exists k1 k2, num u1 = Some k1 /\ k <= k1 < hi /\ num u2 = Some k2 /\ k2 < hi;
      g_cov : forall y ky, y < n -> num y = Some ky -> k <= ky < hi -> y = x \/ ends es y \/ cover (fun u => u = x \/ ends es u) k hi y ky }.

    Inductive SOK (base : nat) : nat -> list (nat * list nat) -> list (nat * nat) -> Prop :=
    | S_root hi x l : par x = x -> SEG base x l base hi [] -> SOK base hi [(x, l)] []
    | S_push hi x l y l' st k es es' : par x = y -> x <> y -> In x (hs y) -> SEG base x l k hi es -> SOK base k ((y, l') :: st) es' ->
        SOK base hi ((x, l) :: (y, l') :: st) (es ++ (y, x) :: es').

    Lemma SOK_bounds base hi st es : SOK base hi st es -> forall x l, In (x, l) st -> x < n /\ exists k, num x = Some k /\ base <= k < hi.
    Proof.
      induction 1 as [hi x l Hp HG|hi x l y l' st k es es' Hp Hne Hch HG HS IH]; intros z lz Hz.
      - destruct Hz as [[= <- <-]|[]]. split; [apply HG|]. exists base. split; [apply HG|]. pose proof (g_hi _ _ _ _ _ _ HG). lia.
      - destruct Hz as [[= <- <-]|Hz].
        + split; [apply HG|]. exists k. split; [apply HG|]. pose proof (g_hi _ _ _ _ _ _ HG). destruct (IH y l') as (_ & k' & _ & Hk); [left; auto|]. lia.
        + destruct (IH z lz Hz) as (Hz1 & k' & E & Hk). split; auto. exists k'. split; auto. pose proof (g_hi _ _ _ _ _ _ HG). lia.
    Qed.
  End Inv.

  (** monotonicity in the numbering *)
  Lemma closed_ext num num' c v a b : (forall x k, num x = Some k -> num' x = Some k) -> (forall x k, num' x = Some k -> num x = Some k \/ c <= k) -> b <= c ->
    closed num v a b -> closed num' v a b.
  Proof.
    intros H1 H2 Hb HC y ky z Hy Ey Hk Hz. destruct (H2 y ky Ey) as [Ey'|]; [|lia].
    destruct (HC y ky z Hy Ey' Hk Hz) as (kz & Ez & X). exists kz. split; auto.
  Qed.

  Lemma cover_ext num num' c (K K' : nat -> Prop) a b y ky : (forall x k, num x = Some k -> num' x = Some k) -> (forall x k, num' x = Some k -> num x = Some k \/ c <= k) -> b <= c ->
    (forall u, K u -> exists k, num u = Some k) -> (forall u, K u <-> K' u) ->
    cover num K a b y ky -> cover num' K' a b y ky.
  Proof.
    intros H1 H2 Hb HK HKK (v' & a' & b' & A1 & A2 & A3 & A4 & A5 & A6). exists v', a', b'. split; auto. split; auto. split; auto. split. { eapply closed_ext; eauto. lia. }
    split. { apply HKK; auto. } intros u ku Hu Eu. apply HKK in Hu. destruct (HK u Hu) as (k & Ek). rewrite (H1 u k Ek) in Eu. injection Eu as <-. eapply A6; eauto.
  Qed.

  Lemma comp_ok_ext num num' c comp : (forall x k, num x = Some k -> num' x = Some k) -> (forall x k, num' x = Some k -> num x = Some k \/ c <= k) -> (forall x k, num x = Some k -> k < c) ->
    comp_ok num comp -> comp_ok num' comp.
  Proof.
    intros H1 H2 H3 [HB HC]. split; auto. destruct HC as [|(v & w & a & b & A1 & A2 & AW & AW' & A3 & A4 & A5)]; auto. right.
    set (b' := Nat.min b c).
    assert (Lk : forall x k, num x = Some k -> (a <= k < b <-> a <= k < b')). { intros x k E. specialize (H3 x k E). unfold b'. lia. }
    assert (C' : closed num v a b'). { intros y ky z Hy Ey Hk Hz. destruct (A1 y ky z Hy Ey) as (kz & Ez & X); [apply (Lk y ky Ey); auto|auto|]. exists kz. split; auto. destruct X; auto. left. apply (Lk z kz Ez); auto. }
    exists v, w, a, b'. split. { eapply closed_ext; eauto. unfold b'; lia. } split; auto. split; auto. split; auto.
    split. { intros x Hx. destruct (A3 x Hx) as [|(k & Ek & Hk)]; auto. right. exists k. split; auto. apply (Lk x k Ek); auto. }
    split. { destruct A4 as (kv & E & L). eauto. }
    intros y ky Hy Ey Hk. destruct (H2 y ky Ey) as [Ey'|]; [|unfold b' in *; lia]. destruct (A5 y ky Hy Ey') as [X|X]; auto. { apply (Lk y ky Ey'); auto. }
    right. destruct X as (v' & a1 & b1 & B1 & B2 & B3 & B4 & B5 & B6). exists v', a1, (Nat.min b1 c). split; auto. split. { unfold b'. lia. } split. { specialize (H3 y ky Ey'). lia. }
    split. { eapply closed_ext; eauto; [lia|]. intros y0 k0 z0 Hy0 E0 Hk0 Hz0. destruct (B4 y0 k0 z0 Hy0 E0) as (kz & Ez & X); [lia|auto|]. exists kz. split; auto. specialize (H3 z0 kz Ez). destruct X; auto. left. lia. }
    split; auto. intros u ku Hu Eu. destruct (H2 u ku Eu) as [Eu'|]; [|lia]. specialize (B6 u ku Hu Eu'). lia.
  Qed.

  Lemma SEG_ext num num' low low' par par' c base x l k hi es : (forall x k, num x = Some k -> num' x = Some k) -> (forall x k, num' x = Some k -> num x = Some k \/ c <= k) -> hi <= c ->
    low' x = low x -> par' x = par x -> SEG num low par base x l k hi es -> SEG num' low' par' base x l k hi es.
  Proof.
    intros H1 H2 Hc El Ep HG. split; try rewrite El; try rewrite Ep.
    - apply HG.
    - apply H1, HG.
    - apply HG.
    - apply HG.
    - destruct (g_suf _ _ _ _ _ _ _ _ _ HG) as (pre & E & X). exists pre. split; auto. intros z Hz. destruct (X z Hz) as (kz & Ez & Y). exists kz. rewrite ?Ep. auto.
    - intros y ky z Hy Ey Hk Hne Hz. destruct (H2 y ky Ey) as [Ey'|]; [|lia]. destruct (g_in _ _ _ _ _ _ _ _ _ HG y ky z Hy Ey' Hk Hne Hz) as (kz & Ez & X). eauto.
    - intros u1 u2 Hu. destruct (g_es _ _ _ _ _ _ _ _ _ HG u1 u2 Hu) as (A1 & A2 & k1 & k2 & A3 & A4 & A5 & A6). split; auto. split; auto. exists k1, k2. auto.
    - intros y ky Hy Ey Hk. destruct (H2 y ky Ey) as [Ey'|]; [|lia]. destruct (g_cov _ _ _ _ _ _ _ _ _ HG y ky Hy Ey' Hk) as [|[|X]]; auto. right; right.
      eapply (cover_ext num num' c); eauto; [|tauto].
      intros u [->|(e & He & Hu)]. { exists k. apply HG. } destruct e as [u1 u2]. destruct (g_es _ _ _ _ _ _ _ _ _ HG u1 u2 He) as (_ & _ & k1 & k2 & A3 & _ & A5 & _). cbn in Hu. destruct Hu as [->| ->]; eauto.
  Qed.

  Lemma SOK_ext num num' low low' par par' c base hi st es : (forall x k, num x = Some k -> num' x = Some k) -> (forall x k, num' x = Some k -> num x = Some k \/ c <= k) -> hi <= c ->
    (forall x l, In (x, l) st -> low' x = low x /\ par' x = par x) -> SOK num low par base hi st es -> SOK num' low' par' base hi st es.
  Proof.
    intros H1 H2 Hc HL HS. induction HS as [hi x l Hp HG|hi x l y l' st k es es' Hp Hne Hch HG HS IH].
    - destruct (HL x l) as [El Ep]; [left; auto|]. constructor. { congruence. } eapply SEG_ext; eauto.
    - destruct (HL x l) as [El Ep]; [left; auto|]. pose proof (g_hi _ _ _ _ _ _ _ _ _ HG). apply S_push with (k := k); auto. { congruence. } { eapply SEG_ext; eauto. }
      apply IH; [lia|]. intros z lz Hz. apply (HL z lz). right; auto.
  Qed.

  (** global part; [st] are the nodes on the stack *)
  Record GOK (num : nat -> option nat) (cnt : nat) (st : list nat) : Prop := {
    o_lt : forall x k, num x = Some k -> x < n /\ k < cnt;
    o_inj : forall x y k, num x = Some k -> num y = Some k -> x = y;
    o_fin : forall z kz y, num z = Some kz -> ~ In z st -> In y (hs z) ->
      exists ky, num y = Some ky /\ forall x kx, In x st -> num x = Some kx -> kz < kx -> ky < kx }.

  (** a numbered neighbour of a stack node with a smaller number is on the stack *)
  Lemma on_stack num cnt st x kx z kz : GOK num cnt st -> In x st -> x < n -> num x = Some kx -> In z (hs x) -> num z = Some kz -> kz < kx -> In z st.
  Proof.
    intros HG Hx Hxn Ex Hz Ez Hk.
    assert (Hzn : z < n) by apply (o_lt _ _ _ HG z kz Ez).
    destruct (in_dec Nat.eq_dec z st) as [Hi|Hi]; auto.
    exfalso. destruct (o_fin _ _ _ HG z kz x Ez Hi) as (k' & Ek & HX).
    - apply Hsym; auto.
    - specialize (HX x kx Hx Ex Hk). assert (k' = kx) by congruence. lia.
  Qed.

  Definition numb (num : nat -> option nat) (x c : nat) : nat -> option nat := fun v => if v =? x then Some c else num v.
  Definition updf (f : nat -> nat) (x c : nat) : nat -> nat := fun v => if v =? x then c else f v.

  Lemma numb_old num x c : num x = None -> forall y k, num y = Some k -> numb num x c y = Some k.
  Proof. intros H y k E. unfold numb. destruct (Nat.eqb_spec y x); congruence. Qed.
  Lemma numb_new num x c : forall y k, numb num x c y = Some k -> num y = Some k \/ c <= k.
  Proof. intros y k. unfold numb. destruct (Nat.eqb_spec y x); auto. intros [= <-]. auto. Qed.

  Lemma SEG_fresh num low par base x hi : x < n -> num x = None -> (forall y k, num y = Some k -> k < hi) -> base <= hi ->
    SEG (numb num x hi) (updf low x hi) par base x (hs x) hi (S hi) [].
  Proof.
    intros Hx En Hk Hb. assert (U : forall y k, numb num x hi y = Some k -> hi <= k < S hi -> y = x).
    { intros y k E H. unfold numb in E. destruct (Nat.eqb_spec y x); auto. specialize (Hk y k E). lia. }
    split; auto.
    - unfold numb. rewrite Nat.eqb_refl. auto.
    - unfold updf. rewrite Nat.eqb_refl. lia.
    - exists []. split; auto. intros z [].
    - intros y ky z _ E H Hne. specialize (U y ky E H). congruence.
    - intros u1 u2 [].
    - intros y ky _ E H. left. eauto.
  Qed.

  Lemma GOK_push num cnt st x : GOK num cnt st -> x < n -> num x = None -> GOK (numb num x cnt) (S cnt) (x :: st).
  Proof.
    intros HG Hx En. split.
    - intros y k E. unfold numb in E. destruct (Nat.eqb_spec y x) as [->|]. { injection E as <-. lia. } destruct (o_lt _ _ _ HG y k E). lia.
    - intros y z k E1 E2. unfold numb in *. destruct (Nat.eqb_spec y x), (Nat.eqb_spec z x); try congruence.
      + injection E1 as <-. apply (o_lt _ _ _ HG) in E2. lia.
      + injection E2 as <-. apply (o_lt _ _ _ HG) in E1. lia.
      + eapply o_inj; eauto.
    - intros z kz y Ez Hn Hy. unfold numb in Ez. destruct (Nat.eqb_spec z x) as [->|Nz]. { destruct Hn; left; auto. }
      destruct (o_fin _ _ _ HG z kz y Ez) as (ky & Ey & X); auto. { intros Hi. apply Hn. right; auto. }
      exists ky. split. { apply numb_old; auto. } intros w kw [<-|Hw] Ew Hk.
      + unfold numb in Ew. rewrite Nat.eqb_refl in Ew. injection Ew as <-. apply (o_lt _ _ _ HG y ky Ey).
      + unfold numb in Ew. destruct (Nat.eqb_spec w x) as [->|]; [injection Ew as <-; apply (o_lt _ _ _ HG y ky Ey)|eauto].
  Qed.

  (** T1: a new root *)
  Lemma T_root num low par cnt x : GOK num cnt [] -> x < n -> num x = None -> par x = x ->
    SOK (numb num x cnt) (updf low x cnt) par cnt (S cnt) [(x, hs x)] [] /\ GOK (numb num x cnt) (S cnt) [x].
  Proof.
    intros HG Hx En Hp. split; [|apply GOK_push; auto]. apply S_root; auto. apply SEG_fresh; auto. intros y k E. apply (o_lt _ _ _ HG) in E. tauto.
  Qed.

  Lemma SEG_read num low par base x z l k hi es kz : SEG num low par base x (z :: l) k hi es -> num z = Some kz -> (low x <= kz \/ z = par x) -> SEG num low par base x l k hi es.
  Proof.
    intros HG Ez Hz. destruct HG as [A1 A2 A3 A4 A5 A6 A7 A8]. split; auto.
    destruct A5 as (pre & E & X). exists (pre ++ [z]). split. { rewrite <- app_assoc. auto. }
    intros y Hy. apply in_app_or in Hy. destruct Hy as [Hy|[<-|[]]]; eauto.
  Qed.
  Lemma SOK_read num low par base x z l hi st es kz : SOK num low par base hi ((x, z :: l) :: st) es -> num z = Some kz -> (low x <= kz \/ z = par x) -> SOK num low par base hi ((x, l) :: st) es.
  Proof.
    intros HS Ez Hz. inversion HS as [? ? ? Hp HG|? ? ? y l' st' k es0 es' Hp Hne Hch HG HS']; subst.
    - apply S_root; auto. eapply SEG_read; eauto.
    - eapply S_push; eauto. eapply SEG_read; eauto.
  Qed.

  (** T2: a child *)
  Lemma T_child num low par base cnt x z l st es : SOK num low par base cnt ((x, z :: l) :: st) es -> GOK num cnt (x :: map fst st) -> z < n -> num z = None ->
    SOK (numb num z cnt) (updf low z cnt) (updf par z x) base (S cnt) ((z, hs z) :: (x, l) :: st) ((x, z) :: es) /\ GOK (numb num z cnt) (S cnt) (z :: x :: map fst st).
  Proof.
    intros HS HG Hz En. split; [|apply GOK_push; auto].
    assert (Lt : forall y k, num y = Some k -> k < cnt). { intros y k E. apply (o_lt _ _ _ HG) in E. tauto. }
    assert (Hx : x < n /\ exists k, num x = Some k /\ base <= k < cnt). { apply (SOK_bounds _ _ _ _ _ _ _ HS x (z :: l)). left; auto. }
    destruct Hx as (Hxn & kx & Ex & Hkx). assert (Nxz : z <> x) by congruence.
    assert (HS1 : SOK (numb num z cnt) (updf low z cnt) (updf par z x) base cnt ((x, z :: l) :: st) es).
    { eapply (SOK_ext num _ low _ par _ cnt); eauto. { apply numb_old; auto. } { apply numb_new. }
      intros y ly Hy. destruct (SOK_bounds _ _ _ _ _ _ _ HS y ly Hy) as (_ & k & E & _). unfold updf. destruct (Nat.eqb_spec y z); [congruence|auto]. }
    assert (Ez : numb num z cnt z = Some cnt). { unfold numb. rewrite Nat.eqb_refl. auto. }
    assert (HS2 : SOK (numb num z cnt) (updf low z cnt) (updf par z x) base cnt ((x, l) :: st) es).
    { eapply SOK_read; eauto. left. inversion HS1 as [? ? ? Hp HGx|? ? ? y l' st' k es0 es' Hp Hne Hch HGx HS']; subst; destruct (g_low _ _ _ _ _ _ _ _ _ HGx); pose proof (g_hi _ _ _ _ _ _ _ _ _ HGx); lia. }
    apply (S_push _ _ _ base (S cnt) z (hs z) x l st cnt [] es); auto.
    - unfold updf. rewrite Nat.eqb_refl. auto.
    - inversion HS as [? ? ? Hp HGx|? ? ? y l' st' k es0 es' Hp Hne Hch HGx HS']; subst; destruct (g_suf _ _ _ _ _ _ _ _ _ HGx) as (pre & -> & _); apply in_elt.
    - apply SEG_fresh; auto. lia.
  Qed.

  (** T3: an arc to an ancestor other than the parent *)
  Lemma SEG_back num low par base x z l k hi es kz : SEG num low par base x (z :: l) k hi es -> num z = Some kz -> base <= kz < k -> SEG num (updf low x (Nat.min (low x) kz)) par base x l k hi ((x, z) :: es).
  Proof.
    intros HG Ez Hz. destruct HG as [A1 A2 A3 A4 A5 A6 A7 A8].
    assert (EL : updf low x (Nat.min (low x) kz) x = Nat.min (low x) kz). { unfold updf. rewrite Nat.eqb_refl. auto. }
    assert (HI : In z (hs x)). { destruct A5 as (pre & -> & _). apply in_elt. }
    split; auto; try rewrite EL.
    - lia.
    - destruct A5 as (pre & E & X). exists (pre ++ [z]). split. { rewrite <- app_assoc. auto. }
      intros y Hy. apply in_app_or in Hy. destruct Hy as [Hy|[<-|[]]].
      + destruct (X y Hy) as (ky & Ey & [L|]); exists ky; split; auto. left. lia.
      + exists kz. split; auto. left. lia.
    - intros y ky w Hy Ey Hk Hne Hw. destruct (A6 y ky w Hy Ey Hk Hne Hw) as (kw & Ew & L). exists kw. split; auto. lia.
    - intros u1 u2 [[= <- <-]|Hu]. { split; auto. split; auto. exists k, kz. repeat split; auto; lia. } eauto.
    - intros y ky Hy Ey Hk. destruct (A8 y ky Hy Ey Hk) as [|[H|H]]; auto. { right; left. apply ends_cons; auto. }
      right; right. destruct H as (v' & a' & b' & B1 & B2 & B3 & B4 & B5 & B6). exists v', a', b'. repeat (split; auto; try lia).
      { destruct B5; auto. right. apply ends_cons; auto. }
      intros u ku Hu Eu. assert (Hu' : (u = x \/ ends es u) \/ u = z). { destruct Hu as [|Hu]; auto. apply ends_cons in Hu. tauto. }
      destruct Hu' as [Hu'| ->]; eauto. assert (ku = kz) by congruence. lia.
  Qed.
  Lemma T_back num low par base cnt x z l st es k kz : SOK num low par base cnt ((x, z :: l) :: st) es -> num x = Some k -> num z = Some kz -> base <= kz < k ->
    SOK num (updf low x (Nat.min (low x) kz)) par base cnt ((x, l) :: st) ((x, z) :: es).
  Proof.
    intros HS Ex Ez Hz. inversion HS as [? ? ? Hp HG|? ? ? y l' st' k0 es0 es' Hp Hne Hch HG HS']; subst.
    - pose proof (g_num _ _ _ _ _ _ _ _ _ HG). assert (k = base) by congruence. lia.
    - pose proof (g_num _ _ _ _ _ _ _ _ _ HG). assert (k = k0) by congruence. subst k0. apply (S_push _ _ _ base cnt x l (par x) l' st' k ((x, z) :: es0) es'); auto. { eapply SEG_back; eauto. }
      eapply (SOK_ext num num low _ par par k); eauto. intros w lw Hw. split; auto. unfold updf.
      destruct (SOK_bounds _ _ _ _ _ _ _ HS' w lw Hw) as (_ & kw & E & Hkw). destruct (Nat.eqb_spec w x) as [->|]; auto. assert (kw = k) by congruence. lia.
  Qed.

  (** the popped node's arcs *)
  Lemma SEG_done num low par base x k hi es z : SEG num low par base x [] k hi es -> In z (hs x) -> exists kz, num z = Some kz /\ (low x <= kz \/ z = par x).
  Proof. intros HG Hz. destruct (g_suf _ _ _ _ _ _ _ _ _ HG) as (pre & E & X). apply X. rewrite app_nil_r in E. congruence. Qed.

  Lemma GOK_pop num low par base cnt x k es st : GOK num cnt (x :: st) -> SEG num low par base x [] k cnt es -> (forall y ky, In y st -> num y = Some ky -> ky < k) -> ~ In x st -> GOK num cnt st.
  Proof.
    intros HG HX Hst Hnx. split; try apply HG. intros z kz y Ez Hz Hy. destruct (Nat.eq_dec z x) as [->|Nz].
    - destruct (SEG_done _ _ _ _ _ _ _ _ y HX Hy) as (ky & Ey & _). exists ky. split; auto. intros w kw Hw Ew Hk.
      assert (kz = k). { rewrite (g_num _ _ _ _ _ _ _ _ _ HX) in Ez. congruence. } specialize (Hst w kw Hw Ew). lia.
    - destruct (o_fin _ _ _ HG z kz y Ez) as (ky & Ey & X); auto. { intros [|]; auto. } exists ky. split; auto. intros w kw Hw. apply X. right; auto.
  Qed.

  Lemma SEG_merge num low par base x k hi es y l ky esy : SEG num low par base x [] k hi es -> SEG num low par base y l ky k esy -> par x = y -> In y (hs x) ->
    SEG num (updf low y (Nat.min (low y) (low x))) par base y l ky hi (es ++ (y, x) :: esy).
  Proof.
    intros HX HY Hp Hyx. pose proof HX as [A1 A2 A3 A4 _ A6 A7 A8]. pose proof HY as [B1 B2 B3 B4 B5 B6 B7 B8].
    assert (EL : updf low y (Nat.min (low y) (low x)) y = Nat.min (low y) (low x)). { unfold updf. rewrite Nat.eqb_refl. auto. }
    assert (Hxy : In x (hs y)) by (apply Hsym; auto).
    split; auto; try rewrite EL.
    - lia.
    - lia.
    - destruct B5 as (pre & E & X). exists pre. split; auto. intros z Hz. destruct (X z Hz) as (kz & Ez & [L|]); exists kz; split; auto. left. lia.
    - intros u ku z Hu Eu Hk Hne Hz. destruct (Nat.lt_ge_cases ku k) as [L|L].
      + destruct (B6 u ku z Hu Eu) as (kz & Ez & Lz); auto; [lia|]. exists kz. split; auto. lia.
      + destruct (Nat.eq_dec u x) as [->|Nx].
        * destruct (SEG_done _ _ _ _ _ _ _ _ z HX Hz) as (kz & Ez & [Lz| ->]). { exists kz. split; auto. lia. } exists ky. rewrite Hp. split; auto. lia.
        * destruct (A6 u ku z Hu Eu) as (kz & Ez & Lz); auto; [lia|]. exists kz. split; auto. lia.
    - intros u1 u2 Hu. apply in_app_or in Hu. destruct Hu as [Hu|[[= <- <-]|Hu]].
      + destruct (A7 u1 u2 Hu) as (C1 & C2 & k1 & k2 & C3 & C4 & C5 & C6). split; auto. split; auto. exists k1, k2. repeat split; auto; lia.
      + split; auto. split; auto. exists ky, k. repeat split; auto; lia.
      + destruct (B7 u1 u2 Hu) as (C1 & C2 & k1 & k2 & C3 & C4 & C5 & C6). split; auto. split; auto. exists k1, k2. repeat split; auto; lia.
    - intros u ku Hu Eu Hk. destruct (Nat.lt_ge_cases ku k) as [L|L].
      + destruct (B8 u ku Hu Eu ltac:(lia)) as [|[H|H]]; auto. { right; left. rewrite ends_app, ends_cons. auto. }
        right; right. destruct H as (v' & a' & b' & C1 & C2 & C3 & C4 & C5 & C6). exists v', a', b'. split; auto. split; [lia|]. split; auto. split; auto.
        split. { destruct C5; auto. right. rewrite ends_app, ends_cons. auto. }
        intros w kw Hw Ew. assert (Hw' : (w = y \/ ends esy w) \/ w = x \/ ends es w). { destruct Hw as [|Hw]; auto. rewrite ends_app, ends_cons in Hw. tauto. }
        destruct Hw' as [Hw'|[->|Hw']]; eauto. { assert (kw = k) by congruence. lia. }
        intros Hin. destruct Hw' as ((u1, u2) & He & Hend). destruct (A7 u1 u2 He) as (D1 & D2 & k1 & k2 & D3 & D4 & D5 & D6). cbn in Hend.
        destruct Hend as [->| ->]. { assert (kw = k1) by congruence. lia. }
        destruct (C4 u2 kw u1) as (kz & Ez & [X| ->]); auto.
        * pose proof (Hlt u1 D1) as F. rewrite Forall_forall in F. apply F; auto.
        * apply Hsym; auto. pose proof (Hlt u1 D1) as F. rewrite Forall_forall in F. apply F; auto.
        * assert (kz = k1) by congruence. lia.
        * destruct C5 as [->|C5]. { assert (ky = k1) by congruence. lia. }
          destruct C5 as ((w1, w2) & Hw1 & Hend'). destruct (B7 w1 w2 Hw1) as (_ & _ & j1 & j2 & F3 & F4 & F5 & F6). cbn in Hend'. destruct Hend' as [-> | ->]; [assert (j1 = k1) by congruence|assert (j2 = k1) by congruence]; lia.
      + destruct (A8 u ku Hu Eu ltac:(lia)) as [->|[H|H]]; [right; left; rewrite ends_app, ends_cons; auto|right; left; rewrite ends_app; auto|].
        right; right. destruct H as (v' & a' & b' & C1 & C2 & C3 & C4 & C5 & C6). exists v', a', b'. split; [lia|]. split; auto. split; auto. split; auto.
        split. { right. rewrite ends_app, ends_cons. tauto. }
        intros w kw Hw Ew. assert (Hw' : (w = x \/ ends es w) \/ w = y \/ ends esy w). { destruct Hw as [|Hw]; auto. rewrite ends_app, ends_cons in Hw. tauto. }
        destruct Hw' as [Hw'|[->|Hw']]; eauto. { assert (kw = ky) by congruence. lia. }
        destruct Hw' as ((u1, u2) & He & Hend). destruct (B7 u1 u2 He) as (_ & _ & k1 & k2 & D3 & D4 & D5 & D6). cbn in Hend. destruct Hend as [->| ->]; [assert (kw = k1) by congruence|assert (kw = k2) by congruence]; lia.
  Qed.

  Lemma SEG_emit num low par base x k hi es y l ky esy : SEG num low par base x [] k hi es -> SEG num low par base y l ky k esy -> closed num y k hi -> ky <= low x ->
    SEG num (updf low y (Nat.min (low y) (low x))) par base y l ky hi esy.
  Proof.
    intros HX HY HC Hl. pose proof HX as [A1 A2 A3 A4 _ A6 A7 A8]. pose proof HY as [B1 B2 B3 B4 B5 B6 B7 B8].
    assert (EL : updf low y (Nat.min (low y) (low x)) y = low y). { unfold updf. rewrite Nat.eqb_refl. lia. }
    split; auto; try rewrite EL; auto.
    - lia.
    - intros u ku z Hu Eu Hk Hne Hz. destruct (Nat.lt_ge_cases ku k) as [L|L]; [apply (B6 u ku z); auto; lia|].
      destruct (HC u ku z Hu Eu ltac:(lia) Hz) as (kz & Ez & [X| ->]). { exists kz. split; auto. lia. } exists ky. split; auto. lia.
    - intros u1 u2 Hu. destruct (B7 u1 u2 Hu) as (C1 & C2 & k1 & k2 & C3 & C4 & C5 & C6). split; auto. split; auto. exists k1, k2. repeat split; auto; lia.
    - intros u ku Hu Eu Hk. destruct (Nat.lt_ge_cases ku k) as [L|L].
      + destruct (B8 u ku Hu Eu ltac:(lia)) as [|[H|H]]; auto. right; right. destruct H as (v' & a' & b' & C1 & C2 & C3 & C4 & C5 & C6). exists v', a', b'. split; auto. split; [lia|]. auto.
      + right; right. exists y, k, hi. split; auto. split; auto. split; [lia|]. split; auto. split; auto.
        intros w kw [->|((u1, u2) & He & Hend)] Ew. { assert (kw = ky) by congruence. lia. }
        destruct (B7 u1 u2 He) as (_ & _ & k1 & k2 & D3 & D4 & D5 & D6). cbn in Hend. destruct Hend as [->| ->]; [assert (kw = k1) by congruence|assert (kw = k2) by congruence]; lia.
  Qed.

  Lemma closed_emit num low par base x k cnt es y st ky : GOK num cnt (x :: y :: st) -> SEG num low par base x [] k cnt es -> par x = y -> num y = Some ky -> ky < k -> ky <= low x ->
    (forall z kz, In z st -> num z = Some kz -> kz < ky) -> closed num y k cnt.
  Proof.
    intros HG HX Hp Ey Hk Hl Hst u ku z Hu Eu Hku Hz. pose proof (g_num _ _ _ _ _ _ _ _ _ HX) as Ex.
    assert (G : exists kz, num z = Some kz /\ (ky <= kz \/ z = y)).
    { destruct (Nat.eq_dec u x) as [->|Nx].
      - destruct (SEG_done _ _ _ _ _ _ _ _ z HX Hz) as (kz & Ez & [L|L]); exists kz; split; auto. { left; lia. } right; congruence.
      - destruct (g_in _ _ _ _ _ _ _ _ _ HX u ku z Hu Eu Hku Nx Hz) as (kz & Ez & L). exists kz. split; auto. left. lia. }
    destruct G as (kz & Ez & G). exists kz. split; auto. destruct G as [G|]; auto.
    destruct (Nat.lt_ge_cases kz k) as [L|L]. 2: { left. apply (o_lt _ _ _ HG) in Ez. lia. }
    destruct (Nat.eq_dec kz ky) as [->|Nk]. { right. eapply (o_inj _ _ _ HG); eauto. }
    exfalso. assert (Hns : ~ In z (x :: y :: st)).
    { intros [<-|[<-|Hi]]. { assert (kz = k) by congruence; lia. } { assert (kz = ky) by congruence; lia. } specialize (Hst z kz Hi Ez). lia. }
    destruct (o_fin _ _ _ HG z kz u Ez Hns) as (k' & E' & X). { apply Hsym; auto. apply (o_lt _ _ _ HG z kz Ez). }
    specialize (X x k (or_introl eq_refl) Ex L). assert (k' = ku) by congruence. lia.
  Qed.

  Lemma comp_emit num low par base x k cnt es y ky : SEG num low par base x [] k cnt es -> y < n -> num y = Some ky -> ky < k -> closed num y k cnt -> comp_ok num (es ++ [(y, x)]).
  Proof.
    intros HX Hy Ey Hk HC. pose proof HX as [A1 A2 A3 A4 _ A6 A7 A8]. split.
    - intros w Hw. rewrite ends_app, ends_cons in Hw. destruct Hw as [((u1, u2) & He & Hend)|[->|[->|Hw]]]; auto; [|destruct (ends_nil _ Hw)].
      destruct (A7 u1 u2 He) as (D1 & D2 & _). cbn in Hend. destruct Hend as [->| ->]; auto. pose proof (Hlt u1 D1) as F. rewrite Forall_forall in F. auto.
    - right. exists y, x, k, cnt. split; auto. split. { rewrite ends_app, ends_cons. auto. } split; auto. split. { rewrite ends_app, ends_cons. auto. } split.
      { intros w Hw. rewrite ends_app, ends_cons in Hw. destruct Hw as [((u1, u2) & He & Hend)|[->|[->|Hw]]]; auto; [|right; exists k; split; auto; lia|destruct (ends_nil _ Hw)].
        destruct (A7 u1 u2 He) as (D1 & D2 & k1 & k2 & D3 & D4 & D5 & D6). cbn in Hend. destruct Hend as [->| ->]; [right; eauto|].
        destruct (HC u1 k1 u2 D1 D3 D4 D2) as (kz & Ez & [X|X]); auto. right. eauto. }
      split. { eauto. }
      intros u ku Hu Eu Hku. destruct (A8 u ku Hu Eu Hku) as [->|[H|H]]; [left; rewrite ends_app, ends_cons; auto|left; rewrite ends_app; auto|].
      right. destruct H as (v' & a' & b' & C1 & C2 & C3 & C4 & C5 & C6). exists v', a', b'. split; auto. split; auto. split; auto. split; auto.
      split. { rewrite ends_app, ends_cons. tauto. }
      intros w kw Hw Ew. rewrite ends_app, ends_cons in Hw. destruct Hw as [Hw|[->|[->|Hw]]]; [eauto| |eauto|destruct (ends_nil _ Hw)]. assert (kw = ky) by congruence. lia.
  Qed.

  (** ** the list level *)
  Variable debug : bool.
  Variable heads : nat -> option (list nat).
  Hypothesis Hheads : forall u, u < n -> heads u = Some (hs u).

  Definition lu (l : list nat) (v : nat) : nat := nth v l 0.
  Definition BL (s : bstate) : Prop := length (b_num s) = n /\ length (b_low s) = n /\ length (b_par s) = n.
  Definition BB (s : bstate) : Prop :=
    (forall x k, nu (b_num s) x = Some k -> k < b_cnt s) /\ Forall (comp_ok (nu (b_num s))) (b_comps s) /\
    match b_stack s with
    | [] => b_edges s = [] /\ GOK (nu (b_num s)) (b_cnt s) []
    | (x, l) :: st =>
        GOK (nu (b_num s)) (b_cnt s) (x :: map fst st) /\
        exists base, SOK (nu (b_num s)) (lu (b_low s)) (lu (b_par s)) base (b_cnt s) ((x, l) :: st) (b_edges s)
    end.
  Definition BC (s : bstate) : Prop :=
    (forall x k, nu (b_num s) x = Some k -> k < b_cnt s) /\ Forall (comp_ok (nu (b_num s))) (b_comps s) /\
    exists x l st, b_stack s = (x, l) :: st /\ x < n /\ nu (b_num s) x = None /\
      GOK (numb (nu (b_num s)) x (b_cnt s)) (S (b_cnt s)) (x :: map fst st) /\
      exists base, SOK (numb (nu (b_num s)) x (b_cnt s)) (updf (lu (b_low s)) x (b_cnt s)) (lu (b_par s)) base (S (b_cnt s)) ((x, l) :: st) (b_edges s).

  Lemma nu_upd num x c v : x < length num -> nu (upd num x (Some c)) v = numb (nu num) x c v.
  Proof. intros H. unfold nu, numb. rewrite nth_upd; auto. Qed.
  Lemma lu_upd l x c v : x < length l -> lu (upd l x c) v = updf (lu l) x c v.
  Proof. intros H. unfold lu, updf. rewrite nth_upd; auto. Qed.
  Lemma nu_err num x : x < length num -> nth_error num x = Some (nu num x).
  Proof. intros H. destruct (nth_error_lt num x H) as [o E]. unfold nu. rewrite (nth_error_nth _ _ _ E). auto. Qed.
  Lemma lu_err l x : x < length l -> nth_error l x = Some (lu l x).
  Proof. intros H. destruct (nth_error_lt l x H) as [o E]. unfold lu. rewrite (nth_error_nth _ _ _ E). auto. Qed.

  Lemma SOK_eq num num' low low' par par' base hi st es : (forall x, num' x = num x) -> (forall x, low' x = low x) -> (forall x, par' x = par x) -> SOK num low par base hi st es -> SOK num' low' par' base hi st es.
  Proof. intros H1 H2 H3. apply (SOK_ext num num' low low' par par' hi); auto; intros; rewrite ?H1 in *; auto. Qed.
  Lemma GOK_eq num num' cnt st : (forall x, num' x = num x) -> GOK num cnt st -> GOK num' cnt st.
  Proof.
    intros H HG. split.
    - intros x k. rewrite H. apply HG.
    - intros x y k. rewrite !H. apply HG.
    - intros z kz y E Hn Hy. rewrite H in E. destruct (o_fin _ _ _ HG z kz y E Hn Hy) as (ky & Ey & X). exists ky. rewrite H. split; auto. intros x kx Hx. rewrite H. apply X; auto.
  Qed.
  Lemma comp_eq num num' c comp : (forall x, num' x = num x) -> (forall x k, num x = Some k -> k < c) -> comp_ok num comp -> comp_ok num' comp.
  Proof. intros H H2. apply (comp_ok_ext num num' c); auto; intros; rewrite ?H in *; auto. Qed.

  Definition bnorm (s : bstate) : bstate :=
    match b_stack s with
    | [] => s
    | (x, _) :: _ => mkB (b_stack s) (b_cnt s + 1) (upd (b_num s) x (Some (b_cnt s))) (upd (b_low s) x (b_cnt s)) (b_par s) (b_edges s) (b_comps s)
    end.

  Lemma bstep_norm s : BL s -> BC s -> bstep debug heads s = bstep debug heads (bnorm s).
  Proof.
    intros (L1 & L2 & L3) (_ & _ & x & l & st & Es & Hx & En & _). unfold bstep, bnorm. rewrite Es. cbn [b_stack b_num b_low b_cnt b_par b_edges b_comps].
    rewrite (nu_err (b_num s) x) by lia. rewrite En. cbn [bind]. rewrite !set_at_lt by lia. cbn [bind].
    cbv beta iota. rewrite (nth_error_upd_eq (b_num s) x) by lia. cbn [bind]. cbv beta iota. rewrite ?(nth_error_upd_eq (b_num s) x) by lia. cbn [bind]. reflexivity.
  Qed.
  Lemma norm_BB s : BL s -> BC s -> BL (bnorm s) /\ BB (bnorm s).
  Proof.
    intros (L1 & L2 & L3) (HC & HF & x & l & st & Es & Hx & En & HG & base & HS). unfold bnorm. rewrite Es. split.
    { repeat split; cbn; rewrite ?upd_length; auto. }
    assert (E1 : forall v, nu (upd (b_num s) x (Some (b_cnt s))) v = numb (nu (b_num s)) x (b_cnt s) v) by (intros v; apply nu_upd; lia).
    assert (E2 : forall v, lu (upd (b_low s) x (b_cnt s)) v = updf (lu (b_low s)) x (b_cnt s) v) by (intros v; apply lu_upd; lia).
    unfold BB. cbn [b_stack b_num b_low b_cnt b_par b_edges b_comps]. rewrite Nat.add_1_r. split; [|split].
    - intros y k E. rewrite E1 in E. apply (o_lt _ _ _ HG) in E. tauto.
    - eapply Forall_impl; [|exact HF]. intros c Hc. apply (comp_ok_ext (nu (b_num s)) _ (b_cnt s)); auto.
      + intros y k E. rewrite E1. apply numb_old; auto.
      + intros y k E. rewrite E1 in E. eapply numb_new; eauto.
    - split. { eapply GOK_eq; eauto. } exists base. eapply SOK_eq; eauto.
  Qed.

  Lemma pop_edges_app num wn es rest acc : (forall u1 u2, In (u1, u2) es -> exists k, nth_error num u1 = Some (Some k) /\ wn <= k) ->
    pop_edges num wn (es ++ rest) acc = pop_edges num wn rest (acc ++ es).
  Proof.
    revert acc. induction es as [|[u1 u2] es IH]; intros acc H; cbn [app pop_edges]; [rewrite app_nil_r; auto|].
    destruct (H u1 u2) as (k & E & L); [left; auto|]. rewrite E. cbn [bind]. destruct (Nat.leb_spec wn k); [|lia].
    rewrite IH; [|intros; apply (H u0 u3); right; auto]. rewrite <- app_assoc. auto.
  Qed.

  (** the measure *)
  Definition smeas (st : list (nat * list nat)) : N := fold_right (fun e a => (1 + N.of_nat (length (snd e)) + a)%N) 0%N st.
  Definition wmeas (num : nat -> option nat) (top : option nat) (v : nat) : N :=
    match num v with Some _ => 0%N | None => if match top with Some t => v =? t | None => false end then 0%N else (1 + N.of_nat (length (hs v)))%N end.
  Definition bmeas (s : bstate) : N := (smeas (b_stack s) + sumN n (wmeas (nu (b_num s)) (option_map fst (hd_error (b_stack s)))))%N.

  Lemma norm_meas s : BL s -> BC s -> bmeas (bnorm s) = bmeas s.
  Proof.
    intros (L1 & L2 & L3) (HC & HF & x & l & st & Es & Hx & En & HG & base & HS). unfold bmeas, bnorm. rewrite Es. cbn [b_stack b_num hd_error option_map fst]. f_equal.
    apply sumN_ext. intros v Hv. unfold wmeas. rewrite nu_upd by lia. unfold numb. destruct (Nat.eqb_spec v x) as [->|]; auto. rewrite En. auto.
  Qed.

  (** what a step preserves *)
  Definition keeps (s s' : bstate) : Prop :=
    (forall v k, nu (b_num s) v = Some k -> nu (b_num s') v = Some k) /\ (b_comps s <> [] -> b_comps s' <> []) /\ (b_stack s' = [] -> b_comps s' <> []).

  Lemma top_meas num x : (forall t, num t <> None -> True) -> num x <> None -> forall v, wmeas num (Some x) v = wmeas num None v.
  Proof. intros _ H v. unfold wmeas. destruct (num v) eqn:E; auto. destruct (Nat.eqb_spec v x); auto. subst. congruence. Qed.

  Lemma sum_top num x y : num x <> None -> num y <> None -> sumN n (wmeas num (Some x)) = sumN n (wmeas num (Some y)).
  Proof. intros H1 H2. apply sumN_ext. intros v _. rewrite !top_meas; auto. Qed.
  Lemma sum_none num x : num x <> None -> sumN n (wmeas num (Some x)) = sumN n (wmeas num None).
  Proof. intros H1. apply sumN_ext. intros v _. rewrite !top_meas; auto. Qed.

  (** parts of the stack invariant *)
  Lemma SOK_top num low par base hi x l st es : SOK num low par base hi ((x, l) :: st) es -> exists k es0, SEG num low par base x l k hi es0 /\ base <= k.
  Proof.
    intros HS. inversion HS as [? ? ? Hp HG|? ? ? y l' st' k es0 es' Hp Hne Hch HG HS']; subst.
    - exists base, []. auto.
    - exists k, es0. split; auto. destruct (g_low _ _ _ _ _ _ _ _ _ HG). lia.
  Qed.
  Lemma SOK_pars num low par base hi st es : SOK num low par base hi st es -> forall x l, In (x, l) st -> par x < n.
  Proof.
    induction 1 as [hi x l Hp HG|hi x l y l' st k es es' Hp Hne Hch HG HS IH]; intros z lz Hz.
    - destruct Hz as [[= <- <-]|[]]. rewrite Hp. apply HG.
    - destruct Hz as [[= <- <-]|Hz]; eauto. rewrite Hp. apply (SOK_bounds _ _ _ _ _ _ _ HS y l'). left; auto.
  Qed.

  Lemma SOK_inv num low par base hi x l st es : SOK num low par base hi ((x, l) :: st) es ->
    (st = [] /\ es = [] /\ par x = x /\ SEG num low par base x l base hi []) \/
    exists l' st' k es0 es', st = (par x, l') :: st' /\ es = es0 ++ (par x, x) :: es' /\ x <> par x /\ In x (hs (par x)) /\
      SEG num low par base x l k hi es0 /\ SOK num low par base k ((par x, l') :: st') es'.
  Proof.
    intros HS. inversion HS as [? ? ? Hp HG|? ? ? y l' st' k es0 es' Hp Hne Hch HG HS']; subst; [left; auto|right].
    exists l', st', k, es0, es'. auto 10.
  Qed.

  Lemma bstep_BB s x l st : BL s -> BB s -> b_stack s = (x, l) :: st ->
    exists s', bstep debug heads s = Some (inl s') /\ BL s' /\ (BB s' \/ BC s') /\ keeps s s' /\ (bmeas s' < bmeas s)%N.
  Proof.
    intros (L1 & L2 & L3) HB Es. unfold BB in HB. rewrite Es in HB. destruct HB as (HC & HF & HG & base & HS).
    destruct (SOK_top _ _ _ _ _ _ _ _ _ HS) as (kx & es0 & HX & Hbk).
    assert (Hx : x < n) by apply HX. pose proof (g_num _ _ _ _ _ _ _ _ _ HX) as Ex.
    assert (Hpx : lu (b_par s) x < n). { eapply (SOK_pars _ _ _ _ _ _ _ HS x l). left; auto. }
    unfold bstep. rewrite Es. rewrite (nu_err (b_num s) x) by lia. rewrite Ex. cbn [bind]. destruct l as [|z l].
    - (* pop *) rewrite (lu_err (b_par s) x) by lia. cbn [bind]. set (v := lu (b_par s) x) in *. rewrite (lu_err (b_low s) v), (lu_err (b_low s) x) by lia. cbn [bind]. rewrite set_at_lt by lia. cbn [bind].
      set (low' := upd (b_low s) v (Nat.min (lu (b_low s) v) (lu (b_low s) x))).
      assert (EL : forall w, lu low' w = updf (lu (b_low s)) v (Nat.min (lu (b_low s) v) (lu (b_low s) x)) w) by (intros w; apply lu_upd; lia).
      rewrite (nu_err (b_num s) v) by lia. cbn [bind].
      assert (Hlw : lu low' x = lu (b_low s) x). { rewrite EL. unfold updf. destruct (Nat.eqb_spec x v) as [Exv|]; auto. rewrite <- Exv. lia. }
      rewrite (lu_err low' x) by (unfold low'; rewrite upd_length; lia). rewrite Hlw. cbn [bind].
      destruct (SOK_inv _ _ _ _ _ _ _ _ _ HS) as [(E2 & E3 & Hp & HGx)|(l' & st' & k & es1 & es' & E2 & E3 & Hne & Hch & HGx & HS')]; symmetry in E2, E3.
      + (* root *) fold v in Hp. rewrite Hp, Ex. subst st. cbn [bind]. assert (kx = base). { pose proof (g_num _ _ _ _ _ _ _ _ _ HGx). congruence. } subst kx.
        destruct (Nat.leb_spec base (lu (b_low s) x)) as [Lb|Lb]; [|destruct (g_low _ _ _ _ _ _ _ _ _ HGx); lia].
        rewrite (nu_err (b_num s) x), Ex by lia. cbn [bind]. rewrite <- E3. cbn [pop_edges bind]. eexists; split; [reflexivity|]. split. { unfold BL, low'; cbn; rewrite ?upd_length; auto. }
        split. { left. split; [|split]; cbn [b_num b_cnt b_comps b_stack b_edges]; auto.
          - apply Forall_app. split; auto. constructor; auto. split; auto. intros w Hw. destruct (ends_nil _ Hw).
          - split; auto. eapply GOK_pop; eauto. intros y ky []. }
        split. { split; [|split]; cbn [b_num b_comps b_stack]; auto; intros; intros E; apply app_eq_nil in E; destruct E; discriminate. }
        unfold bmeas. cbn [b_stack b_num]. rewrite Es. cbn [hd_error option_map fst smeas fold_right]. rewrite (sum_none _ x) by congruence. lia.
      + (* child *) fold v in Hne, Hch, HS', E2, E3. subst st. cbn [map fst] in HG. assert (Hvs : In (v, l') ((v, l') :: st')) by (left; auto).
        destruct (SOK_bounds _ _ _ _ _ _ _ HS' v l' Hvs) as (Hvn & kv & Ev & Hkv). rewrite Ev. cbn [bind].
        assert (k = kx). { pose proof (g_num _ _ _ _ _ _ _ _ _ HGx). congruence. } subst k.
        assert (Hst : forall y ky, In y (map fst ((v, l') :: st')) -> nu (b_num s) y = Some ky -> ky < kx).
        { intros y ky Hy Ey. apply in_map_iff in Hy. destruct Hy as ([y' ly] & <- & Hy). destruct (SOK_bounds _ _ _ _ _ _ _ HS' y' ly Hy) as (_ & k' & E' & Hk'). cbn [fst] in Ey. assert (ky = k') by congruence. lia. }
        assert (HGp : GOK (nu (b_num s)) (b_cnt s) (v :: map fst st')).
        { eapply GOK_pop; eauto. intros Hi. specialize (Hst x kx Hi Ex). lia. }
        assert (Hst2 : forall z kz, In z (map fst st') -> nu (b_num s) z = Some kz -> kz < kv).
        { intros y ky Hy Ey. apply in_map_iff in Hy. destruct Hy as ([y' ly] & <- & Hy). cbn [fst] in Ey.
          inversion HS' as [? ? ? Hp2 HGy F1 F2 F3|? ? ? y2 l2 st2 k2 es2 es2' Hp2 Hne2 Hch2 HGy HS2 F1 F2 F3]; subst; [destruct Hy|].
          destruct (SOK_bounds _ _ _ _ _ _ _ HS2 y' ly Hy) as (_ & k' & E' & Hk'). assert (ky = k') by congruence. pose proof (g_num _ _ _ _ _ _ _ _ _ HGy). assert (kv = k2) by congruence. lia. }
        assert (HK : keeps s (mkB ((v, l') :: st') (b_cnt s) (b_num s) low' (b_par s) (b_edges s) (b_comps s))). { split; [|split]; cbn; auto. discriminate. }
        assert (HM : forall es cs, (bmeas (mkB ((v, l') :: st') (b_cnt s) (b_num s) low' (b_par s) es cs) < bmeas s)%N).
        { intros es cs. unfold bmeas. cbn [b_stack b_num]. rewrite Es. cbn [hd_error option_map fst smeas fold_right]. rewrite (sum_top _ x v) by congruence. cbn [snd length]. lia. }
        assert (HLn : forall es cs, BL (mkB ((v, l') :: st') (b_cnt s) (b_num s) low' (b_par s) es cs)). { intros. unfold BL, low'; cbn; rewrite ?upd_length; auto. }
        destruct (Nat.leb_spec kv (lu (b_low s) x)) as [Le|Le].
        * (* emission *) rewrite (nu_err (b_num s) x), Ex by lia. cbn [bind]. rewrite <- E3, pop_edges_app.
          2: { intros u1 u2 Hu. destruct (g_es _ _ _ _ _ _ _ _ _ HGx u1 u2 Hu) as (A1 & A2 & k1 & k2 & A3 & A4 & _). exists k1. rewrite (nu_err (b_num s) u1) by lia. rewrite A3. split; auto. lia. }
          cbn [app pop_edges]. rewrite (nu_err (b_num s) v), Ev by lia. cbn [bind]. destruct (Nat.leb_spec kx kv); [lia|]. cbn [bind fst snd]. rewrite !Nat.eqb_refl, orb_true_r. cbn [guard bind].
          eexists; split; [reflexivity|]. 
          assert (HCl : closed (nu (b_num s)) v kx (b_cnt s)). { eapply closed_emit; eauto; lia. }
          split; auto. split.
          { left. split; [|split]; cbn [b_num b_cnt b_comps b_stack b_edges b_low b_par]; auto.
            - apply Forall_app. split; auto. constructor; auto. eapply comp_emit; eauto; lia.
            - split; auto. exists base. eapply (SOK_eq (nu (b_num s)) _ (updf (lu (b_low s)) v (Nat.min (lu (b_low s) v) (lu (b_low s) x)))); [reflexivity|exact EL|reflexivity|].
              inversion HS' as [? ? ? Hp2 HGy F1 F2 F3|? ? ? y2 l2 st2 k2 es2 es2' Hp2 Hne2 Hch2 HGy HS2 F1 F2 F3]; subst.
              + apply S_root; auto. eapply SEG_emit; eauto. { assert (kv = base); [|lia]. pose proof (g_num _ _ _ _ _ _ _ _ _ HGy). congruence. }
              + assert (kv = k2). { pose proof (g_num _ _ _ _ _ _ _ _ _ HGy). congruence. } subst k2. eapply S_push with (k := kv); eauto. { eapply SEG_emit; eauto. }
                eapply (SOK_ext (nu (b_num s)) (nu (b_num s)) (lu (b_low s)) _ _ _ kv); eauto. intros w lw Hw. split; auto. unfold updf.
                destruct (SOK_bounds _ _ _ _ _ _ _ HS2 w lw Hw) as (_ & kw & E & Hkw). destruct (Nat.eqb_spec w v) as [->|]; auto. assert (kw = kv) by congruence. lia. }
          split; auto. split; [|split]; cbn; auto; try discriminate. intros _ E. apply app_eq_nil in E. destruct E; discriminate.
        * (* merge *) eexists; split; [reflexivity|]. split; auto. split; [|split; auto].
          left. split; [|split]; cbn [b_num b_cnt b_comps b_stack b_edges b_low b_par]; auto. split; auto. exists base.
          eapply (SOK_eq (nu (b_num s)) _ (updf (lu (b_low s)) v (Nat.min (lu (b_low s) v) (lu (b_low s) x)))); [reflexivity|exact EL|reflexivity|].
          inversion HS' as [? ? ? Hp2 HGy F1 F2 F3|? ? ? y2 l2 st2 k2 es2 es2' Hp2 Hne2 Hch2 HGy HS2 F1 F2 F3]; subst.
          { exfalso. pose proof (g_num _ _ _ _ _ _ _ _ _ HGy). assert (kv = base) by congruence. destruct (g_low _ _ _ _ _ _ _ _ _ HGx). lia. }
          assert (kv = k2). { pose proof (g_num _ _ _ _ _ _ _ _ _ HGy). congruence. } subst k2.
          rewrite <- E3. rewrite app_comm_cons, app_assoc. eapply S_push with (k := kv); eauto. { eapply SEG_merge; eauto. }
          eapply (SOK_ext (nu (b_num s)) (nu (b_num s)) (lu (b_low s)) _ _ _ kv); eauto. intros w lw Hw. split; auto. unfold updf.
          destruct (SOK_bounds _ _ _ _ _ _ _ HS2 w lw Hw) as (_ & kw & E & Hkw). destruct (Nat.eqb_spec w v) as [->|]; auto. assert (kw = kv) by congruence. lia.
    - (* next neighbour *)
      assert (Hz : In z (hs x)). { destruct (g_suf _ _ _ _ _ _ _ _ _ HX) as (pre & -> & _). apply in_elt. }
      assert (Hzn : z < n). { pose proof (Hlt x Hx) as F. rewrite Forall_forall in F. auto. }
      rewrite (nu_err (b_num s) z) by lia. cbn [bind].
      assert (HM : forall low es, (bmeas (mkB ((x, l) :: st) (b_cnt s) (b_num s) low (b_par s) es (b_comps s)) < bmeas s)%N).
      { intros. unfold bmeas. cbn [b_stack b_num]. rewrite Es. cbn [hd_error option_map fst smeas fold_right snd length]. lia. }
      assert (HK : forall low es, keeps s (mkB ((x, l) :: st) (b_cnt s) (b_num s) low (b_par s) es (b_comps s))). { intros. split; [|split]; cbn; auto. discriminate. }
      destruct (nu (b_num s) z) as [kz|] eqn:Ez.
      + rewrite (nu_err (b_num s) x), Ex by lia. cbn [bind]. rewrite (lu_err (b_par s) x) by lia. cbn [bind].
        destruct ((kz <? kx) && negb (z =? lu (b_par s) x)) eqn:Eb.
        * apply andb_true_iff in Eb. destruct Eb as [Eb1 Eb2]. apply Nat.ltb_lt in Eb1. rewrite (lu_err (b_low s) x) by lia. cbn [bind]. rewrite set_at_lt by lia. cbn [bind].
          eexists; split; [reflexivity|]. split. { unfold BL; cbn; rewrite ?upd_length; auto. } split; [|split; auto].
          left. split; [|split]; cbn [b_num b_cnt b_comps b_stack b_edges b_low b_par]; auto. split; auto. exists base.
          assert (Hon : In z (x :: map fst st)). { apply (on_stack _ _ _ x kx z kz HG); auto. left; auto. }
          assert (Hbz : base <= kz). { destruct Hon as [->|Hon]. { assert (kz = kx) by congruence. lia. } apply in_map_iff in Hon. destruct Hon as ([y' ly] & <- & Hy).
            destruct (SOK_bounds _ _ _ _ _ _ _ HS y' ly) as (_ & k' & E' & Hk'); [right; auto|]. cbn [fst] in Ez. assert (kz = k') by congruence. lia. }
          eapply (SOK_eq (nu (b_num s)) _ (updf (lu (b_low s)) x (Nat.min (lu (b_low s) x) kz))); [reflexivity|intros w; apply lu_upd; lia|reflexivity|].
          eapply T_back; eauto.
        * eexists; split; [reflexivity|]. split. { repeat split; cbn; auto. } split; [|split; auto].
          left. split; [|split]; cbn [b_num b_cnt b_comps b_stack b_edges b_low b_par]; auto. split; auto. exists base.
          eapply SOK_read; eauto. apply andb_false_iff in Eb. destruct Eb as [Eb|Eb].
          { left. apply Nat.ltb_ge in Eb. destruct (g_low _ _ _ _ _ _ _ _ _ HX). lia. } right. apply negb_false_iff, Nat.eqb_eq in Eb. auto.
      + rewrite set_at_lt by lia. cbn [bind]. rewrite (Hheads z Hzn). cbn [bind]. eexists; split; [reflexivity|].
        split. { unfold BL; cbn; rewrite ?upd_length; auto. }
        destruct (T_child _ _ _ _ _ _ _ _ _ _ HS HG Hzn Ez) as [HS' HG'].
        split. { right. split; [|split]; cbn [b_num b_cnt b_comps b_stack b_edges b_low b_par]; auto. exists z, (hs z), ((x, l) :: st). split; auto. split; auto. split; auto. split; auto. exists base.
          eapply SOK_eq; [| | |exact HS']; auto. intros w. apply lu_upd. lia. }
        split. { split; [|split]; cbn; auto. discriminate. }
        unfold bmeas. cbn [b_stack b_num]. rewrite Es. cbn [hd_error option_map fst smeas fold_right snd length].
        pose proof (sumN_change n (wmeas (nu (b_num s)) (Some z)) (wmeas (nu (b_num s)) (Some x)) z Hzn) as SC.
        assert (W1 : wmeas (nu (b_num s)) (Some z) z = 0%N). { unfold wmeas. rewrite Ez, Nat.eqb_refl. auto. }
        assert (W2 : wmeas (nu (b_num s)) (Some x) z = (1 + N.of_nat (length (hs z)))%N). { unfold wmeas. rewrite Ez. destruct (Nat.eqb_spec z x); [congruence|auto]. }
        assert (X : forall j, j <> z -> wmeas (nu (b_num s)) (Some z) j = wmeas (nu (b_num s)) (Some x) j).
        { intros j Hj. unfold wmeas. destruct (nu (b_num s) j) eqn:Ej; auto. destruct (Nat.eqb_spec j z); [congruence|]. destruct (Nat.eqb_spec j x); [congruence|auto]. }
        specialize (SC X). lia.
  Qed.

  Lemma bstep_any s : BL s -> (BB s \/ BC s) -> b_stack s <> [] ->
    exists s', bstep debug heads s = Some (inl s') /\ BL s' /\ (BB s' \/ BC s') /\ keeps s s' /\ (bmeas s' < bmeas s)%N /\ (forall x, option_map fst (hd_error (b_stack s)) = Some x -> nu (b_num s') x <> None).
  Proof.
    intros HL [HB|HB] Hne.
    - destruct (b_stack s) as [|[x l] st] eqn:Es; [congruence|]. destruct (bstep_BB s x l st HL HB Es) as (s' & E & H1 & H2 & H3 & H4). exists s'. repeat (split; [auto; fail|]).
      cbn. intros y [= <-]. unfold BB in HB. rewrite Es in HB. destruct HB as (_ & _ & _ & base & HS). destruct (SOK_bounds _ _ _ _ _ _ _ HS x l) as (_ & k & Ek & _); [left; auto|].
      destruct H3 as [H3 _]. rewrite (H3 x k Ek). discriminate.
    - destruct (norm_BB s HL HB) as [HL' HB']. pose proof (norm_meas s HL HB) as EM. pose proof (bstep_norm s HL HB) as EN.
      pose proof HB as (_ & _ & x & l & st & Es & Hx & En & _).
      assert (Es' : b_stack (bnorm s) = (x, l) :: st). { unfold bnorm. rewrite Es. auto. }
      assert (En' : forall v, nu (b_num (bnorm s)) v = numb (nu (b_num s)) x (b_cnt s) v). { intros v. unfold bnorm. rewrite Es. cbn [b_num]. apply nu_upd. destruct HL as [-> _]. auto. }
      assert (Ec' : b_comps (bnorm s) = b_comps s). { unfold bnorm. rewrite Es. auto. }
      destruct (bstep_BB (bnorm s) x l st HL' HB' Es') as (s' & E & H1 & H2 & (K1 & K2 & K3) & H4). exists s'. rewrite EN. repeat (split; [auto; fail|]).
      rewrite Ec' in K2. split. { split; [|split]; auto. intros v k Hv. apply K1. rewrite En'. apply numb_old; auto. }
      rewrite <- EM. split; auto. rewrite Es. cbn. intros y [= <-]. rewrite (K1 x (b_cnt s)); [discriminate|]. rewrite En'. unfold numb. rewrite Nat.eqb_refl. auto.
  Qed.

  Lemma bloop_ok s0 fuel x l : BL s0 -> (BB s0 \/ BC s0) -> b_stack s0 = [(x, l)] -> (bmeas s0 < fuel)%N ->
    exists s, loopN fuel (bstep debug heads) s0 = Some s /\ BL s /\ BB s /\ b_stack s = [] /\ b_comps s <> [] /\
      (forall v k, nu (b_num s0) v = Some k -> nu (b_num s) v = Some k) /\ nu (b_num s) x <> None.
  Proof.
    intros HL HB Es HM.
    destruct (loopN_ghost (bstep debug heads)
      (fun g s => g = s /\ BL s /\ (BB s \/ BC s) /\ (b_stack s = [] -> b_comps s <> []) /\ (forall v k, nu (b_num s0) v = Some k -> nu (b_num s) v = Some k) /\
        (nu (b_num s) x <> None \/ option_map fst (hd_error (b_stack s)) = Some x))
      (fun s => BL s /\ BB s /\ b_stack s = [] /\ b_comps s <> [] /\ (forall v k, nu (b_num s0) v = Some k -> nu (b_num s) v = Some k) /\ nu (b_num s) x <> None)
      bmeas fuel s0 s0) as (r & E & HQ).
    - intros g s (-> & A1 & A2 & A3 & A4 & A5). destruct (b_stack s) as [|[y ly] st] eqn:Ek.
      + assert (A2' : BB s). { destruct A2 as [|(_ & _ & x' & l' & st' & E' & _)]; auto. congruence. }
        unfold bstep. rewrite Ek. eexists; split; [reflexivity|]. cbn beta iota. repeat (split; [auto; fail|]). destruct A5 as [|A5]; auto. discriminate.
      + destruct (bstep_any s A1 A2) as (s' & E & B1 & B2 & (K1 & K2 & K3) & B4 & B5); [congruence|]. rewrite E. eexists; split; [reflexivity|]. exists s'. split; auto.
        repeat (split; [auto; fail|]). left. rewrite Ek in B5. destruct A5 as [A5|A5]; auto. destruct (nu (b_num s) x) as [k|] eqn:Ex; [|congruence]. rewrite (K1 x k Ex). discriminate.
    - split; auto. repeat (split; [auto; fail|]). split. { rewrite Es. discriminate. } split; auto. right. rewrite Es. auto.
    - auto.
    - exists r. tauto.
  Qed.

  Definition bsum : N := sumN n (fun v => (1 + N.of_nat (length (hs v)))%N).

  (** outside a component, every node lies in a region that touches the component in at most one node *)
  Definition region_of (K : nat -> Prop) (x : nat) : Prop :=
    exists (P : nat -> Prop) c, P x /\ forall y z, y < n -> P y -> ~ K y -> In z (hs y) -> (K z /\ z = c) \/ (~ K z /\ P z).
  Definition comp_good (comp : list (nat * nat)) : Prop := (forall x, ends comp x -> x < n) /\ forall x, x < n -> ~ ends comp x -> region_of (ends comp) x.

  Lemma ends_dec es x : ends es x \/ ~ ends es x.
  Proof.
    destruct (existsb (fun e => (x =? fst e) || (x =? snd e)) es) eqn:E; [left|right].
    - apply existsb_exists in E. destruct E as (e & He & Hx). exists e. split; auto. apply orb_true_iff in Hx. rewrite !Nat.eqb_eq in Hx. auto.
    - intros (e & He & Hx). assert (X : existsb (fun e => (x =? fst e) || (x =? snd e)) es = true); [|congruence]. apply existsb_exists. exists e. split; auto. apply orb_true_iff. rewrite !Nat.eqb_eq. auto.
  Qed.

  Lemma comp_region num comp : (forall v, v < n -> num v <> None) -> (forall v k, num v = Some k -> v < n) -> comp_ok num comp -> comp_good comp.
  Proof.
    intros HA HL (HE & HC). split; auto. intros x Hx Hnx. destruct HC as [->|(v & w & a & b & A1 & A2 & AW & AW' & A3 & A4 & A5)].
    { exists (fun _ => True), 0. split; auto. intros y z _ _ _ _. right. split; auto. apply ends_nil. }
    destruct (num x) as [kx|] eqn:Ex; [|destruct (HA x Hx Ex)].
    assert (Hs : forall y z, y < n -> In z (hs y) -> z < n). { intros y z Hy Hz. pose proof (Hlt y Hy) as F. rewrite Forall_forall in F. auto. }
    destruct (Nat.le_gt_cases a kx) as [La|La], (Nat.lt_ge_cases kx b) as [Lb|Lb].
    1: { destruct (A5 x kx Hx Ex) as [|(v' & a' & b' & B1 & B2 & B3 & B4 & B5 & B6)]; [auto|tauto|].
      exists (fun y => exists k, num y = Some k /\ a' <= k < b'), v'. split; eauto.
      intros y z Hy (ky & Ey & Hk) _ Hz. destruct (B4 y ky z Hy Ey Hk Hz) as (kz & Ez & [Hkz| ->]); auto. right. split; eauto. intros Kz. apply (B6 z kz Kz Ez Hkz). }
    all: assert (G : region_of (ends comp) x); [|exact G]; exists (fun y => forall k, num y = Some k -> ~ a <= k < b), v;
      (split; [intros k E; assert (k = kx) by congruence; lia|]);
      intros y z Hy Py Ky Hz; assert (Hz' : z < n) by eauto; destruct (num z) as [kz|] eqn:Ez; [|destruct (HA z Hz' Ez)];
      assert (Nz : ~ a <= kz < b) by
        (intros Hkz; destruct (A1 z kz y Hz' Ez Hkz) as (ky & Ey & [Hky| ->]); [apply Hsym; auto|apply (Py ky Ey Hky)|tauto]);
      (destruct (ends_dec comp z) as [Kz|Kz]; [left; split; auto; destruct (A3 z Kz) as [|(k & Ek & Hk)]; auto; exfalso; apply Nz; congruence|
        right; split; auto; intros k E; congruence]).
  Qed.

  Lemma bsum_bound s x : b_stack s = [(x, hs x)] -> x < n -> nu (b_num s) x = None -> (bmeas s <= bsum)%N.
  Proof.
    intros Es Hx En. unfold bmeas, bsum. rewrite Es. cbn [smeas fold_right hd_error option_map fst snd].
    set (f := fun v => if v =? x then 0%N else (1 + N.of_nat (length (hs v)))%N).
    pose proof (sumN_change n f (fun v => (1 + N.of_nat (length (hs v)))%N) x Hx) as SC. cbv beta in SC.
    assert (X : f x = 0%N) by (unfold f; rewrite Nat.eqb_refl; auto). rewrite X in SC.
    assert (Y : (sumN n (wmeas (nu (b_num s)) (Some x)) <= sumN n f)%N). { apply sumN_le. intros i _. unfold wmeas, f. destruct (nu (b_num s) i); destruct (i =? x); lia. }
    assert (Z : forall j, j <> x -> f j = (1 + N.of_nat (length (hs j)))%N). { intros j Hj. unfold f. destruct (Nat.eqb_spec j x); [lia|auto]. }
    specialize (SC Z). lia.
  Qed.

  Theorem biconnected_ok fuel : (bsum < fuel)%N ->
    exists comps, biconnected debug n fuel heads = Some comps /\ (0 < n -> comps <> []) /\ Forall comp_good comps.
  Proof.
    intros Hf.
    destruct (foldM_inv (broot debug fuel heads) (fun pre s => BL s /\ BB s /\ b_stack s = [] /\ (pre <> [] -> b_comps s <> []) /\ (forall v k, nu (b_num s) v = Some k -> b_comps s <> []) /\ forall v, In v pre -> nu (b_num s) v <> None)
      (seq 0 n) (mkB [] 0 (repeat None n) (repeat 0 n) (repeat 0 n) [] [])) as (s & E & HL & HB & Es & Hc & _ & HV).
    - assert (N0 : forall v, nu (repeat None n) v = None). { intros v. unfold nu. apply nth_repeat. }
      split. { unfold BL; cbn; rewrite !repeat_length; auto. } split.
      { unfold BB. cbn [b_num b_cnt b_comps b_stack b_edges]. split; [intros x k; rewrite N0; discriminate|]. split; auto. split; auto. split; intros *; rewrite ?N0; discriminate. }
      split; auto. split; [congruence|]. cbn [b_num]. split; [|intros v []]. intros v k. rewrite N0. discriminate.
    - intros pre x post s Eq (HL & HB & Es & H1 & H2 & HV).
      assert (Hx : x < n). { assert (In x (seq 0 n)) by (rewrite Eq; apply in_elt). apply in_seq in H. lia. }
      unfold broot. rewrite (nu_err (b_num s) x) by (destruct HL as [-> _]; auto). cbn [bind]. destruct (nu (b_num s) x) as [k|] eqn:Ex.
      { exists s. split; auto. repeat (split; [auto; fail|]). split. { intros _. eauto. } split; auto. intros v Hv. apply in_app_or in Hv. destruct Hv as [Hv|[<-|[]]]; auto. congruence. }
      pose proof HB as HB'. unfold BB in HB'. rewrite Es in HB'. destruct HB' as (HC & HF & Ee & HG).
      rewrite Ee, Es, orb_true_r. cbn [guard bind]. pose proof HL as (L1 & L2 & L3). rewrite set_at_lt by lia. cbn [bind]. rewrite (Hheads x Hx). cbn [bind].
      set (s0 := mkB [(x, hs x)] (b_cnt s) (b_num s) (b_low s) (upd (b_par s) x x) [] (b_comps s)).
      destruct (bloop_ok s0 fuel x (hs x)) as (s' & E & B1 & B2 & B3 & B4 & B5 & B6).
      + unfold BL, s0; cbn. rewrite upd_length; auto.
      + right. unfold BC, s0. cbn [b_num b_cnt b_comps b_stack b_edges b_low b_par]. split; auto. split; auto. exists x, (hs x), []. split; auto. split; auto. split; auto.
        destruct (T_root (nu (b_num s)) (lu (b_low s)) (lu (upd (b_par s) x x)) (b_cnt s) x) as [T1 T2]; auto. { rewrite lu_upd by lia. unfold updf. rewrite Nat.eqb_refl; auto. } split; auto. exists (b_cnt s). auto.
      + auto.
      + pose proof (bsum_bound s0 x eq_refl Hx Ex). lia.
      + exists s'. split; auto. repeat (split; [auto; fail|]). intros v Hv. apply in_app_or in Hv. destruct Hv as [Hv|[<-|[]]]; auto.
        specialize (HV v Hv). destruct (nu (b_num s) v) as [k|] eqn:Ev; [|congruence]. rewrite (B5 v k Ev). discriminate.
    - unfold biconnected. rewrite E. cbn [bind]. exists (b_comps s). split; auto. split. { intros Hn. apply Hc. destruct n; [lia|discriminate]. }
      unfold BB in HB. rewrite Es in HB. destruct HB as (_ & HF & _ & HG). eapply Forall_impl; [|exact HF]. intros c. apply comp_region.
      + intros v Hv. apply HV. apply in_seq. lia.
      + intros v k Ev. apply (o_lt _ _ _ HG v k Ev).
  Qed.
End Tarjan.
