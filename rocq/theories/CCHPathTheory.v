(** Order theory for path unpacking: unpacking the arcs of a best up-down path completely gives a simple path.
    Nothing here models code. *)
From Verif Require Import Base SpecGraph CCHTheory.

Lemma flip_closed A : tri_closed A -> tri_closed (flip_arc A).
Proof.
  intros [H1 H2]. split. { intros x w H. apply (H1 x w H). }
  intros x z y w1 w2 L1 L2 Ne A1 A2. unfold flip_arc in *. destruct (H2 y z x w2 w1) as (w & A3 & L3); auto. exists w. split; [auto|lia].
Qed.
Lemma flip_rest P A x y w : flip_arc (rest P A) x y w <-> rest P (flip_arc A) x y w.
Proof. unfold flip_arc, rest. tauto. Qed.
Lemma walk_flip_rest P A x y l : walk (rest P A) x y l <-> walk (rest P (flip_arc A)) y x l.
Proof. rewrite walk_flip_iff. split; apply walk_mono; intros; apply flip_rest; auto. Qed.

Section Low2.
  Variable A : nat -> nat -> N -> Prop.
  Hypothesis HA : tri_closed A.

  (** the same as low_triangle, for a first part that is a walk, too *)
  Lemma low_triangle2 B x q y a b : B <= x -> B <= y -> q < B ->
    walk (rest (fun u => u = x \/ u < B) A) x q a -> walk (rest (fun u => u = y \/ u < B) A) q y b ->
    exists z w1 w2, z < B /\ A x z w1 /\ A z y w2 /\ (w1 + w2 <= a + b)%N.
  Proof using HA.
    intros Bx By Hq H1 H2. apply walk_flip_rest in H1.
    destruct (up_to (flip_arc A) (flip_closed A HA) (fun u => u = x \/ u < B) q x a ltac:(intros u [->|Hu]; lia) H1) as (a' & Hu & La).
    destruct (walk_last _ _ _ _ Hu) as [[-> _]|(p & l1 & w1 & Hp & [L2 (P2 & _ & A2)] & ->)]; [lia|].
    assert (Lp : p < B) by (destruct P2; lia).
    assert (Wp : walk (rest (fun u => u = y \/ u < B) A) p q l1).
    { apply walk_flip_rest. assert (G : forall u v l, walk (upa (rest (fun u => u = x \/ u < B) (flip_arc A))) u v l -> v < B -> walk (rest (fun u => u = y \/ u < B) (flip_arc A)) u v l).
      { induction 1 as [u|u u' v w l [L (Q1 & Q2 & Q3)] Hw IH]; intros Hv; [constructor|]. pose proof (upa_le _ _ _ _ Hw). econstructor; [|apply IH; auto]. split; [right; lia|]. split; [right; lia|auto]. }
      apply G; auto. }
    destruct (low_triangle A HA B x p y w1 (l1 + b)%N) as (z & v1 & v2 & Lz & B1 & B2 & L3); auto. { eapply walk_app; eauto. }
    exists z, v1, v2. split; [auto|]. split; [auto|]. split; [auto|lia].
  Qed.
End Low2.

Lemma NoDup_app_iff {T} (l1 l2 : list T) : NoDup (l1 ++ l2) <-> NoDup l1 /\ NoDup l2 /\ (forall x, In x l1 -> ~ In x l2).
Proof.
  induction l1 as [|a l1 IH]; cbn [app].
  - split; [intros H; split; [constructor|]; split; [auto|intros ? []]|tauto].
  - rewrite !NoDup_cons_iff, IH, in_app_iff. split.
    + intros (H1 & H2 & H3 & H4). split; [split; [tauto|auto]|]. split; [auto|]. intros x [<-|Hx]; [tauto|auto].
    + intros ((H1 & H2) & H3 & H4). split; [intros [H|H]; [auto|apply (H4 a); [left|]; auto]|]. split; [auto|]. split; [auto|]. intros x Hx. apply H4. right; auto.
Qed.

(** [un x y (Some z)]: the arc from [x] to [y] stands for the arcs by way of [z]; [None]: it is an original arc. *)
Record unpacking (A : nat -> nat -> N -> Prop) (un : nat -> nat -> option nat -> Prop) : Prop := {
  un_tri : tri_closed A;
  un_fun : forall x y w w', A x y w -> A x y w' -> w = w';
  un_mid : forall x y w z, A x y w -> un x y (Some z) -> z < x /\ z < y /\ (exists w1 w2, A x z w1 /\ A z y w2 /\ w = (w1 + w2)%N) /\
    forall z' w1 w2, z' < z -> A x z' w1 -> A z' y w2 -> (w < w1 + w2)%N }.
Arguments un_tri {A un}. Arguments un_fun {A un}. Arguments un_mid {A un}.

(** [l] lists the inner nodes of the complete unpacking *)
Inductive expand (A : nat -> nat -> N -> Prop) (un : nat -> nat -> option nat -> Prop) : nat -> nat -> list nat -> Prop :=
| ex_orig x y w : A x y w -> un x y None -> expand A un x y []
| ex_mid x y w z l1 l2 : A x y w -> un x y (Some z) -> expand A un x z l1 -> expand A un z y l2 -> expand A un x y (l1 ++ z :: l2).

Lemma unpacking_flip A un : unpacking A un -> unpacking (flip_arc A) (fun x y => un y x).
Proof.
  intros [H1 H2 H3]. constructor. { apply flip_closed; auto. } { intros x y w w'. apply H2. }
  intros x y w z Ha Hu. destruct (H3 y x w z Ha Hu) as (L1 & L2 & (w1 & w2 & A1 & A2 & E) & K). split; [auto|]. split; [auto|]. split.
  - exists w2, w1. split; [exact A2|]. split; [exact A1|lia].
  - intros z' v1 v2 L B1 B2. rewrite N.add_comm. eapply K; eauto.
Qed.
Lemma expand_flip A un x y l : expand A un x y l -> expand (flip_arc A) (fun x y => un y x) y x (rev l).
Proof.
  induction 1 as [x y w Ha Hu|x y w z l1 l2 Ha Hu H1 IH1 H2 IH2]. { eapply ex_orig; eauto. }
  rewrite rev_app_distr. cbn [rev]. rewrite <- app_assoc. cbn [app]. eapply ex_mid; eauto.
Qed.

Section Expand.
  Variable A : nat -> nat -> N -> Prop.
  Variable un : nat -> nat -> option nat -> Prop.
  Hypothesis HU : unpacking A un.

  Lemma expand_ex : (forall x y w, A x y w -> exists o, un x y o) -> forall x y w, A x y w -> exists l, expand A un x y l.
  Proof using HU.
    intros HE. assert (G : forall k x y w, Nat.min x y < k -> A x y w -> exists l, expand A un x y l).
    { induction k as [|k IH]; intros x y w Hk Ha; [lia|]. destruct (HE x y w Ha) as ([z|] & Ho).
      - destruct (un_mid HU _ _ _ _ Ha Ho) as (L1 & L2 & (w1 & w2 & A1 & A2 & _) & _).
        destruct (IH x z w1) as (l1 & E1); [lia|auto|]. destruct (IH z y w2) as (l2 & E2); [lia|auto|]. exists (l1 ++ z :: l2). eapply ex_mid; eauto.
      - exists []. eapply ex_orig; eauto. }
    intros x y w. apply (G (S (Nat.min x y))). lia.
  Qed.

  (** cutting the unpacked arc at an inner node *)
  Lemma expand_cut x y l : expand A un x y l -> forall w q, A x y w -> In q l -> q < x /\ q < y /\
    exists a b, walk (rest (fun u => u = x \/ u < Nat.min x y) A) x q a /\ walk (rest (fun u => u = y \/ u < Nat.min x y) A) q y b /\ (a + b = w)%N.
  Proof using HU.
    induction 1 as [x y w0 Ha0 Hu|x y w0 z l1 l2 Ha0 Hu H1 IH1 H2 IH2]; intros w q Ha Hq; [destruct Hq|].
    destruct (un_mid HU _ _ _ _ Ha Hu) as (L1 & L2 & (w1 & w2 & A1 & A2 & ->) & K).
    apply in_app_or in Hq. destruct Hq as [Hq|[<-|Hq]].
    - destruct (IH1 _ q A1 Hq) as (Q1 & Q2 & a & b & Wa & Wb & <-). split; [auto|]. split; [lia|]. exists a, (b + w2)%N. split.
      { eapply rest_mono; [|exact Wa]. cbn beta; intros; lia. } split; [|lia]. eapply walk_app. { eapply rest_mono; [|exact Wb]. cbn beta; intros; lia. }
      apply walk_arc. split; [lia|]. split; [lia|auto].
    - split; [auto|]. split; [auto|]. exists w1, w2. split. { apply walk_arc. split; [lia|]. split; [lia|auto]. } split; [|lia].
      apply walk_arc. split; [lia|]. split; [lia|auto].
    - destruct (IH2 _ q A2 Hq) as (Q1 & Q2 & a & b & Wa & Wb & <-). split; [lia|]. split; [auto|]. exists (w1 + a)%N, b. split; [|split; [|lia]].
      { eapply walk_app. { apply walk_arc. split; [left; reflexivity|]. split; [|exact A1]. cbn beta; intros; lia. } eapply rest_mono; [|exact Wa]. cbn beta; intros; lia. }
      eapply rest_mono; [|exact Wb]. cbn beta; intros; lia.
  Qed.

  Lemma expand_arc x y l : expand A un x y l -> exists w, A x y w.
  Proof using. destruct 1; eauto. Qed.

  Lemma expand_NoDup x y l : expand A un x y l -> NoDup l.
  Proof using HU.
    induction 1 as [x y w Ha Hu|x y w z l1 l2 Ha Hu H1 IH1 H2 IH2]; [constructor|].
    destruct (un_mid HU _ _ _ _ Ha Hu) as (L1 & L2 & (w1 & w2 & A1 & A2 & E) & K).
    apply NoDup_app_iff. split; [auto|]. split.
    - constructor; auto. intros Hz. destruct (expand_cut _ _ _ H2 _ _ A2 Hz) as (Q & _). lia.
    - intros q Hq [<-|Hq']. { destruct (expand_cut _ _ _ H1 _ _ A1 Hq) as (_ & Q & _). lia. }
      destruct (expand_cut _ _ _ H1 _ _ A1 Hq) as (_ & Q1 & a & b & Wa & _ & E1). destruct (expand_cut _ _ _ H2 _ _ A2 Hq') as (_ & Q2 & a' & b' & _ & Wb & E2).
      destruct (low_triangle2 A (un_tri HU) z x q y a b') as (z' & v1 & v2 & Lz & B1 & B2 & Lv); try lia.
      { eapply rest_mono; [|exact Wa]. cbn beta; intros; lia. } { eapply rest_mono; [|exact Wb]. cbn beta; intros; lia. }
      pose proof (K z' v1 v2 Lz B1 B2). lia.
  Qed.

  (** the unpacked arc is a path in the original graph *)
  Lemma expand_npath (M : nat -> nat -> N -> Prop) : (forall x y w, A x y w -> un x y None -> (w < INF)%N -> M x y w) ->
    forall x y l, expand A un x y l -> forall w, A x y w -> (w < INF)%N -> npath M x (x :: l ++ [y]) y w.
  Proof using HU.
    intros HM. induction 1 as [x y w0 Ha0 Hu|x y w0 z l1 l2 Ha0 Hu H1 IH1 H2 IH2]; intros w Ha Hw.
    - cbn [app]. rewrite <- (N.add_0_r w). econstructor; [apply HM; eauto|constructor].
    - destruct (un_mid HU _ _ _ _ Ha Hu) as (L1 & L2 & (w1 & w2 & A1 & A2 & ->) & K).
      replace (x :: (l1 ++ z :: l2) ++ [y]) with ((x :: l1 ++ [z]) ++ (l2 ++ [y])). 2: { cbn [app]. rewrite <- !app_assoc. reflexivity. }
      eapply npath_app; [apply IH1; auto; lia|]. apply IH2; auto; lia.
  Qed.

  (** An upward chain of arcs from [s], completely unpacked: [L] are the nodes before the last one. Each arc beats the
      ways to its end by way of nodes below its start. *)
  Inductive ug (s : nat) : nat -> N -> list nat -> Prop :=
  | ug_nil : ug s s 0 []
  | ug_snoc x a L y w l : ug s x a L -> A x y w -> x < y -> expand A un x y l ->
      (forall b, walk (rest (fun u => u = y \/ u < x) A) s y b -> (a + w < b)%N) -> ug s y (a + w) (L ++ x :: l).

  Lemma ug_ok s x a L : ug s x a L -> NoDup L /\ (forall q, In q L -> q < x /\ exists b, walk (rest (fun u => u < x) A) s q b /\ (b <= a)%N).
  Proof using HU.
    induction 1 as [|x a L y w l H [N1 IH] Ha Lxy He HM]; [split; [constructor|intros ? []]|].
    assert (Wx : walk (rest (fun u => u < y) A) s x a).
    { clear -H Lxy HU. assert (G : forall x a L, ug s x a L -> walk (rest (fun u => u < S x) A) s x a).
      { clear. induction 1 as [|x a L y w l H IH Ha Lxy He _]; [constructor|]. eapply walk_app. { eapply rest_mono; [|exact IH]. cbn beta; intros; lia. } apply walk_arc. split; [lia|]. split; [lia|auto]. }
      eapply rest_mono; [|eapply G; exact H]. cbn beta; intros; lia. }
    split.
    - apply NoDup_app_iff. split; [auto|]. split.
      + constructor; [|eapply expand_NoDup; eauto]. intros Hx. destruct (expand_cut _ _ _ He _ _ Ha Hx). lia.
      + intros q Hq [<-|Hq']. { destruct (IH _ Hq). lia. }
        destruct (IH q Hq) as (Lq & b & Wb & Lb). destruct (expand_cut _ _ _ He _ _ Ha Hq') as (_ & _ & a' & b' & _ & Wb' & E).
        assert (K : (a + w < b + b')%N). { apply HM. eapply walk_app. { eapply rest_mono; [|exact Wb]. cbn beta; intros; lia. } eapply rest_mono; [|exact Wb']. cbn beta; intros; lia. } lia.
    - intros q Hq. apply in_app_or in Hq. destruct Hq as [Hq|[<-|Hq]].
      + destruct (IH q Hq) as (Lq & b & Wb & Lb). split; [lia|]. exists b. split; [|lia]. eapply rest_mono; [|exact Wb]. cbn beta; intros; lia.
      + split; [auto|]. exists a. split; [auto|lia].
      + destruct (expand_cut _ _ _ He _ _ Ha Hq) as (Q1 & Q2 & a' & b' & Wa' & _ & E). split; [auto|]. exists (a + a')%N. split; [|lia].
        eapply walk_app; [exact Wx|]. eapply rest_mono; [|exact Wa']. cbn beta; intros; lia.
  Qed.
  Lemma ug_head s x a L : ug s x a L -> (x = s /\ L = []) \/ exists L', L = s :: L'.
  Proof using.
    induction 1 as [|x a L y w l H IH Ha Lxy He _]; [left; auto|]. right. destruct IH as [[-> ->]|(L' & ->)]; cbn; eauto.
  Qed.
  Lemma ug_npath (M : nat -> nat -> N -> Prop) : (forall x y w, A x y w -> un x y None -> (w < INF)%N -> M x y w) ->
    forall s x a L, ug s x a L -> (a < INF)%N -> npath M s (L ++ [x]) x a.
  Proof using HU.
    intros HM. induction 1 as [|x a L y w l H IH Ha Lxy He _]; intros La; [constructor|].
    replace ((L ++ x :: l) ++ [y]) with ((L ++ [x]) ++ (l ++ [y])). 2: { rewrite <- !app_assoc. reflexivity. }
    eapply npath_app; [apply IH; lia|]. apply expand_npath; auto. lia.
  Qed.
End Expand.

(** Two chains that meet, if no lower meeting is as good. *)
Lemma ug_meet A un s t m a b Lf Lb : unpacking A un -> ug A un s m a Lf -> ug (flip_arc A) (fun x y => un y x) t m b Lb ->
  (forall m' a' b', m' < m -> walk (upa A) s m' a' -> walk (upa (flip_arc A)) t m' b' -> (a + b < a' + b')%N) ->
  NoDup (Lf ++ m :: rev Lb).
Proof.
  intros HU Hf Hb HM. destruct (ug_ok A un HU _ _ _ _ Hf) as [N1 K1]. destruct (ug_ok _ _ (unpacking_flip _ _ HU) _ _ _ _ Hb) as [N2 K2].
  apply NoDup_app_iff. split; [auto|]. split.
  - constructor; [|apply NoDup_rev; auto]. intros H. apply in_rev in H. destruct (K2 _ H). lia.
  - intros q Hq [<-|Hq']; [destruct (K1 _ Hq); lia|]. apply in_rev in Hq'. destruct (K1 q Hq) as (L1 & a' & Wa & La). destruct (K2 q Hq') as (_ & b' & Wb & Lb').
    apply walk_flip_rest in Wb. assert (Wt : walk (rest (fun u => u < m) A) s t (a' + b')). { eapply walk_app; [exact Wa|]. exact Wb. }
    destruct (up_down _ (rest_closed (fun u => u < m) A (un_tri HU)) s t _ Wt) as (m' & a1 & b1 & U & D & L).
    assert (Lm : m' < m).
    { destruct (walk_last _ _ _ _ U) as [[<- _]|(z & l1 & w & _ & [_ (_ & P & _)] & _)]; [|exact P]. destruct (rest_in _ _ _ _ _ Wa) as [<-|[P _]]; auto. }
    assert (K : (a + b < a1 + b1)%N); [|lia]. apply (HM m' a1 b1 Lm).
    + revert U. apply walk_mono. intros x y w (L' & _ & _ & H). split; auto.
    + apply walk_flip in D. revert D. apply walk_mono. intros x y w (L' & _ & _ & H). split; auto.
Qed.
