(** Order theory of customizable contraction hierarchies: walks in a relation that is closed under lower
    triangles can be turned into up-down walks through a subset of their nodes. Nothing here models code. *)
From Verif Require Import Base SpecGraph.

(** [A x y w]: arc of weight [w]. Ranks are the node numbers. *)
Definition upa (A : nat -> nat -> N -> Prop) : nat -> nat -> N -> Prop := fun x y w => x < y /\ A x y w.
Definition dna (A : nat -> nat -> N -> Prop) : nat -> nat -> N -> Prop := fun x y w => y < x /\ A x y w.

(** closed under lower triangles *)
Definition tri_closed (A : nat -> nat -> N -> Prop) : Prop :=
  (forall x w, ~ A x x w) /\
  forall x z y w1 w2, z < x -> z < y -> x <> y -> A x z w1 -> A z y w2 -> exists w, A x y w /\ (w <= w1 + w2)%N.

Lemma upa_le A u v l : walk (upa A) u v l -> u <= v.
Proof. induction 1 as [|u v t w l [H _]]; lia. Qed.
Lemma dna_le A u v l : walk (dna A) u v l -> v <= u.
Proof. induction 1 as [|u v t w l [H _]]; lia. Qed.

Section UpDown.
  Variable A : nat -> nat -> N -> Prop.
  Hypothesis HA : tri_closed A.

  (** a down arc followed by an up walk *)
  Lemma dn_up x y w m a : dna A x y w -> walk (upa A) y m a ->
    exists m' a' b', walk (upa A) x m' a' /\ walk (dna A) m' m b' /\ (a' + b' <= w + a)%N.
  Proof using HA.
    intros Hd Hu. revert x w Hd. induction Hu as [y|y y1 m wu a Hy Hu IH]; intros x w Hd.
    - exists x, 0%N, (w + 0)%N. split; [constructor|]. split; [econstructor; [exact Hd|constructor]|lia].
    - destruct Hd as [L1 A1], Hy as [L2 A2]. destruct (Nat.eq_dec x y1) as [->|Ne].
      { exists m, a, 0%N. split; [exact Hu|]. split; [constructor|lia]. }
      destruct HA as [_ HT]. destruct (HT x y y1 w wu) as (w' & A3 & L3); auto.
      destruct (Nat.lt_ge_cases x y1) as [L|L].
      + exists m, (w' + a)%N, 0%N. split; [econstructor; [split; [exact L|exact A3]|exact Hu]|]. split; [constructor|lia].
      + destruct (IH x w') as (m' & a' & b' & R1 & R2 & R3). { split; [lia|auto]. }
        exists m', a', b'. split; [auto|]. split; [auto|lia].
  Qed.

  (** every walk has an up-down walk that is not longer *)
  Lemma up_down s t l : walk A s t l ->
    exists m a b, walk (upa A) s m a /\ walk (dna A) m t b /\ (a + b <= l)%N.
  Proof using HA.
    induction 1 as [s|s y t w l Ha Hw (m & a & b & Hu & Hd & Hl)].
    - exists s, 0%N, 0%N. split; [constructor|]. split; [constructor|lia].
    - destruct (Nat.lt_trichotomy s y) as [L|[->|L]].
      + exists m, (w + a)%N, b. split; [econstructor; [split; [exact L|exact Ha]|exact Hu]|]. split; [auto|lia].
      + destruct HA as [HI _]. destruct (HI y w Ha).
      + destruct (dn_up s y w m a) as (m' & a' & b' & R1 & R2 & R3). { split; auto. } { auto. }
        exists m', a', (b' + b)%N. split; [auto|]. split; [eapply walk_app; eauto|lia].
  Qed.
End UpDown.

(** Restriction of the arcs to nodes satisfying [P]. *)
Definition rest (P : nat -> Prop) (A : nat -> nat -> N -> Prop) : nat -> nat -> N -> Prop := fun x y w => P x /\ P y /\ A x y w.
Lemma rest_closed P A : tri_closed A -> tri_closed (rest P A).
Proof.
  intros [H1 H2]. split. { intros x w (_ & _ & H). eapply H1; eauto. }
  intros x z y w1 w2 L1 L2 Ne (P1 & P2 & A1) (_ & P3 & A2). destruct (H2 x z y w1 w2) as (w & A3 & L3); auto.
  exists w. split; [split; auto|auto].
Qed.
Lemma rest_in P A u v l : walk (rest P A) u v l -> u = v \/ (P u /\ P v).
Proof. induction 1 as [|u v t w l (P1 & P2 & _) Hw IH]; auto. right. destruct IH as [->|[_ P3]]; auto. Qed.
Lemma rest_mono (P Q : nat -> Prop) A u v l : (forall x, P x -> Q x) -> walk (rest P A) u v l -> walk (rest Q A) u v l.
Proof. intros H. apply walk_mono. intros x y w (H1 & H2 & H3). split; [auto|]. split; auto. Qed.
Lemma rest_drop P A u v l : walk (rest P A) u v l -> walk A u v l.
Proof. apply walk_mono. intros x y w (_ & _ & H). exact H. Qed.

Lemma walk_last A u v l : walk A u v l -> (u = v /\ l = 0%N) \/ exists q l1 w, walk A u q l1 /\ A q v w /\ l = (l1 + w)%N.
Proof.
  induction 1 as [u|u x t w l Ha Hw IH]. { left; auto. } right.
  destruct IH as [[-> ->]|(q & l1 & w' & H1 & H2 & ->)].
  - exists u, 0%N, w. split; [constructor|]. split; [auto|lia].
  - exists q, (w + l1)%N, w'. split; [econstructor; eauto|]. split; [auto|lia].
Qed.

Section Low.
  Variable A : nat -> nat -> N -> Prop.
  Hypothesis HA : tri_closed A.

  (** A walk to a node above all other nodes on the walk becomes an up walk. *)
  Lemma up_to (P : nat -> Prop) s t l : (forall x, P x -> x <= t) -> walk (rest P A) s t l ->
    exists a, walk (upa (rest P A)) s t a /\ (a <= l)%N.
  Proof using HA.
    intros HP Hw. destruct (up_down (rest P A) (rest_closed P A HA) s t l Hw) as (m & a & b & Hu & Hd & Hl).
    assert (Em : m = t).
    { pose proof (dna_le _ _ _ _ Hd). inversion Hd as [|? v ? ? ? [L (P1 & _ & _)]]; subst; auto. pose proof (HP m P1). lia. }
    subst m. exists a. split; [auto|lia].
  Qed.

  (** A walk whose inner nodes are below both end points is at least as long as an arc between them. *)
  Lemma low_arc x y l : x <> y -> walk (rest (fun v => v = x \/ v = y \/ (v < x /\ v < y)) A) x y l ->
    exists w, A x y w /\ (w <= l)%N.
  Proof using HA.
    intros Ne Hw. destruct (up_down _ (rest_closed _ A HA) x y l Hw) as (m & a & b & Hu & Hd & Hl).
    destruct (Nat.lt_ge_cases x y) as [L|L].
    - assert (m = y).
      { pose proof (upa_le _ _ _ _ Hu). pose proof (dna_le _ _ _ _ Hd).
        inversion Hd as [|? v ? ? ? [L' (P1 & _ & _)]]; subst; auto. lia. }
      subst m. inversion Hu as [|? v ? w la [L1 (P1 & P2 & A1)] Hu']; subst; [lia|].
      assert (v = y) by (pose proof (upa_le _ _ _ _ Hu'); lia). subst v. exists w. split; [auto|lia].
    - assert (m = x).
      { pose proof (upa_le _ _ _ _ Hu).
        destruct (walk_last _ _ _ _ Hu) as [[-> _]|(q & l1 & w & Hq & [L1 (P1 & P2 & A1)] & _)]; auto.
        pose proof (upa_le _ _ _ _ Hq). lia. }
      subst m. destruct (walk_last _ _ _ _ Hd) as [[<- _]|(q & l1 & w & Hq & [L1 (P1 & P2 & A1)] & E)]; [lia|].
      assert (q = x) by (pose proof (dna_le _ _ _ _ Hq); lia). subst q. exists w. split; [auto|lia].
  Qed.

  (** Leaving [x] downwards and then climbing to [q < x] is at least as long as an arc to [q]. *)
  Lemma dn_climb x : forall y q a w, A x y w -> y < x -> walk (upa A) y q a -> q < x -> exists w', A x q w' /\ (w' <= w + a)%N.
  Proof using HA.
    intros y q a w Ha L Hu Hq. revert w Ha L. induction Hu as [y|y y1 q wu a [L1 A1] Hu IH]; intros w Ha L.
    - exists w. split; [auto|lia].
    - pose proof (upa_le _ _ _ _ Hu). destruct HA as [_ HT]. destruct (HT x y y1 w wu) as (w1 & A2 & L2); auto; [lia|].
      destruct (IH Hq w1 A2) as (w' & A3 & L3); [lia|]. exists w'. split; [auto|lia].
  Qed.

  (** A walk from [x] to [y] whose inner nodes (at least one) are below a bound [B <= x, y] passes, without getting
      longer, through a lower triangle of [x, y] whose lower node is below [B]. *)
  Lemma low_triangle B x q y w0 l : B <= x -> B <= y -> A x q w0 -> q < B ->
    walk (rest (fun u => u = y \/ u < B) A) q y l ->
    exists z w1 w2, z < B /\ A x z w1 /\ A z y w2 /\ (w1 + w2 <= w0 + l)%N.
  Proof using HA.
    intros Bx By H1 Hq H2.
    destruct (up_to (fun u => u = y \/ u < B) q y l ltac:(intros u [->|Hu]; lia) H2) as (a & Hu & La).
    destruct (walk_last _ _ _ _ Hu) as [[-> _]|(z & l3 & w2 & Hz & [L2 (P2 & _ & A2)] & ->)]; [lia|].
    assert (Lz : z < B) by (destruct P2; lia).
    assert (Uz : walk (upa A) q z l3). { revert Hz. apply walk_mono. intros p r w (H3 & (_ & _ & H4)). split; auto. }
    destruct (dn_climb x q z l3 w0 H1) as (w1 & A1 & L1); [lia|auto|lia|].
    exists z, w1, w2. split; [auto|]. split; [auto|]. split; [auto|lia].
  Qed.
End Low.

(** an arc that is a shortest walk *)
Definition tight (A : nat -> nat -> N -> Prop) (x y : nat) (w : N) : Prop := A x y w /\ forall l, walk A x y l -> (w <= l)%N.
(** the arcs of a shortest walk are tight *)
Lemma walk_tight (B A : nat -> nat -> N -> Prop) x y l : (forall u v w, B u v w -> A u v w) -> walk B x y l -> (forall l', walk A x y l' -> (l <= l')%N) ->
  walk (fun u v w => B u v w /\ tight A u v w) x y l.
Proof.
  intros HB H. induction H as [x|x z y w l Ha Hw IH]; intros HM; [constructor|].
  assert (Hw' : walk A z y l) by (revert Hw; apply walk_mono; exact HB).
  econstructor; [split; [exact Ha|]|].
  - split; [auto|]. intros l' Hl'. pose proof (HM _ (walk_app _ _ _ _ _ _ Hl' Hw')). lia.
  - apply IH. intros l' Hl'. pose proof (HM (w + l')%N ltac:(econstructor; [apply HB; exact Ha|exact Hl'])). lia.
Qed.
