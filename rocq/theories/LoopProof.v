(** Rules for [loopN] and sums over node ids. *)
From Verif Require Import Base Dijkstra.

(** k iterations, as a function on nat (proof only) *)
Fixpoint loop_nat {S R} (k : nat) (step : S -> option (S + R)) (s : S) : option (S + R) :=
  match k with
  | O => Some (inl s)
  | Datatypes.S k => r <- step s ;; match r with inl s' => loop_nat k step s' | inr r' => Some (inr r') end
  end.
Lemma loop_nat_add {S R} (step : S -> option (S + R)) a b s :
  loop_nat (a + b) step s = (r <- loop_nat a step s ;; match r with inl s' => loop_nat b step s' | inr r' => Some (inr r') end).
Proof.
  revert s. induction a as [|a IH]; intros s; cbn [loop_nat Nat.add bind]; auto.
  destruct (step s) as [[s'|r]|]; cbn [bind]; auto.
Qed.
Lemma loop_pos_nat {S R} (step : S -> option (S + R)) p : forall s, loop_pos p step s = loop_nat (Pos.to_nat p) step s.
Proof.
  induction p as [p IH|p IH|]; intros s; cbn [loop_pos].
  - replace (Pos.to_nat p~1) with (1 + (Pos.to_nat p + Pos.to_nat p)) by lia. rewrite loop_nat_add. cbn [loop_nat].
    destruct (step s) as [[s'|r]|]; cbn [bind]; auto. rewrite loop_nat_add, IH.
    destruct (loop_nat (Pos.to_nat p) step s') as [[s''|r]|]; cbn [bind]; auto.
  - replace (Pos.to_nat p~0) with (Pos.to_nat p + Pos.to_nat p) by lia. rewrite loop_nat_add, IH.
    destruct (loop_nat (Pos.to_nat p) step s) as [[s''|r]|]; cbn [bind]; auto.
  - cbn [loop_nat Pos.to_nat]. change (Pos.to_nat 1) with 1. cbn [loop_nat]. destruct (step s) as [[s'|r]|]; cbn [bind]; auto.
Qed.

Lemma loopN_rule {S R} (step : S -> option (S + R)) (I : S -> Prop) (Q : R -> Prop) (M : S -> N) fuel s :
  (forall s, I s -> exists r, step s = Some r /\ match r with inl s' => I s' /\ (M s' < M s)%N | inr r' => Q r' end) ->
  I s -> (M s < fuel)%N -> exists r, loopN fuel step s = Some r /\ Q r.
Proof.
  intros HS HI HM. unfold loopN. destruct fuel as [|p]; [lia|].
  assert (G : forall k s, I s -> N.to_nat (M s) < k -> exists r, loop_nat k step s = Some (inr r) /\ Q r).
  { clear -HS. induction k as [|k IH]; intros s HI HM; [lia|]. cbn [loop_nat].
    destruct (HS s HI) as ([s'|r] & E & H); rewrite E; cbn [bind].
    - destruct H as [HI' HM']. apply IH; auto. lia.
    - eauto. }
  destruct (G (Pos.to_nat p) s HI) as (r & E & HQ); [lia|]. rewrite loop_pos_nat, E. cbn [bind]. eauto.
Qed.

(** the same with a ghost state carrying the measure *)
Lemma loopN_ghost {S R G} (step : S -> option (S + R)) (I : G -> S -> Prop) (Q : R -> Prop) (M : G -> N) fuel g s :
  (forall g s, I g s -> exists r, step s = Some r /\ match r with inl s' => exists g', I g' s' /\ (M g' < M g)%N | inr r' => Q r' end) ->
  I g s -> (M g < fuel)%N -> exists r, loopN fuel step s = Some r /\ Q r.
Proof.
  intros HS HI HM. unfold loopN. destruct fuel as [|p]; [lia|].
  assert (H : forall k g s, I g s -> N.to_nat (M g) < k -> exists r, loop_nat k step s = Some (inr r) /\ Q r).
  { clear -HS. induction k as [|k IH]; intros g s HI HM; [lia|]. cbn [loop_nat].
    destruct (HS g s HI) as ([s'|r] & E & H); rewrite E; cbn [bind].
    - destruct H as (g' & HI' & HM'). apply (IH g'); auto. lia.
    - eauto. }
  destruct (H (Pos.to_nat p) g s HI) as (r & E & HQ); [lia|]. rewrite loop_pos_nat, E. cbn [bind]. eauto.
Qed.

(** two runs in lockstep *)
Lemma loopN_pair {S1 S2 R1 R2 G} (step1 : S1 -> option (S1 + R1)) (step2 : S2 -> option (S2 + R2))
  (I : G -> S1 -> S2 -> Prop) (Q : R1 -> R2 -> Prop) (M : G -> N) fuel g s1 s2 :
  (forall g s1 s2, I g s1 s2 -> exists r1 r2, step1 s1 = Some r1 /\ step2 s2 = Some r2 /\
     match r1, r2 with inl s1', inl s2' => exists g', I g' s1' s2' /\ (M g' < M g)%N | inr r1', inr r2' => Q r1' r2' | _, _ => False end) ->
  I g s1 s2 -> (M g < fuel)%N -> exists r1 r2, loopN fuel step1 s1 = Some r1 /\ loopN fuel step2 s2 = Some r2 /\ Q r1 r2.
Proof.
  intros HS HI HM. unfold loopN. destruct fuel as [|p]; [lia|].
  assert (H : forall k g s1 s2, I g s1 s2 -> N.to_nat (M g) < k ->
    exists r1 r2, loop_nat k step1 s1 = Some (inr r1) /\ loop_nat k step2 s2 = Some (inr r2) /\ Q r1 r2).
  { clear -HS. induction k as [|k IH]; intros g s1 s2 HI HM; [lia|]. cbn [loop_nat].
    destruct (HS g s1 s2 HI) as ([s1'|r1] & [s2'|r2] & E1 & E2 & H); rewrite E1, E2; cbn [bind]; try easy.
    - destruct H as (g' & HI' & HM'). apply (IH g'); auto. lia.
    - eauto. }
  destruct (H (Pos.to_nat p) g s1 s2 HI) as (r1 & r2 & E1 & E2 & HQ); [lia|]. rewrite !loop_pos_nat, E1, E2. cbn [bind]. eauto.
Qed.

(** function update *)
Definition fupd {V} (f : nat -> V) (i : nat) (x : V) : nat -> V := fun j => if j =? i then x else f j.
Lemma fupd_eq {V} (f : nat -> V) i x : fupd f i x i = x.
Proof. unfold fupd. rewrite Nat.eqb_refl. auto. Qed.
Lemma fupd_neq {V} (f : nat -> V) i j x : j <> i -> fupd f i x j = f j.
Proof. intros. unfold fupd. destruct (Nat.eqb_spec j i); [lia|auto]. Qed.
Lemma fupd_if {V} (f : nat -> V) i j x : fupd f i x j = if j =? i then x else f j.
Proof. auto. Qed.

Fixpoint sumN (n : nat) (f : nat -> N) : N := match n with O => 0 | S n => (sumN n f + f n)%N end.
Lemma sumN_ext n f g : (forall i, i < n -> f i = g i) -> sumN n f = sumN n g.
Proof. induction n; intros H; cbn [sumN]; auto. rewrite IHn by (intros; apply H; lia). rewrite H by lia. auto. Qed.
Lemma sumN_le n f g : (forall i, i < n -> (f i <= g i)%N) -> (sumN n f <= sumN n g)%N.
Proof. induction n; intros H; cbn [sumN]; [lia|]. specialize (IHn ltac:(intros; apply H; lia)). specialize (H n ltac:(lia)). lia. Qed.
Lemma sumN_change n f g i : i < n -> (forall j, j <> i -> f j = g j) -> (sumN n f + g i = sumN n g + f i)%N.
Proof.
  induction n; intros Hi H; [lia|]. cbn [sumN]. destruct (Nat.eq_dec i n) as [->|Hne].
  - rewrite (sumN_ext n f g) by (intros; apply H; lia). lia.
  - specialize (IHn ltac:(lia) H). rewrite (H n) by lia. lia.
Qed.
Lemma sumN_const n c f : (forall i, i < n -> (f i <= c)%N) -> (sumN n f <= N.of_nat n * c)%N.
Proof. induction n; intros H; cbn [sumN]; [lia|]. specialize (IHn ltac:(intros; apply H; lia)). specialize (H n ltac:(lia)). lia. Qed.

Lemma NoDup_app_intro {T} (a b : list T) : NoDup a -> NoDup b -> (forall x, In x a -> ~ In x b) -> NoDup (a ++ b).
Proof.
  induction a as [|x a IH]; intros H1 H2 H3; cbn; auto. inversion H1; subst. constructor.
  - intros H. apply in_app_or in H. destruct H; auto. apply (H3 x); cbn; auto.
  - apply IH; auto. intros y Hy. apply H3. right; auto.
Qed.
