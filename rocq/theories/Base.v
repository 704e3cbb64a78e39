(** Shared basics: total list update, machine word arithmetic, option monad.
    Nothing in this file models a particular function of /repo. *)
From Coq Require Export List Arith NArith ZArith Lia Bool Permutation.
From Coq Require Export ZifyBool ZifyNat ZifyN.
Export ListNotations.

Global Arguments N.add : simpl never.
Global Arguments N.mul : simpl never.
Global Arguments N.sub : simpl never.
Global Arguments N.ltb : simpl never.
Global Arguments N.leb : simpl never.
Global Arguments N.eqb : simpl never.
Global Arguments N.modulo : simpl never.
Global Arguments N.div : simpl never.
Global Arguments N.min : simpl never.
Global Arguments N.max : simpl never.
Global Arguments Nat.div : simpl never.
Global Arguments Nat.modulo : simpl never.

(** Sequencing of computations that may panic ([None] = panic). *)
Definition bind {A B} (x : option A) (f : A -> option B) : option B :=
  match x with Some a => f a | None => None end.
Notation "x <- e ;; k" := (bind e (fun x => k)) (at level 60, e at next level, right associativity).
Notation "' p <- e ;; k" := (bind e (fun z => let p := z in k))
  (at level 60, p pattern, e at next level, right associativity).

(** [assert!(b)] *)
Definition guard (b : bool) : option unit := if b then Some tt else None.

(** List update: [upd l i x] writes [x] at index [i]; no effect out of range. *)
Fixpoint upd {A} (l : list A) (i : nat) (x : A) : list A :=
  match l, i with
  | [], _ => []
  | _ :: l', O => x :: l'
  | a :: l', S i' => a :: upd l' i' x
  end.

(** Checked write, [l[i] = x] in Rust: panics out of range. *)
Definition set_at {A} (l : list A) (i : nat) (x : A) : option (list A) :=
  if i <? length l then Some (upd l i x) else None.

(** u32 *)
Definition U32 : N := 4294967296.
Definition wadd (a b : N) : N := ((a + b) mod U32)%N.
(** u32 addition with overflow check (debug builds): overflow = panic. A theorem that a run ends in [Some]
    therefore also says that no such addition overflowed, so release builds (which wrap) behave the same. *)
Definition cadd (a b : N) : option N := if (a + b <? U32)%N then Some (a + b)%N else None.
(** datastr/graph.rs l.25: [INFINITY: Weight = std::u32::MAX / 2] *)
Definition INF : N := 2147483647.

Lemma upd_length {A} (l : list A) i x : length (upd l i x) = length l.
Proof. revert i; induction l as [|a l IH]; intros [|i]; simpl; auto. Qed.

Lemma nth_error_upd_eq {A} (l : list A) i x : i < length l -> nth_error (upd l i x) i = Some x.
Proof. revert i; induction l as [|a l IH]; intros [|i]; simpl; intros; try lia; auto. apply IH; lia. Qed.

Lemma nth_error_upd_neq {A} (l : list A) i j x : i <> j -> nth_error (upd l i x) j = nth_error l j.
Proof. revert i j; induction l as [|a l IH]; intros [|i] [|j]; simpl; intros; auto; try lia. Qed.

Lemma nth_error_upd {A} (l : list A) i j x :
  nth_error (upd l i x) j = if (i =? j) && (i <? length l) then Some x else nth_error l j.
Proof.
  destruct (Nat.eqb_spec i j) as [->|Hn]; simpl.
  - destruct (Nat.ltb_spec j (length l)).
    + apply nth_error_upd_eq; auto.
    + rewrite (proj2 (nth_error_None l j)) by lia. apply nth_error_None. rewrite upd_length; lia.
  - apply nth_error_upd_neq; auto.
Qed.

Lemma nth_upd_eq {A} (l : list A) i x d : i < length l -> nth i (upd l i x) d = x.
Proof. intros. apply nth_error_nth, nth_error_upd_eq; auto. Qed.

Lemma nth_upd_neq {A} (l : list A) i j x d : i <> j -> nth j (upd l i x) d = nth j l d.
Proof. revert i j; induction l as [|a l IH]; intros [|i] [|j]; simpl; intros; auto; try lia. Qed.

Lemma nth_upd {A} (l : list A) i j x d :
  nth j (upd l i x) d = if (i =? j) && (i <? length l) then x else nth j l d.
Proof.
  destruct (Nat.eqb_spec i j) as [->|Hn]; simpl.
  - destruct (Nat.ltb_spec j (length l)).
    + apply nth_upd_eq; auto.
    + rewrite !nth_overflow; rewrite ?upd_length; auto.
  - apply nth_upd_neq; auto.
Qed.

Lemma upd_out {A} (l : list A) i x : length l <= i -> upd l i x = l.
Proof. revert i; induction l as [|a l IH]; intros [|i]; simpl; intros; auto; try lia. rewrite IH; auto; lia. Qed.

Lemma upd_upd {A} (l : list A) i x y : upd (upd l i x) i y = upd l i y.
Proof. revert i; induction l as [|a l IH]; intros [|i]; simpl; auto. rewrite IH; auto. Qed.

Lemma upd_comm {A} (l : list A) i j x y : i <> j -> upd (upd l i x) j y = upd (upd l j y) i x.
Proof. revert i j; induction l as [|a l IH]; intros [|i] [|j]; simpl; intros; auto; try lia. rewrite IH; auto. Qed.

Lemma upd_app_l {A} (l1 l2 : list A) i x : i < length l1 -> upd (l1 ++ l2) i x = upd l1 i x ++ l2.
Proof. revert i; induction l1 as [|a l IH]; intros [|i]; simpl; intros; auto; try lia. rewrite IH; auto; lia. Qed.

Lemma upd_app_r {A} (l1 l2 : list A) i x : length l1 <= i -> upd (l1 ++ l2) i x = l1 ++ upd l2 (i - length l1) x.
Proof.
  revert i; induction l1 as [|a l IH]; intros i H; simpl in *.
  - rewrite Nat.sub_0_r; auto.
  - destruct i; simpl; try lia. rewrite IH; auto; lia.
Qed.

Lemma upd_same {A} (l : list A) i x : nth_error l i = Some x -> upd l i x = l.
Proof. revert i; induction l as [|a l IH]; intros [|i]; simpl; intros; auto; try congruence. rewrite IH; auto. Qed.

Lemma upd_nth_same {A} (l : list A) i d : upd l i (nth i l d) = l.
Proof. revert i; induction l as [|a l IH]; intros [|i]; simpl; auto. rewrite IH; auto. Qed.

Lemma list_ext {A} (l1 l2 : list A) : (forall i, nth_error l1 i = nth_error l2 i) -> l1 = l2.
Proof.
  revert l2; induction l1 as [|a l1 IH]; intros [|b l2] H; auto.
  - specialize (H 0); discriminate.
  - specialize (H 0); discriminate.
  - f_equal. { specialize (H 0); simpl in H; congruence. } apply IH. intro i; apply (H (S i)).
Qed.

Lemma list_ext_nth {A} (l1 l2 : list A) d :
  length l1 = length l2 -> (forall i, i < length l1 -> nth i l1 d = nth i l2 d) -> l1 = l2.
Proof.
  revert l2; induction l1 as [|a l1 IH]; intros [|b l2] HL H; simpl in *; try lia; auto.
  f_equal. { apply (H 0); lia. } apply IH; try lia. intros i Hi; apply (H (S i)); lia.
Qed.

Lemma nth_error_Some_lt {A} (l : list A) i x : nth_error l i = Some x -> i < length l.
Proof. intros. apply nth_error_Some. congruence. Qed.

Lemma nth_error_lt {A} (l : list A) i : i < length l -> exists x, nth_error l i = Some x.
Proof. intros H. apply nth_error_Some in H. destruct (nth_error l i); eauto; congruence. Qed.

Lemma nth_error_nth_some {A} (l : list A) i d : i < length l -> nth_error l i = Some (nth i l d).
Proof. apply nth_error_nth'. Qed.

Lemma nth_error_repeat {A} (x : A) n i : nth_error (repeat x n) i = if i <? n then Some x else None.
Proof.
  revert i; induction n as [|n IH]; intros [|i]; simpl; auto.
  rewrite IH. destruct (Nat.ltb_spec i n), (Nat.ltb_spec (S i) (S n)); auto; lia.
Qed.

Lemma nth_repeat_any {A} (x : A) n i : nth i (repeat x n) x = x.
Proof. revert i; induction n as [|n IH]; intros [|i]; simpl; auto. Qed.

Lemma set_at_Some {A} (l : list A) i x l' : set_at l i x = Some l' <-> i < length l /\ l' = upd l i x.
Proof. unfold set_at. destruct (Nat.ltb_spec i (length l)); split; intros H1; [|destruct H1; subst; auto| |destruct H1; lia]; try discriminate. injection H1; intros; subst; auto. Qed.

Lemma set_at_lt {A} (l : list A) i x : i < length l -> set_at l i x = Some (upd l i x).
Proof. intros; apply set_at_Some; auto. Qed.

Lemma bind_Some {A B} (e : option A) (f : A -> option B) b :
  bind e f = Some b <-> exists a, e = Some a /\ f a = Some b.
Proof. destruct e; simpl; split; intros H; eauto. - destruct H as (a0 & H1 & H2); congruence. - discriminate. - destruct H as (a0 & H1 & H2); discriminate. Qed.

Lemma Forall_upd {A} (P : A -> Prop) l i x : Forall P l -> P x -> Forall P (upd l i x).
Proof. intros H Hx; revert i; induction H; intros [|i]; simpl; constructor; auto. Qed.

Lemma In_upd {A} (l : list A) i x y : In y (upd l i x) -> y = x \/ In y l.
Proof. revert i; induction l as [|a l IH]; intros [|i]; simpl; intros; auto. - destruct H; auto. - destruct H; auto. apply IH in H; tauto. Qed.

Lemma cadd_ok a b : (a + b < U32)%N -> cadd a b = Some (a + b)%N.
Proof. intros H. unfold cadd. apply N.ltb_lt in H. rewrite H. auto. Qed.
Lemma cadd_some a b x : cadd a b = Some x -> x = (a + b)%N /\ (a + b < U32)%N.
Proof. unfold cadd. destruct (N.ltb_spec (a + b) U32); [|discriminate]. intros [= <-]. auto. Qed.
Lemma wadd_small a b : (a + b < U32)%N -> wadd a b = (a + b)%N.
Proof. intros; unfold wadd; apply N.mod_small; auto. Qed.

(** Loops. [foldM f l s]: run the body [f] for each element of [l] in order, stop at the first panic. *)
Fixpoint foldM {S A} (f : S -> A -> option S) (l : list A) (s : S) : option S :=
  match l with [] => Some s | a :: l' => s' <- f s a ;; foldM f l' s' end.

Lemma foldM_app {S A} (f : S -> A -> option S) l1 l2 s :
  foldM f (l1 ++ l2) s = (s' <- foldM f l1 s ;; foldM f l2 s').
Proof. revert s; induction l1 as [|a l1 IH]; intros s; cbn [foldM app bind]; auto. destruct (f s a); cbn [bind]; auto. Qed.

(** Loop rule: an invariant indexed by the processed prefix. *)
Lemma foldM_inv {S A} (f : S -> A -> option S) (I : list A -> S -> Prop) l s0 :
  I [] s0 ->
  (forall pre a post s, l = pre ++ a :: post -> I pre s -> exists s', f s a = Some s' /\ I (pre ++ [a]) s') ->
  exists s', foldM f l s0 = Some s' /\ I l s'.
Proof.
  intros H0 Hstep.
  assert (G : forall post pre s, l = pre ++ post -> I pre s -> exists s', foldM f post s = Some s' /\ I l s').
  { induction post as [|a post IH]; intros pre s E Hs; cbn [foldM].
    - rewrite app_nil_r in E; subst. eauto.
    - destruct (Hstep pre a post s E Hs) as (s' & E' & H'). rewrite E'; cbn [bind].
      apply (IH (pre ++ [a])); auto. rewrite <- app_assoc; auto. }
  apply (G l []); auto.
Qed.

(** Map with panics. *)
Fixpoint mapM {A B} (f : A -> option B) (l : list A) : option (list B) :=
  match l with [] => Some [] | a :: l' => b <- f a ;; r <- mapM f l' ;; Some (b :: r) end.

Lemma mapM_Some {A B} (f : A -> option B) (g : A -> B) l :
  (forall a, In a l -> f a = Some (g a)) -> mapM f l = Some (map g l).
Proof.
  induction l as [|a l IH]; intros H; cbn [mapM map]; auto.
  rewrite H by (left; auto). cbn [bind]. rewrite IH by (intros; apply H; right; auto). reflexivity.
Qed.
