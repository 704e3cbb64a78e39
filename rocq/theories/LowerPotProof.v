(** Exact distances of a lower bound metric are a potential for A*. *)
From Verif Require Import Base SpecGraph SpecTTF SpecCCH Graph Dijkstra DijServer DijServerProof TDGraph TDGraphProof TDQueryProof.

Section Exact.
  Context {E : Type} (n : nat) (arc : nat -> nat -> N -> Prop) (pinit : E -> nat -> option E) (pget : E -> nat -> option (E * option N)) (EI : E -> Prop) (ET : nat -> E -> Prop) (e0 : E).
  Hypothesis H0 : EI e0.
  Hypothesis HI : forall e t, EI e -> t < n -> exists e', pinit e t = Some e' /\ ET t e'.
  Hypothesis HG : forall e t v, ET t e -> t < n -> v < n -> exists e' r, pget e v = Some (e', r) /\ ET t e' /\ exact_answer arc v t r.
  Hypothesis HK : forall e t, ET t e -> EI e.

  (** the value for [v] after init([t]) *)
  Definition exact_h (t v : nat) : option N :=
    if v <? n then match pinit e0 t with Some e => match pget e v with Some (_, r) => r | None => None end | None => None end else None.
  Lemma exact_h_ok t v : t < n -> v < n -> exact_answer arc v t (exact_h t v).
  Proof.
    intros Ht Hv. unfold exact_h. rewrite (proj2 (Nat.ltb_lt v n) Hv). destruct (HI e0 t H0 Ht) as (e & -> & He). destruct (HG e t v He Ht Hv) as (e' & r & -> & _ & X). auto.
  Qed.
  Lemma exact_contract : pot_contract n (fun t => t < n) pinit pget EI (fun t e => t < n /\ ET t e) exact_h.
  Proof.
    split.
    - intros e t He Ht. destruct (HI e t He Ht) as (e' & E1 & H1). eauto.
    - intros e t v [Ht He] Hv. destruct (HG e t v He Ht Hv) as (e' & r & E1 & H1 & X). exists e'. split; auto. rewrite E1. do 2 f_equal. eapply exact_unique; eauto. apply exact_h_ok; auto.
    - intros e t [_ He]. eauto.
  Qed.
  Lemma exact_h_small t : t < n -> small_pot (exact_h t).
  Proof.
    intros Ht v p Hp. destruct (Nat.lt_ge_cases v n) as [Hv|Hv]. 2: { unfold exact_h in Hp. rewrite (proj2 (Nat.ltb_ge v n) Hv) in Hp. discriminate. }
    pose proof (exact_h_ok t v Ht Hv) as X. rewrite Hp in X. cbn in X. destruct X as (X & _). unfold INF in *. lia.
  Qed.
  (** [barc] has no arc below its bound *)
  Variable barc : nat -> nat -> N -> Prop.
  Hypothesis HL : forall u v w, barc u v w -> u < n /\ exists w0, arc u v w0 /\ (w0 <= w)%N.
  Lemma lower_walk u v l : walk barc u v l -> exists l', walk arc u v l' /\ (l' <= l)%N.
  Proof.
    induction 1 as [u|u v t w l Ha W (l' & W' & L)]. { exists 0%N. split; [constructor|lia]. }
    destruct (HL u v w Ha) as (_ & w0 & Ha' & Lw). exists (w0 + l')%N. split; [econstructor; eauto|lia].
  Qed.
  Lemma exact_h_admissible t : t < n -> admissible_pot barc t (exact_h t).
  Proof.
    intros Ht u l W Ll. assert (Hu : u < n). { inversion W; subst; auto. eapply HL; eauto. }
    destruct (lower_walk u t l W) as (l' & W' & L'). pose proof (exact_h_ok t u Ht Hu) as X. destruct (exact_h t u) as [p|]; cbn in X.
    - exists p. split; auto. intros q _. destruct X as (_ & _ & X). specialize (X _ W'). lia.
    - specialize (X _ W'). lia.
  Qed.
End Exact.

(** the same for travel time functions *)
Lemma lower_reach (n : nat) arc P adj : (forall u e v f d w, arc_at adj u e v f -> ttf_value P f d w -> exists w0, arc u v w0 /\ (w0 <= w)%N) ->
  forall s d0 t d, reach (td_step P adj) s d0 t d -> exists l, walk arc s t l /\ (d0 + l <= d)%N.
Proof.
  intros HL s d0 t d H. induction H as [|v d u d' R IH (e & f & w & Ha & Hv & ->)]. { exists 0%N. split; [constructor|lia]. }
  destruct IH as (l & W & L). destruct (HL _ _ _ _ _ _ Ha Hv) as (w0 & Ha' & L0). exists (l + w0)%N. split; [|lia].
  replace (l + w0)%N with (l + (w0 + 0))%N by lia. eapply walk_app; eauto. econstructor; eauto. constructor.
Qed.
Lemma ttf_value_ge P f t w m : (forall p, In p f -> (m <= snd p)%N) -> ttf_value P f t w -> (m <= w)%N.
Proof.
  intros Hm [(_ & d & ->)|(p & q & HC & (H1 & H2) & H3 & H4)]. { apply (Hm (d, w)). left; auto. }
  assert (In p f /\ In q f) as [Ip Iq]. { destruct HC as (a & Ha & Hb). split; eapply nth_error_In; eauto. }
  apply Hm in Ip, Iq. assert (M : (m * (fst q - fst p) <= snd p * (fst q - (t mod P)) + snd q * ((t mod P) - fst p))%N).
  { replace (fst q - fst p)%N with ((fst q - t mod P) + (t mod P - fst p))%N by lia. rewrite N.mul_add_distr_l. pose proof (N.mul_le_mono_r _ _ (fst q - t mod P) Ip). pose proof (N.mul_le_mono_r _ _ (t mod P - fst p) Iq). lia. }
  destruct (N.lt_ge_cases w m) as [C|]; auto. exfalso. assert (((fst q - fst p) * (w + 1) <= (fst q - fst p) * m)%N) by (apply N.mul_le_mono_l; lia). lia.
Qed.
