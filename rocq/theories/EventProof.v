(** Proofs about the event iterator (EventIter.v). *)
From Coq Require Import List NArith Bool Lia.
From Verif Require Import SpecEvent EventIter.
Import ListNotations.

Section Iter.
  Context {S E : Type} (next : S -> option (option E * S)).
  Inductive emits : S -> list E -> S -> Prop :=
  | em_nil : forall s, emits s [] s
  | em_cons : forall s e s' l s'', next s = Some (Some e, s') -> emits s' l s'' -> emits s (e :: l) s''.
  Lemma emits_app : forall s l s' l' s'', emits s l s' -> emits s' l' s'' -> emits s (l ++ l') s''.
  Proof. induction 1; intros; cbn; auto. econstructor; eauto. Qed.
  Lemma emits_yields : forall s l s' l', emits s l s' -> yields next s' l' -> yields next s (l ++ l').
  Proof. induction 1; intros; cbn; auto. econstructor; eauto. Qed.
  Lemma emits_panics : forall s l s' l', emits s l s' -> panics_after next s' l' -> panics_after next s (l ++ l').
  Proof. induction 1; intros; cbn; auto. econstructor; eauto. Qed.
  Lemma yields_fun : forall s l, yields next s l -> forall l', yields next s l' -> l = l'.
  Proof.
    induction 1 as [s s' H|s e s' l H Y IH]; intros l' Y'; inversion Y' as [? ? H1|? ? ? ? H1 Y1]; subst; try congruence.
    rewrite H in H1. injection H1 as <- <-. f_equal; auto.
  Qed.
  Lemma yields_not_panics : forall s l, yields next s l -> forall l', ~ panics_after next s l'.
  Proof.
    induction 1 as [s s' H|s e s' l H Y IH]; intros l' P; inversion P as [? H1|? ? ? ? H1 P1]; subst; try congruence.
    rewrite H in H1. injection H1 as <- <-. eapply IH; eauto.
  Qed.
End Iter.

Section Proofs.
  Context {F : Type} (dbg : bool).
  Notation trace := (trace_data F).
  Notation emits := (emits (event_next (F := F) dbg)).
  Definition st_l (ls : list link_data) (t : trace) ts := EIt (tl ls) ts true (hd_error ls) t false.
  Definition st_t (ls : list link_data) (t : trace) ts := EIt (tl ls) ts false (hd_error ls) t false.

  Lemma next_l : forall l ls t ts, event_next dbg (st_l (l :: ls) t ts) = Some (Some (inl l), if N.eqb (l_id l) (t_link t) then st_t ls t ts else st_l ls t ts).
  Proof. intros. unfold event_next, st_l, st_t. cbn. destruct (N.eqb (l_id l) (t_link t)); reflexivity. Qed.
  Lemma next_t : forall ls t t' ts, event_next dbg (st_t ls t (t' :: ts)) = Some (Some (inr t), if N.eqb (t_link t) (t_link t') then st_t ls t' ts else st_l ls t' ts).
  Proof. intros. unfold event_next, st_l, st_t. cbn. destruct (N.eqb (t_link t) (t_link t')); reflexivity. Qed.

  Lemma traces_emit : forall ls r rs i, t_link r <> i -> forall us t, t_link t = i -> (forall u, In u us -> t_link u = i) ->
    emits (st_t ls t (us ++ r :: rs)) (map inr (t :: us)) (st_l ls r rs).
  Proof.
    intros ls r rs i Hr. induction us as [|u us IH]; intros t Ht Hu; cbn [app map].
    - econstructor; [rewrite next_t; replace (N.eqb (t_link t) (t_link r)) with false; [reflexivity|symmetry; apply N.eqb_neq; congruence]|constructor].
    - econstructor; [rewrite next_t; replace (N.eqb (t_link t) (t_link u)) with true; [reflexivity|symmetry; apply N.eqb_eq; rewrite Ht, Hu; cbn; auto]|].
      apply IH; [apply Hu; cbn; auto|intros; apply Hu; cbn; auto].
  Qed.

  Lemma last_yields : forall ls i, (dbg = true -> length ls <= 1) -> forall us t, t_link t = i -> (forall u, In u us -> t_link u = i) ->
    yields (event_next dbg) (st_t ls t us) (map inr (t :: us)).
  Proof.
    intros ls i Hd. induction us as [|u us IH]; intros t Ht Hu; cbn [map].
    - destruct dbg eqn:Ed.
      + assert (E : tl ls = []) by (specialize (Hd eq_refl); destruct ls as [|a [|b ls]]; cbn in *; auto; lia).
        econstructor; [unfold event_next, st_t; cbn; rewrite E; reflexivity|]. eapply ye_end. reflexivity.
      + econstructor; [reflexivity|]. eapply ye_end. reflexivity.
    - econstructor; [rewrite next_t; replace (N.eqb (t_link t) (t_link u)) with true; [reflexivity|symmetry; apply N.eqb_eq; rewrite Ht, Hu; cbn; auto]|].
      apply IH; [apply Hu; cbn; auto|intros; apply Hu; cbn; auto].
  Qed.

  Lemma last_panics : forall ls i, dbg = true -> 2 <= length ls -> forall us t, t_link t = i -> (forall u, In u us -> t_link u = i) ->
    panics_after (event_next dbg) (st_t ls t us) (removelast (map inr (t :: us))).
  Proof.
    intros ls i Hd Hl. induction us as [|u us IH]; intros t Ht Hu.
    - cbn. apply pa_now. destruct ls as [|a [|b ls]]; cbn in Hl; try lia. unfold event_next, st_t. cbn. rewrite Hd. reflexivity.
    - change (removelast (map (@inr link_data trace) (t :: u :: us))) with (@inr link_data trace t :: removelast (map inr (u :: us))).
      econstructor; [rewrite next_t; replace (N.eqb (t_link t) (t_link u)) with true; [reflexivity|symmetry; apply N.eqb_eq; rewrite Ht, Hu; cbn; auto]|].
      apply IH; [apply Hu; cbn; auto|intros; apply Hu; cbn; auto].
  Qed.

  Notation group := (link_data * list trace)%type.
  Notation grouped := (grouped l_id (@t_link F)).

  Lemma traces_in : forall (gs : list group) t, grouped gs -> In t (traces_of gs) -> In (t_link t) (map l_id (links_of gs)).
  Proof.
    intros gs t G H. unfold traces_of in H. apply in_concat in H. destruct H as (ts & H1 & H2). apply in_map_iff in H1. destruct H1 as ((l & ts') & <- & H1).
    rewrite (G l ts' t H1 H2). apply in_map. unfold links_of. apply in_map_iff. exists (l, ts'). auto.
  Qed.

  Lemma groups_emit : forall (gs : list group) ls r rs, grouped gs -> distinct l_id (links_of gs) -> ~ In (t_link r) (map l_id (links_of gs)) ->
    forall t ts, traces_of gs ++ r :: rs = t :: ts -> emits (st_l (links_of gs ++ ls) t ts) (expected gs) (st_l ls r rs).
  Proof.
    induction gs as [|[l us] gs IH]; intros ls r rs G D Hr t ts E.
    - cbn in E. injection E as <- <-. constructor.
    - assert (G' : grouped gs) by (intros l0 ts0 t0 H; apply (G l0 ts0 t0); cbn; auto).
      unfold distinct in D. cbn [links_of map fst] in D, Hr. apply NoDup_cons_iff in D. destruct D as [D1 D2].
      change (traces_of ((l, us) :: gs)) with (us ++ traces_of gs) in E. rewrite <- app_assoc in E.
      destruct (traces_of gs ++ r :: rs) as [|r' rs'] eqn:ER; [destruct (traces_of gs); discriminate ER|].
      assert (Hn : t_link r' <> l_id l).
      { destruct (traces_of gs) as [|q qs] eqn:EQ; cbn in ER; injection ER as <- _.
        - intros C. apply Hr. left. auto.
        - intros C. apply D1. rewrite <- C. apply traces_in; auto. rewrite EQ. cbn. auto. }
      specialize (IH ls r rs G' D2 (fun H => Hr (or_intror H)) r' rs' ER).
      change (links_of ((l, us) :: gs) ++ ls) with (l :: (links_of gs ++ ls)).
      change (expected ((l, us) :: gs)) with (inl l :: (map inr us ++ expected gs)).
      econstructor; [apply next_l|]. destruct us as [|u us].
      + cbn in E. injection E as <- <-. cbn [map app]. replace (N.eqb (l_id l) (t_link r')) with false by (symmetry; apply N.eqb_neq; congruence). exact IH.
      + cbn in E. injection E as <- <-. assert (Hu : forall v, In v (u :: us) -> t_link v = l_id l) by (intros v Hv; apply (G l (u :: us) v); cbn; auto).
        replace (N.eqb (l_id l) (t_link u)) with true by (symmetry; apply N.eqb_eq; symmetry; apply Hu; cbn; auto).
        eapply emits_app; [eapply traces_emit; [exact Hn|apply Hu; cbn; auto|intros; apply Hu; cbn; auto]|exact IH].
  Qed.

  Lemma new_st : forall ls (ts : list trace) t ts', ls <> [] -> ts = t :: ts' -> event_iter ls ts = Some (st_l ls t ts').
  Proof. intros [|l ls] ts t ts' H ->; [congruence|reflexivity]. Qed.

  Lemma links_emit : forall ls (t : trace) ts, ~ In (t_link t) (map l_id ls) -> panics_after (event_next dbg) (st_l ls t ts) (map inl ls).
  Proof.
    induction ls as [|l ls IH]; intros t ts H; cbn [map].
    - apply pa_now. reflexivity.
    - econstructor; [rewrite next_l; replace (N.eqb (l_id l) (t_link t)) with false; [reflexivity|symmetry; apply N.eqb_neq; intros C; apply H; cbn; auto]|].
      apply IH. intros C. apply H. cbn. auto.
  Qed.

  (** up to the first trace of the last group with traces *)
  Lemma before_last : forall (gs : list group) l t us ex, grouped (gs ++ [(l, t :: us)]) -> distinct l_id (links_of (gs ++ [(l, t :: us)])) ->
    exists s, event_iter (links_of (gs ++ [(l, t :: us)]) ++ ex) (traces_of (gs ++ [(l, t :: us)])) = Some s /\
      emits s (expected gs ++ [inl l]) (st_t ex t us) /\ expected (gs ++ [(l, t :: us)]) = (expected gs ++ [inl l]) ++ map inr (t :: us) /\
      t_link t = l_id l /\ (forall u, In u us -> t_link u = l_id l).
  Proof.
    intros gs l t us ex G D.
    assert (Hu : forall v, In v (t :: us) -> t_link v = l_id l) by (intros v Hv; apply (G l (t :: us) v); auto; apply in_or_app; cbn; auto).
    assert (G' : grouped gs) by (intros l0 ts0 t0 H; apply (G l0 ts0 t0); apply in_or_app; auto).
    unfold distinct, links_of in D. rewrite !map_app in D. cbn in D. pose proof (NoDup_remove _ _ _ D) as [D1 D2]. rewrite app_nil_r in D1, D2.
    assert (ET : traces_of (gs ++ [(l, t :: us)]) = traces_of gs ++ t :: us) by (unfold traces_of; rewrite map_app, concat_app; cbn; rewrite app_nil_r; reflexivity).
    assert (EL : links_of (gs ++ [(l, t :: us)]) ++ ex = links_of gs ++ l :: ex) by (unfold links_of; rewrite map_app, <- app_assoc; reflexivity).
    rewrite EL, ET. destruct (traces_of gs ++ t :: us) as [|t0 ts0] eqn:E0; [destruct (traces_of gs); discriminate E0|].
    exists (st_l (links_of gs ++ l :: ex) t0 ts0). split; [apply new_st; auto; destruct (links_of gs); discriminate|]. split; [|split].
    - eapply emits_app; [apply groups_emit with (r := t) (rs := us); auto|].
      + rewrite (Hu t); cbn; auto.
      + econstructor; [rewrite next_l; replace (N.eqb (l_id l) (t_link t)) with true; [reflexivity|symmetry; apply N.eqb_eq; symmetry; apply Hu; cbn; auto]|constructor].
    - unfold expected. rewrite flat_map_app. cbn. rewrite app_nil_r, <- app_assoc. reflexivity.
    - split; [apply Hu; cbn; auto|intros; apply Hu; cbn; auto].
  Qed.
End Proofs.
