(** Boolean checks used by the examples beside the theorems: facts about concrete graphs given by adjacency lists. *)
From Verif Require Import Base SpecGraph.

Definition tab (adj : list (list (nat * N))) (u : nat) : option (list (nat * N)) := nth_error adj u.
Definition wf_check (n : nat) (adj : list (list (nat * N))) : bool :=
  (length adj =? n) && forallb (forallb (fun a => (fst a <? n) && (snd a <=? INF)%N)) adj.
Lemma wf_check_ok n adj : wf_check n adj = true -> wf_links n (tab adj).
Proof.
  intros H u Hu. unfold wf_check in H. apply Bool.andb_true_iff in H. destruct H as [H1 H2]. apply Nat.eqb_eq in H1. subst n. unfold tab.
  destruct (nth_error adj u) as [l|] eqn:E. 2: { apply nth_error_None in E. lia. }
  exists l. split; auto. intros v w Hin. rewrite forallb_forall in H2. specialize (H2 l (nth_error_In _ _ E)). rewrite forallb_forall in H2. specialize (H2 _ Hin).
  cbn in H2. apply Bool.andb_true_iff in H2. destruct H2 as [H2 H3]. apply Nat.ltb_lt in H2. apply N.leb_le in H3. auto.
Qed.
Definition arcs_of (adj : list (list (nat * N))) : list (nat * nat * N) :=
  flat_map (fun u => map (fun a => (u, fst a, snd a)) (nth u adj [])) (seq 0 (length adj)).
Lemma arcs_of_spec adj u v w : In (u, v, w) (arcs_of adj) <-> garc (tab adj) u v w.
Proof.
  unfold arcs_of, garc, tab. rewrite in_flat_map. split.
  - intros (u' & Hu & Hin). apply in_map_iff in Hin. destruct Hin as ([v' w'] & [= <- <- <-] & Hin). apply in_seq in Hu.
    exists (nth u' adj []). split; auto. apply nth_error_nth'. lia.
  - intros (l & E & Hin). exists u. split. { apply in_seq. apply nth_error_Some_lt in E. lia. }
    apply in_map_iff. exists (v, w). split; auto. erewrite nth_error_nth; eauto.
Qed.
Definition arc_eqb (a b : nat * nat * N) : bool := (fst (fst a) =? fst (fst b)) && (snd (fst a) =? snd (fst b)) && (snd a =? snd b)%N.
Lemma arc_eqb_ok a b : arc_eqb a b = true <-> a = b.
Proof.
  destruct a as [[u v] w], b as [[u' v'] w']. unfold arc_eqb. cbn. rewrite !Bool.andb_true_iff, !Nat.eqb_eq, N.eqb_eq. split.
  - intros [[-> ->] ->]. auto.
  - intros [= -> -> ->]. auto.
Qed.
Definition arc_sub (l1 l2 : list (nat * nat * N)) : bool := forallb (fun a => existsb (arc_eqb a) l2) l1.
Lemma arc_sub_ok l1 l2 : arc_sub l1 l2 = true -> forall a, In a l1 -> In a l2.
Proof.
  intros H a Ha. unfold arc_sub in H. rewrite forallb_forall in H. specialize (H a Ha). apply existsb_exists in H. destruct H as (b & Hb & E).
  apply arc_eqb_ok in E. subst. auto.
Qed.
Definition swap_arcs (l : list (nat * nat * N)) := map (fun a => (snd (fst a), fst (fst a), snd a)) l.
Definition rev_check (adj radj : list (list (nat * N))) : bool :=
  arc_sub (swap_arcs (arcs_of adj)) (arcs_of radj) && arc_sub (swap_arcs (arcs_of radj)) (arcs_of adj).
Lemma rev_check_ok adj radj : rev_check adj radj = true -> forall u v w, garc (tab radj) v u w <-> garc (tab adj) u v w.
Proof.
  intros H u v w. unfold rev_check in H. apply Bool.andb_true_iff in H. destruct H as [H1 H2]. rewrite <- !arcs_of_spec.
  assert (SW : forall l u v w, In (u, v, w) l -> In (v, u, w) (swap_arcs l)). { intros l a b c Hi. apply in_map_iff. exists (a, b, c). auto. }
  split; intros Hi.
  - apply (arc_sub_ok _ _ H2). apply SW. auto.
  - apply (arc_sub_ok _ _ H1). apply SW. auto.
Qed.
(** the reversed adjacency lists *)
Definition rev_tab (adj : list (list (nat * N))) : list (list (nat * N)) :=
  map (fun v => map (fun a => (fst (fst a), snd a)) (filter (fun a => snd (fst a) =? v) (arcs_of adj))) (seq 0 (length adj)).

(** a potential given by a table *)
Definition htab (h : list (option N)) (v : nat) : option N := nth v h None.
Definition tab_init (e : unit) (_ : nat) : option unit := Some e.
Definition tab_get (h : list (option N)) (e : unit) (v : nat) : option (unit * option N) := Some (e, htab h v).
Lemma tab_contract n t0 h : pot_contract n (fun t => t = t0) tab_init (tab_get h) (fun _ => True) (fun _ _ => True) (fun _ => htab h).
Proof. split; auto. - intros e t _ _. exists e. auto. - intros e t v _ _. exists e. auto. Qed.
Definition feas_check (adj : list (list (nat * N))) (t : nat) (h : list (option N)) : bool :=
  match htab h t with Some 0%N => true | _ => false end &&
  forallb (fun a => match htab h (snd (fst a)) with
                    | Some q => match htab h (fst (fst a)) with Some p => (p <=? snd a + q)%N | None => false end
                    | None => true end) (arcs_of adj).
Lemma feas_check_ok adj t h : feas_check adj t h = true -> feasible_pot (garc (tab adj)) t (htab h).
Proof.
  intros H. unfold feas_check in H. apply Bool.andb_true_iff in H. destruct H as [H1 H2]. split.
  - destruct (htab h t) as [[|]|]; congruence.
  - intros u v w q Ha Hq. apply arcs_of_spec in Ha. rewrite forallb_forall in H2. specialize (H2 _ Ha). cbn in H2. rewrite Hq in H2.
    destruct (htab h u) as [p|]; [|discriminate]. apply N.leb_le in H2. eauto.
Qed.
Definition max_check (b : N) (h : list (option N)) : bool := forallb (fun o => match o with Some p => (p <=? b)%N | None => true end) h.
Lemma max_check_ok b h : max_check b h = true -> forall v p, htab h v = Some p -> (p <= b)%N.
Proof.
  intros H v p Hp. unfold htab in Hp. unfold max_check in H. rewrite forallb_forall in H.
  destruct (nth_in_or_default v h None) as [Hi|E]; [|congruence]. rewrite Hp in Hi. specialize (H _ Hi). cbn in H. apply N.leb_le in H. auto.
Qed.
Lemma max_small b h : (b + INF <= 4294967296)%N -> max_check b h = true -> small_pot (htab h).
Proof. intros Hb H v p Hp. pose proof (max_check_ok b h H v p Hp). lia. Qed.
(** the walk along a list of arcs *)
Lemma walk_step_tab adj u v t w l : In (u, v, w) (arcs_of adj) -> walk (garc (tab adj)) v t l -> walk (garc (tab adj)) u t (w + l).
Proof. intros H W. apply arcs_of_spec in H. econstructor; eauto. Qed.
