(** Proofs about the adjacency array model. *)
From Verif Require Import Base BitVec SpecGraph Graph.

(** [slice] without panics. *)
Lemma slice_Some {A} (l : list A) a b : a <= b <= length l -> slice l a b = Some (firstn (b - a) (skipn a l)).
Proof. intros H. unfold slice. destruct (Nat.leb_spec a b), (Nat.leb_spec b (length l)); try lia. reflexivity. Qed.

Lemma nth_error_skipn' {A} (l : list A) a k : nth_error (skipn a l) k = nth_error l (a + k).
Proof. revert l; induction a as [|a IH]; intros [|x l]; cbn; auto. destruct k; auto. Qed.
Lemma nth_error_firstn' {A} (l : list A) n k : nth_error (firstn n l) k = if k <? n then nth_error l k else None.
Proof.
  revert l k; induction n as [|n IH]; intros [|x l] [|k]; cbn [firstn nth_error]; auto.
  - destruct (S k <? S n); auto.
  - rewrite IH. destruct (Nat.ltb_spec k n), (Nat.ltb_spec (S k) (S n)); auto; lia.
Qed.
Lemma nth_error_slice {A} (l : list A) a b k : nth_error (firstn (b - a) (skipn a l)) k = if k <? b - a then nth_error l (a + k) else None.
Proof. rewrite nth_error_firstn', nth_error_skipn'. reflexivity. Qed.

Lemma combine_map_fst_snd {A B} (l : list (A * B)) : combine (map fst l) (map snd l) = l.
Proof. induction l as [|[a b] l IH]; cbn; congruence. Qed.

Section Wf.
  Context {W : Type}.
  Implicit Type g : fograph W.

  Record wf g : Prop := {
    wf_ne : 0 < length (first_out g);
    wf_first : nth_error (first_out g) 0 = Some 0;
    wf_mono : forall u a b, nth_error (first_out g) u = Some a -> nth_error (first_out g) (u + 1) = Some b -> a <= b;
    wf_last : nth_error (first_out g) (num_nodes g) = Some (length (head g));
    wf_wt : length (weight g) = length (head g) }.

  Lemma wf_mono_le g u v a b : wf g -> u <= v -> nth_error (first_out g) u = Some a -> nth_error (first_out g) v = Some b -> a <= b.
  Proof.
    intros H Huv. revert b. induction Huv as [|v Huv IH]; intros b Ha Hb. { assert (a = b) by congruence. lia. }
    destruct (nth_error_lt (first_out g) v) as [c Hc]. { apply nth_error_Some_lt in Hb. lia. }
    specialize (IH c Ha Hc). assert (c <= b). { eapply (wf_mono g H v); eauto. rewrite Nat.add_1_r; auto. } lia.
  Qed.

  Lemma range_ok g u : wf g -> u < num_nodes g ->
    exists a b, range g u = Some (a, b) /\ nth_error (first_out g) u = Some a /\ nth_error (first_out g) (u + 1) = Some b /\ a <= b <= length (head g).
  Proof.
    intros H Hu. unfold num_nodes in Hu. unfold range.
    destruct (nth_error_lt (first_out g) u) as [a Ha]; [lia|]. destruct (nth_error_lt (first_out g) (u + 1)) as [b Hb]; [lia|].
    rewrite Ha; cbn [bind]; rewrite Hb; cbn [bind]. exists a, b. repeat split; auto. { eapply wf_mono; eauto. }
    eapply (wf_mono_le g (u + 1) (num_nodes g)); eauto. { unfold num_nodes; lia. } apply wf_last; auto.
  Qed.

  Lemma link_iter_ok g u : wf g -> u < num_nodes g -> exists l, link_iter g u = Some l.
  Proof.
    intros H Hu. unfold link_iter. destruct (range_ok g u H Hu) as (a & b & E & _ & _ & L). rewrite E; cbn [bind].
    rewrite !slice_Some by (rewrite ?(wf_wt g H); lia). cbn [bind]. eauto.
  Qed.

  (** The k-th link of node [u] is edge number first_out[u] + k. *)
  Lemma link_iter_nth g u l k : wf g -> link_iter g u = Some l ->
    exists a b, range g u = Some (a, b) /\ length l = b - a /\ a <= b <= length (head g) /\
      nth_error l k = if k <? b - a then link g (a + k) else None.
  Proof.
    intros H. unfold link_iter. destruct (range g u) as [[a b]|] eqn:E; cbn [bind]; [|discriminate].
    intros H1. assert (a <= b <= length (head g)).
    { destruct (slice (head g) a b) eqn:F; cbn [bind] in H1; [|discriminate].
      unfold slice in F. destruct (Nat.leb_spec a b), (Nat.leb_spec b (length (head g))); cbn in F; try discriminate. lia. }
    rewrite !slice_Some in H1 by (rewrite ?(wf_wt g H); lia). cbn [bind] in H1. injection H1 as <-.
    exists a, b. split; auto. split. { rewrite combine_length, !firstn_length, !skipn_length. rewrite (wf_wt g H). lia. }
    split; auto.
    assert (C : forall (l1 : list nat) (l2 : list W) k, nth_error (combine l1 l2) k =
       match nth_error l1 k, nth_error l2 k with Some x, Some y => Some (x, y) | _, _ => None end).
    { clear. induction l1 as [|x l1 IH]; intros l2 [|k]; cbn; auto; destruct l2; cbn; auto. destruct (nth_error l1 k); auto. }
    rewrite C, !nth_error_slice. unfold link. destruct (k <? b - a); auto.
  Qed.

  Lemma fo_new_ok (fo hd : list nat) (wt : list W) :
    (N.of_nat (length fo) < U32MAX)%N -> (N.of_nat (length hd) < U32MAX)%N ->
    nth_error fo 0 = Some 0 -> nth_error fo (length fo - 1) = Some (length hd) -> length wt = length hd ->
    fo_new fo hd wt = Some (mkFo fo hd wt).
  Proof.
    intros. unfold fo_new. rewrite (proj2 (N.ltb_lt _ _) H), (proj2 (N.ltb_lt _ _) H0). cbn [guard bind].
    rewrite H1; cbn [bind]. cbn [Nat.eqb guard bind]. rewrite H2; cbn [bind]. rewrite Nat.eqb_refl. cbn [guard bind].
    rewrite H3, Nat.eqb_refl. reflexivity.
  Qed.

  Lemma scan_sum_nth s ds i : i < length ds -> nth_error (scan_sum s ds) i = Some (s + list_sum (firstn (S i) ds)).
  Proof.
    revert s i; induction ds as [|d ds IH]; intros s [|i]; cbn [length]; intros H; try lia.
    - cbn. f_equal; lia.
    - cbn [scan_sum nth_error]. rewrite IH by lia. cbn [firstn list_sum fold_right]. f_equal. cbn. unfold list_sum; cbn. lia.
  Qed.
  Lemma scan_sum_length s ds : length (scan_sum s ds) = length ds.
  Proof. revert s; induction ds; intros; cbn; auto. Qed.
  Lemma d2fo_nth ds i : i <= length ds -> nth_error (degrees_to_first_out ds) i = Some (list_sum (firstn i ds)).
  Proof.
    intros H. unfold degrees_to_first_out. destruct i; auto. cbn [nth_error]. rewrite scan_sum_nth by lia. f_equal.
  Qed.

  Lemma concat_firstn_length {A} (ls : list (list A)) i : list_sum (firstn i (map (@length A) ls)) = length (concat (firstn i ls)).
  Proof. revert i; induction ls as [|l ls IH]; intros [|i]; cbn; auto. rewrite app_length, <- IH. reflexivity. Qed.

  Lemma slice_concat {A} (ls : list (list A)) u l : nth_error ls u = Some l ->
    length (concat (firstn u ls)) <= length (concat (firstn (u + 1) ls)) <= length (concat ls) /\
    firstn (length (concat (firstn (u + 1) ls)) - length (concat (firstn u ls))) (skipn (length (concat (firstn u ls))) (concat ls)) = l.
  Proof.
    intros H. apply nth_error_split in H. destruct H as (l1 & l2 & -> & <-).
    rewrite Nat.add_1_r, firstn_app, firstn_all, Nat.sub_diag, app_nil_r.
    rewrite firstn_app, Nat.sub_succ_l, Nat.sub_diag by lia. rewrite firstn_all2 by lia. cbn [firstn]. rewrite !concat_app. cbn [concat].
    rewrite !app_nil_r, !app_length. split; [lia|].
    rewrite skipn_app, skipn_all, Nat.sub_diag. cbn [skipn app]. rewrite firstn_app.
    replace (_ + _ - _ - length l) with 0 by lia. rewrite firstn_O, app_nil_r. apply firstn_all2. lia.
  Qed.

  Lemma from_adjacency_ok (adj : list (list (nat * W))) :
    (N.of_nat (length adj) + 1 < U32MAX)%N -> (N.of_nat (length (concat adj)) < U32MAX)%N ->
    exists g, from_adjacency_lists adj = Some g /\ wf g /\ num_nodes g = length adj /\ num_arcs g = length (concat adj) /\
      forall u l, nth_error adj u = Some l -> link_iter g u = Some l.
  Proof.
    intros H1 H2. unfold from_adjacency_lists.
    set (fo := degrees_to_first_out (map (@length _) adj)).
    assert (Lfo : length fo = length adj + 1). { unfold fo, degrees_to_first_out. cbn. rewrite scan_sum_length, map_length. lia. }
    assert (Nfo : forall i, i <= length adj -> nth_error fo i = Some (length (concat (firstn i adj)))).
    { intros i Hi. unfold fo. rewrite d2fo_nth by (rewrite map_length; lia). rewrite concat_firstn_length. auto. }
    rewrite fo_new_ok.
    2:{ rewrite Lfo. lia. }
    2:{ rewrite map_length; auto. }
    2:{ apply Nfo; lia. }
    2:{ rewrite Lfo, Nat.add_sub. rewrite Nfo, firstn_all, map_length by lia. auto. }
    2:{ rewrite !map_length; auto. }
    eexists. split; [reflexivity|]. unfold num_nodes, num_arcs.
    split; [|split; [cbn [first_out]; lia|split; [cbn [head]; rewrite map_length; auto|]]].
    - constructor; cbn [first_out head weight].
      + lia.
      + apply (Nfo 0); lia.
      + intros u a b Ha Hb. assert (u + 1 < length fo) by (eapply nth_error_Some_lt; eauto).
        rewrite Nfo in Ha, Hb by lia. injection Ha as <-. injection Hb as <-.
        destruct (nth_error_lt adj u) as [l Hl]; [lia|]. apply slice_concat in Hl. lia.
      + unfold num_nodes; cbn [first_out]. rewrite Lfo, Nat.add_sub, Nfo, firstn_all, map_length by lia. auto.
      + rewrite !map_length; auto.
    - intros u l Hl. assert (u < length adj) by (eapply nth_error_Some_lt; eauto).
      unfold link_iter, range; cbn [first_out head weight]. rewrite !Nfo by lia. cbn [bind].
      destruct (slice_concat adj u l Hl) as [S1 S2].
      rewrite !slice_Some by (rewrite map_length; lia). cbn [bind]. f_equal.
      rewrite !skipn_map, !firstn_map, S2, combine_map_fst_snd. reflexivity.
  Qed.
End Wf.
