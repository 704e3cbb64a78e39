(** Properties C59 and C60: minimal subpaths that are not (almost) shortest. *)
From Coq Require Import Sorting.Sorted Permutation.
From Verif Require Import Base SpecGraph Graph GraphSpecProof GraphProof PropsGraph Dijkstra DijServer PropsBidir SpecUBS UBS UBSFilterProof UBSProof.

(** ** C59: filtering ranges that cover others *)
Theorem C59_filter_keeps_minimal_ranges :
  forall sort ranges, cmp_sort rg_ltb sort -> (forall r, In r ranges -> fst r <= snd r) ->
  exists out, filter_covered sort ranges = Some out /\ lists_minimal (fun r => In r ranges) out.
Proof. exact filter_covered_ok. Qed.
Print Assumptions C59_filter_keeps_minimal_ranges.

(** insertion sort with the comparator of the code *)
Fixpoint rg_insert (r : prange) (l : list prange) : list prange :=
  match l with [] => [r] | a :: l' => if rg_ltb a r then a :: rg_insert r l' else r :: l end.
Definition rg_isort (l : list prange) : list prange := fold_right rg_insert [] l.
Lemma rg_ltb_total a b : rg_ltb a b = true -> rg_ltb b a = false.
Proof. unfold rg_ltb. destruct a as [a1 a2], b as [b1 b2]. cbn [fst snd]. destruct (Nat.ltb_spec a1 b1), (Nat.ltb_spec b1 a1), (Nat.eqb_spec a1 b1), (Nat.eqb_spec b1 a1), (Nat.ltb_spec b2 a2), (Nat.ltb_spec a2 b2); cbn; auto; try lia; discriminate. Qed.
Lemma rg_ltb_trans a b x : rg_ltb b a = false -> rg_ltb x b = false -> rg_ltb x a = false.
Proof.
  unfold rg_ltb. destruct a as [a1 a2], b as [b1 b2], x as [x1 x2]. cbn [fst snd]. intros H1 H2. apply orb_false_iff in H1, H2. destruct H1 as [H1 H1'], H2 as [H2 H2']. apply andb_false_iff in H1', H2'.
  rewrite ?Nat.ltb_ge, ?Nat.eqb_neq in *. apply orb_false_iff. split; [apply Nat.ltb_ge; lia|]. apply andb_false_iff. rewrite Nat.eqb_neq, Nat.ltb_ge. lia.
Qed.
Example rg_isort_ok : cmp_sort rg_ltb rg_isort.
Proof.
  assert (P : forall r l, Permutation (r :: l) (rg_insert r l)).
  { intros r l. induction l as [|a l IH]; cbn; auto. destruct (rg_ltb a r); auto. transitivity (a :: r :: l). { constructor. } constructor. auto. }
  intros l. split. { induction l as [|a l IH]; cbn; auto. rewrite <- P. auto. }
  induction l as [|a l IH]; cbn. { constructor. } unfold rg_isort in IH. revert IH. generalize (fold_right rg_insert [] l). clear - P.
  intros l S. induction S as [|b l S IH F]; cbn. { repeat constructor. } destruct (rg_ltb b a) eqn:E.
  - constructor; auto. apply Forall_forall. intros x Hx. assert (Hin : In x (a :: l)). { eapply Permutation_in; [symmetry; apply P|auto]. }
    destruct Hin as [<-|Hin]; [apply rg_ltb_total; auto|]. rewrite Forall_forall in F. auto.
  - constructor. { constructor; auto. } constructor; auto. apply Forall_forall. intros x Hx. rewrite Forall_forall in F. eapply rg_ltb_trans; eauto.
Qed.
Example C59_nonvacuous : filter_covered rg_isort [(2, 9); (4, 6); (0, 3); (4, 6); (5, 8); (3, 6); (1, 3)] = Some [(1, 3); (4, 6); (5, 8)].
Proof. vm_compute. reflexivity. Qed.

(** ** C60: the search for violating subpaths *)

Theorem C60_violating_subpaths :
  forall adj g rg dbg sort thr paths, valid_adj adj -> fits_u32 adj -> (forall l v w, In l adj -> In (v, w) l -> (w <= INF)%N) ->
  from_adjacency_lists adj = Some g -> reversed 0%N (num_nodes g) (num_arcs g) (link_iter g) = Some rg ->
  cmp_sort rg_ltb sort -> (forall a b, (a <= b)%N -> (thr a <= thr b)%N) ->
  (dbg = true -> forall u v w, adj_arc adj u v w -> (0 < w)%N) -> Forall (good_path adj) paths ->
  exists u, ubs_history dbg g rg sort thr (ubs_new g) paths = Some u /\
  forall path, good_path adj path -> exists u' r, ubs_find dbg g rg sort thr u path = Some (u', r) /\
    (NoDup path -> lists_minimal (violates (adj_arc adj) thr path) r) /\
    (~ NoDup path -> r <> [] /\ StronglySorted (fun a b => snd a < snd b) r /\ forall q, In q r <-> revisit path q).
Proof.
  intros adj g rg dbg sort thr paths HV HF HW Hg Hr Hs Ht Hd Hp.
  destruct (ubs_history_ok adj g rg HV HF HW Hg Hr dbg sort Hs thr Ht Hd paths Hp) as (u & E & HU). exists u. split; [exact E|].
  intros path [G1 G2]. destruct (ListDec.NoDup_dec Nat.eq_dec path) as [ND|ND].
  - destruct (ubs_find_simple adj g rg HV HF HW Hg Hr dbg sort Hs thr Ht Hd u path HU ND G1 (G2 ND)) as (u' & r & Ef & _ & LM). exists u', r. split; [exact Ef|]. split; [auto|]. intros; contradiction.
  - destruct (ubs_find_repeat adj g rg HW dbg sort thr Hd u path HU ND G1) as (u' & r & Ef & _ & LM). exists u', r. split; [exact Ef|]. split; [intros; contradiction|]. intros _. exact LM.
Qed.
Print Assumptions C60_violating_subpaths.

(** nothing is reported exactly if no subpath violates *)
Theorem C60_empty_iff_fine :
  forall adj g rg dbg sort thr paths path, valid_adj adj -> fits_u32 adj -> (forall l v w, In l adj -> In (v, w) l -> (w <= INF)%N) ->
  from_adjacency_lists adj = Some g -> reversed 0%N (num_nodes g) (num_arcs g) (link_iter g) = Some rg ->
  cmp_sort rg_ltb sort -> (forall a b, (a <= b)%N -> (thr a <= thr b)%N) ->
  (dbg = true -> forall u v w, adj_arc adj u v w -> (0 < w)%N) -> Forall (good_path adj) paths -> good_path adj path -> NoDup path ->
  exists u u' r, ubs_history dbg g rg sort thr (ubs_new g) paths = Some u /\ ubs_find dbg g rg sort thr u path = Some (u', r) /\
    (r = [] <-> forall q, ~ violates (adj_arc adj) thr path q).
Proof.
  intros adj g rg dbg sort thr paths path HV HF HW Hg Hr Hs Ht Hd Hp Hgp ND.
  destruct (C60_violating_subpaths adj g rg dbg sort thr paths HV HF HW Hg Hr Hs Ht Hd Hp) as (u & E & H). destruct (H path Hgp) as (u' & r & Ef & L & _). destruct (L ND) as [_ LM].
  exists u, u', r. split; [exact E|]. split; [exact Ef|]. split.
  - intros -> q Hq. assert (Hm : forall k q, snd q - fst q <= k -> violates (adj_arc adj) thr path q -> ~ ~ exists q', inclusion_minimal (violates (adj_arc adj) thr path) q').
    { clear. induction k as [|k IH]; intros q Hk Hq. { destruct Hq. lia. } intros NE. apply NE. exists q. split; auto. intros q' Hq' H1 H2.
      destruct (Nat.eq_dec (snd q' - fst q') (snd q - fst q)) as [E|Hne]. { destruct Hq' as [Hlt' _], Hq as [Hlt _]. destruct q, q'; cbn in *. f_equal; lia. }
      exfalso. destruct Hq as [Hlt _]. apply (IH q'); auto. lia. }
    apply (Hm _ q (le_n _) Hq). intros (q' & Hq'). apply LM in Hq'. destruct Hq'.
  - intros HN. destruct r as [|q r]; auto. exfalso. apply (HN q). apply (proj1 (LM q)). cbn. auto.
Qed.
Print Assumptions C60_empty_iff_fine.

(** a path 0-1-2-3-4-5 with detours: the direct arc 1 -> 3 and the way 3 -> 6 -> 5 are shorter *)
Definition ubs_adj : list (list (nat * N)) :=
  [ [(1, 2%N)]; [(2, 5%N); (3, 4%N); (2, 7%N)]; [(3, 5%N)]; [(4, 6%N); (6, 1%N)]; [(5, 6%N)]; [(0, 3%N)]; [(5, 2%N); (1, 1%N)] ].
Definition ubs_g : fograph N := match from_adjacency_lists ubs_adj with Some g => g | None => mkFo [] [] [] end.
Definition ubs_rg : fograph N := match reversed 0%N (num_nodes ubs_g) (num_arcs ubs_g) (link_iter ubs_g) with Some g => g | None => mkFo [] [] [] end.
Definition ubs_thr (d : N) : N := (d / 4)%N.
Definition ubs_run (paths : list (list nat)) (path : list nat) : option (list (nat * nat)) :=
  u <- ubs_history true ubs_g ubs_rg rg_isort ubs_thr (ubs_new ubs_g) paths ;; '(_, r) <- ubs_find true ubs_g ubs_rg rg_isort ubs_thr u path ;; Some r.
Example C60_nonvacuous :
  valid_adj ubs_adj /\ fits_u32 ubs_adj /\ from_adjacency_lists ubs_adj = Some ubs_g /\
  reversed 0%N (num_nodes ubs_g) (num_arcs ubs_g) (link_iter ubs_g) = Some ubs_rg /\
  good_path ubs_adj [0; 1; 2; 3; 4; 5] /\ good_path ubs_adj [0; 1; 2; 3; 6; 1; 3; 4; 5; 0] /\
  ubs_run [] [0; 1; 2; 3; 4; 5] = Some [(1, 3); (3, 5)] /\
  ubs_run [[0; 1; 2; 3; 4; 5]; [0; 1; 2; 3; 6; 1; 3; 4; 5; 0]; []; [3]] [0; 1; 2; 3; 4; 5] = Some [(1, 3); (3, 5)] /\
  ubs_run [[0; 1; 2; 3; 4; 5]] [0; 1; 2; 3; 6; 1; 3; 4; 5; 0] = Some [(1, 5); (3, 6); (0, 9)] /\
  ubs_run [] [0; 1; 3; 6; 5] = Some [].
Proof.
  split. { intros l v w Hl Hv. repeat (destruct Hl as [<-|Hl]; [cbn in *; repeat (destruct Hv as [[= <- <-]|Hv]; [lia|]); destruct Hv|]). destruct Hl. }
  split. { vm_compute. repeat split; reflexivity. }
  split; [vm_compute; reflexivity|]. split; [vm_compute; reflexivity|].
  split. { split; [repeat constructor|]. intros _. right. exists (2 + (5 + (5 + (6 + (6 + 0)))))%N. split; [|vm_compute; reflexivity].
    repeat constructor; unfold adj_arc; cbn; auto; intros w'; cbn; intros H; repeat (destruct H as [[= <-]|H]; [lia|]); try destruct H as [H|H]; try discriminate; try contradiction;
      repeat (destruct H as [[= <-]|H]; [lia|]); try (destruct H as [H|H]; [discriminate|]); try contradiction. }
  split. { split; [repeat constructor|]. intros ND. exfalso. apply NoDup_nth_error with (i := 1) (j := 5) in ND; [discriminate|cbn; lia|reflexivity]. }
  split; [vm_compute; reflexivity|]. split; [vm_compute; reflexivity|]. split; vm_compute; reflexivity.
Qed.
