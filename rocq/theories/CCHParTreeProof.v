(** The tasks made from a validated separator tree satisfy the invariant of CCHParProof. *)
From Verif Require Import Base BitVec Graph GraphProof GraphRevProof GraphIdProof GraphSpecProof SpecGraph SpecCCH CCH CCHTheory CCHContractProof CCHBuildProof CCHCustProof CCHPathTheory NodeOrder SepTree SepTreeProof CCHPar CCHParProof.
From Coq Require Import Sorting.Sorted.

(** ** termination: every step makes the task smaller *)
Fixpoint tsize (t : task) : nat :=
  match t with
  | TExec _ _ code => S (length code)
  | TRun _ _ _ code => length code
  | TScope subs _ _ after => S (S (length after)) + list_sum (map tsize subs)
  end.
Lemma tstep_size n s t s' t' : tstep n s t s' t' -> tsize t' < tsize t.
Proof.
  induction 1; cbn [tsize length]; try lia. rewrite !map_app, !list_sum_app. cbn [map list_sum fold_right]. unfold list_sum in *. cbn [fold_right]. lia.
Qed.
Lemma tsteps_size n k s t s' t' : tsteps n k s t s' t' -> k + tsize t' <= tsize t.
Proof. induction 1; [lia|]. apply tstep_size in H. lia. Qed.

(** ** the ranges of a validated tree *)
Definition range_is (o k : nat) (l : list nat) : Prop := forall z, In z l <-> o <= z < o + k.

Lemma validate_inv s l k : validate (Sep s l k) = Some tt -> exists a b h start,
  s = Consecutive a b /\ match sn_high s with Some h => Some h | None => csub k 1 end = Some h /\ csub (h + 1) k = Some start /\
  (exists e, foldM child_range l start = Some e) /\ sizes_descend l = true /\ Forall (fun t => validate t = Some tt) l.
Proof.
  cbn [validate]. destruct s as [a b|ls]; cbn [guard bind]; [|discriminate].
  destruct (match sn_high (Consecutive a b) with Some h => Some h | None => csub k 1 end) as [h|] eqn:E1; cbn [bind]; [|discriminate].
  destruct (csub (h + 1) k) as [start|] eqn:E2; cbn [bind]; [|discriminate].
  destruct (foldM child_range l start) as [e|] eqn:E3; cbn [bind]; [|discriminate].
  destruct (sizes_descend l) eqn:E4; cbn [guard bind]; [|discriminate]. intros H. exists a, b, h, start. split; auto. split; auto. split; auto. split; [eauto|]. split; auto.
  clear -H. induction l as [|t l IH]; constructor.
  - destruct (validate t) as [[]|]; cbn [bind] in H; [auto|discriminate].
  - destruct (validate t) as [[]|]; cbn [bind] in H; [auto|discriminate].
Qed.
Lemma validate_intro s l k a b h start e : s = Consecutive a b -> match sn_high s with Some h => Some h | None => csub k 1 end = Some h -> csub (h + 1) k = Some start ->
  foldM child_range l start = Some e -> sizes_descend l = true -> Forall (fun t => validate t = Some tt) l -> validate (Sep s l k) = Some tt.
Proof.
  intros -> E1 E2 E3 E4 F. cbn [validate guard bind]. rewrite E1. cbn [bind]. rewrite E2. cbn [bind]. rewrite E3. cbn [bind]. rewrite E4. cbn [guard bind].
  clear -F. induction F as [|t l H F IH]; auto. rewrite H. cbn [bind]. exact IH.
Qed.

Lemma range_unique o o' k l : 0 < k -> range_is o k l -> range_is o' k l -> o = o'.
Proof.
  intros Hk R R'. assert (A : In o l) by (apply R; lia). assert (B : In o' l) by (apply R'; lia). apply R' in A. apply R in B. lia.
Qed.

Section Tree.
  Variable n : nat.
  Variable elim : list (option nat).
  Hypothesis HF : forest n elim.

  (** consecutive subtrees from [o]; each one is closed under children *)
  Inductive seqtrees : nat -> list septree -> Prop :=
  | sq_nil o : seqtrees o []
  | sq_cons o t l : range_is o (st_num t) (to_ordering t) -> seqtrees (o + st_num t) l -> seqtrees o (t :: l).

  Lemma children_ranges : forall cs l start e, Forall2 (sep_ok elim) cs l -> foldM child_range l start = Some e ->
    (forall t r, In t l -> sep_ok elim r t -> range_is (r + 1 - st_num t) (st_num t) (to_ordering t) /\ st_num t <= r + 1) ->
    e = start + total l /\ seqtrees start l.
  Proof using.
    intros cs l start e F. revert start e. induction F as [|r t cs l Hs F IH]; intros start e E H; cbn [foldM] in E.
    { injection E as <-. cbn. split; [lia|constructor]. }
    unfold child_range in E at 1. rewrite (sep_high _ _ _ Hs) in E. cbn [bind] in E. unfold csub in E at 1. destruct (Nat.leb_spec (st_num t) (r + 1)); cbn [bind] in E; [|discriminate].
    destruct (Nat.eqb_spec start (r + 1 - st_num t)) as [->|]; cbn [guard bind] in E; [|discriminate].
    destruct (H t r (or_introl eq_refl) Hs) as [R _]. destruct (IH _ _ E) as [-> Q]. { intros; apply H; auto. right; auto. }
    split. { change (total (t :: l)) with (st_num t + total l). lia. } constructor; auto.
  Qed.
  Lemma seqtrees_In : forall l o z, seqtrees o l -> (In z (flat_map to_ordering l) <-> o <= z < o + total l).
  Proof using.
    induction l as [|t l IH]; intros o z H; inversion H as [|o' t' l' R Q]; subst; cbn [flat_map].
    - split; [intros []|cbn; lia].
    - rewrite in_app_iff, (R z), (IH _ z Q). change (total (t :: l)) with (st_num t + total l). lia.
  Qed.

  Lemma validate_range t : forall r, sep_ok elim r t -> validate t = Some tt -> range_is (r + 1 - st_num t) (st_num t) (to_ordering t) /\ st_num t <= r + 1 /\ seqtrees (r + 1 - st_num t) (st_children t) /\ total (st_children t) <= st_num t.
  Proof using HF.
    induction t as [s l k IH] using septree_ind2. intros r Hs V. rewrite Forall_forall in IH.
    apply validate_inv in V as (a & b & h & start & -> & Eh & Es & (e & Ef) & _ & FV). rewrite Forall_forall in FV.
    inversion Hs as [r' xs y subs O K F Er Es']. subst r' subs. cbn [st_num st_children] in *.
    pose proof (sn_one_list r xs) as SL. rewrite Es' in SL. rewrite sn_high_list in Eh. rewrite SL in Eh. cbn [hd_error] in Eh. injection Eh as <-.
    pose proof (sn_len_list (Consecutive a b)) as LL. rewrite SL in LL. cbn [sn_len length] in LL.
    assert (Hb : b = r + 1). { pose proof (sn_high_list (Consecutive a b)) as Q. rewrite SL in Q. cbn [sn_high hd_error] in Q. destruct (Nat.ltb_spec a b); [injection Q as Q; lia|discriminate]. }
    unfold csub in Es. destruct (Nat.leb_spec k (r + 1)); [|discriminate]. injection Es as <-.
    destruct (children_ranges _ _ _ _ F Ef) as [-> Q]. { intros t r0 Ht Hr. destruct (IH t Ht r0 Hr (FV t Ht)) as (A & B & _). auto. }
    subst k. cbn [length] in *. split; [|split; [auto|split; [auto|lia]]].
    intros z. cbn [to_ordering]. rewrite Es'. rewrite in_app_iff, (seqtrees_In _ _ z Q). change (sn_list (Consecutive a b)) with (rev (seq a (b - a))). rewrite <- in_rev, in_seq. lia.
  Qed.
End Tree.

Section ParTree.
  Variable adj : list (list (nat * N)).
  Variables order ranks : list nat.
  Variable nodes : list (list nat).
  Variable c : cch.
  Hypothesis HK : cch_ok adj order ranks nodes c.
  Variables up0 dn0 : list N.
  Hypothesis S_up : small nodes up0.
  Hypothesis S_dn : small nodes dn0.
  Notation n := (length adj).
  Notation m := (length (concat nodes)).
  Notation NL := (nodes_len adj order ranks nodes c HK).

  Lemma elim_forest : forest n (c_elim c).
  Proof using HK.
    split; [apply (co_eliml _ _ _ _ _ HK)|]. intros x p E. pose proof (nth_error_Some_lt _ _ _ E) as Hx. rewrite (co_eliml _ _ _ _ _ HK) in Hx.
    rewrite (co_elim _ _ _ _ _ HK x Hx) in E. injection E as E. apply (ch_up _ _ (co_chordal _ _ _ _ _ HK) x p).
    destruct (nbh nodes x); [discriminate|]. injection E as ->. left; auto.
  Qed.

  (** a tree whose nodes are a range and closed under descendants *)
  Lemma desc_closed o k (l : list nat) : range_is o k l -> o + k <= n -> (forall z x, In x l -> ancestor (c_elim c) z x -> In z l) -> closed_cell adj nodes o k.
  Proof using HK.
    intros R Hk H. split; auto. intros z x Hz Hx. apply R in Hx. assert (A : ancestor (c_elim c) z x).
    { eapply nbh_ancestor; [apply (co_chordal _ _ _ _ _ HK)|apply (co_elim _ _ _ _ _ HK)|exact Hz]. }
    apply (H z x Hx), R in A. lia.
  Qed.

  Inductive cells_ok : nat -> septree -> Prop :=
  | ck_intro o s l k : closed_cell adj nodes o k -> total l <= k -> seqcells o l -> cells_ok o (Sep s l k)
  with seqcells : nat -> list septree -> Prop :=
  | sc_nil o : seqcells o []
  | sc_cons o t l : cells_ok o t -> seqcells (o + st_num t) l -> seqcells o (t :: l).

  Lemma sep_cells t : forall r, r < n -> sep_ok (c_elim c) r t -> validate t = Some tt -> cells_ok (r + 1 - st_num t) t.
  Proof using HK.
    induction t as [s l k IH] using septree_ind2. intros r Hr Hs V. rewrite Forall_forall in IH.
    pose proof elim_forest as HF. destruct (validate_range n _ HF _ _ Hs V) as (R & Hk & Q & T). destruct (sep_nodes n _ HF _ _ Hs) as (SN & _).
    cbn [st_num st_children] in *. constructor; auto.
    - apply (desc_closed _ _ _ R); [lia|]. intros z x Hx Hz. apply SN in Hx. apply SN. eapply anc_trans; eauto.
    - apply validate_inv in V as (a & b & h & start & _ & _ & _ & _ & _ & FV). rewrite Forall_forall in FV.
      inversion Hs as [r' xs y subs O K F Er Es']. subst r' subs. assert (B : forall x, In x (kids (c_elim c) (Some y)) -> x < n).
      { intros x Hx. apply kids_In, (fr_up _ _ HF) in Hx. lia. }
      assert (IH' : forall t, In t l -> forall r, r < n -> sep_ok (c_elim c) r t -> cells_ok (r + 1 - st_num t) t) by (intros; apply IH; auto).
      assert (VR : forall t r, In t l -> sep_ok (c_elim c) r t -> st_num t <= r + 1 /\ range_is (r + 1 - st_num t) (st_num t) (to_ordering t) /\ 0 < st_num t).
      { intros t r0 Ht Hr0. destruct (validate_range n _ HF _ _ Hr0 (FV t Ht)) as (A1 & A2 & _). split; auto. split; auto. inversion Hr0; subst. cbn [st_num length]. lia. }
      assert (Gc : forall o, seqtrees o l -> seqcells o l); [|apply Gc; rewrite ?H0; exact Q].
      clear -F B IH' VR. induction F as [|x t cs l Ht F IHF]; intros o Q; [constructor|]. inversion Q as [|o' t' l' H2 Q']; subst.
      assert (E : o = x + 1 - st_num t).
      { destruct (VR t x (or_introl eq_refl) Ht) as (A1 & A2 & A3). eapply range_unique; eauto. }
      constructor.
      + rewrite E. apply IH'; auto. { left; auto. } apply B. left; auto.
      + apply IHF; auto. { intros; apply B; right; auto. } { intros; apply IH'; auto. right; auto. } { intros t' r' Ht'. apply VR. right; auto. }
  Qed.

  Lemma root_cells sep : sep_new (c_elim c) = Some sep -> validate sep = Some tt -> cells_ok 0 sep /\ st_num sep = n.
  Proof using HK.
    intros E V. pose proof elim_forest as HF. destruct (sep_new_ok n _ HF) as (subs & E' & F & T & ND & HI). rewrite E' in E. injection E as <-.
    split; [|auto]. apply validate_inv in V as (a & b & h & start & Ec & Eh & Es & (e & Ef) & _ & FV). rewrite Forall_forall in FV.
    unfold sn_new in Ec. injection Ec as <- <-. cbn [sn_new sn_high Nat.ltb Nat.leb] in Eh.
    unfold csub in Eh, Es. destruct (Nat.leb_spec 1 n); [|discriminate]. injection Eh as <-. destruct (Nat.leb_spec n (n - 1 + 1)); [|discriminate]. injection Es as <-.
    replace (n - 1 + 1 - n) with 0 in Ef by lia.
    assert (VR : forall t r, In t subs -> sep_ok (c_elim c) r t -> range_is (r + 1 - st_num t) (st_num t) (to_ordering t) /\ st_num t <= r + 1).
    { intros t r Ht Hr. destruct (validate_range n _ HF _ _ Hr (FV t Ht)) as (A1 & A2 & _). auto. }
    destruct (children_ranges _ _ _ _ _ F Ef VR) as [_ Q].
    constructor; [|lia|].
    - split; [lia|]. intros; lia.
    - assert (B : forall x, In x (kids (c_elim c) None) -> x < n). { intros x Hx. apply kids_In, nth_error_Some_lt in Hx. rewrite (fr_len _ _ HF) in Hx. auto. }
      assert (IH' : forall t, In t subs -> forall r, r < n -> sep_ok (c_elim c) r t -> cells_ok (r + 1 - st_num t) t) by (intros; apply sep_cells; auto).
      assert (P : forall t r, sep_ok (c_elim c) r t -> 0 < st_num t). { intros t r Hr0. inversion Hr0; subst. cbn [st_num length]. lia. }
      clear -Q F B IH' VR P. revert Q. generalize 0 as o. induction F as [|x t cs l Ht F IHF]; intros o Q; [constructor|]. inversion Q as [|o' t' l' H2 Q']; subst.
      assert (E : o = x + 1 - st_num t).
      { destruct (VR t x (or_introl eq_refl) Ht) as (A2 & A1). pose proof (P _ _ Ht) as A3. eapply range_unique; eauto. }
      constructor.
      + rewrite E. apply IH'; auto. { left; auto. } apply B. left; auto.
      + apply IHF; auto. { intros t' r' Ht'. apply VR. right; auto. } { intros; apply B; right; auto. } { intros; apply IH'; auto. right; auto. }
  Qed.

  Notation S0 := (par_init c up0 dn0).
  Lemma init_lens : lens nodes S0.
  Proof using HK S_up S_dn.
    destruct S_up, S_dn. unfold lens, par_init, cch_arcs. cbn [h_up h_dn h_upu h_dnu]. rewrite !repeat_length, (co_head _ _ _ _ _ HK). auto.
  Qed.
  Lemma init_wd o k : wd nodes up0 dn0 o o k S0.
  Proof using HK S_up S_dn. split; [apply init_lens| | |]; intros; [|lia|auto]. split; [apply S_up|apply S_dn]. Qed.

  Lemma par_tree_ok q t : forall o, cells_ok o t -> exists tk, par_tree c q t o (off nodes o) (off nodes (o + st_num t)) = Some tk /\ tinv adj nodes c up0 dn0 S0 o (st_num t) tk.
  Proof using HK S_up S_dn.
    induction t as [s l k IH] using septree_ind2. intros o H. inversion H as [o' s' l' k' C T Q]; subst. rewrite Forall_forall in IH.
    cbn [par_tree st_num]. pose proof C as [Hk _]. rewrite (co_fo _ _ _ _ _ HK) by lia. cbn [bind]. rewrite Nat.eqb_refl. cbn [guard bind].
    destruct (k <? q).
    - destruct (code_ex _ _ _ _ _ HK up0 dn0 S_up S_dn o o k C) as (code & E); [lia|]. replace (o + k - o) with k in E by lia. rewrite E. cbn [bind].
      eexists. split; [reflexivity|]. apply (ti_exec adj nodes c up0 dn0 S0 o o k); auto. { lia. } { replace (o + k - o) with k by lia; auto. } apply init_wd.
    - match goal with |- exists tk, ?f l o (off nodes o) [] = _ /\ _ => set (go := f) end.
      assert (G : forall l1 l2 so acc cl, l = l1 ++ l2 -> seqcells so l2 -> so + total l2 <= o + k -> o <= so -> cells o cl so ->
        Forall2 (fun a t => tinv adj nodes c up0 dn0 S0 (fst a) (snd a) t) cl acc ->
        exists tk, go l2 so (off nodes so) acc = Some tk /\ tinv adj nodes c up0 dn0 S0 o k tk).
      2: { apply (G [] l o [] []); auto. { lia. } { constructor. } }
      intros l1 l2. revert l1. induction l2 as [|t l2 IHl]; intros l1 so acc cl El Qs Ht Ho Hc HS; unfold go; fold go; cbn [go].
      + cbn in Ht. destruct (code_ex _ _ _ _ _ HK up0 dn0 S_up S_dn o so k C) as (code & E); [lia|]. rewrite E. cbn [bind].
        eexists. split; [reflexivity|]. apply (ti_scope adj nodes c up0 dn0 S0 o so k cl acc code); auto. { lia. } apply init_lens.
      + inversion Qs as [|o' t' l' Ct Qs']; subst. change (total (t :: l2)) with (st_num t + total l2) in Ht.
        rewrite (co_fo _ _ _ _ _ HK) by lia. cbn [bind]. unfold csub. assert (Om : off nodes so <= off nodes (so + st_num t)) by (apply off_mono; rewrite ?NL; lia).
        rewrite (proj2 (Nat.leb_le _ _) Om). cbn [bind]. replace (off nodes so + (off nodes (so + st_num t) - off nodes so)) with (off nodes (so + st_num t)) by lia.
        assert (Om2 : off nodes (so + st_num t) <= off nodes (o + k)) by (apply off_mono; rewrite ?NL; lia). rewrite (proj2 (Nat.leb_le _ _) Om2). cbn [guard bind].
        destruct (IH t ltac:(apply in_or_app; right; left; auto) so) as (tk & -> & Htk); auto. cbn [bind].
        apply (IHl (l1 ++ [t]) (so + st_num t) (acc ++ [tk]) (cl ++ [(so, st_num t)])); auto.
        * rewrite <- app_assoc. auto.
        * lia.
        * lia.
        * apply cells_app. exists so. split; auto. cbn. auto.
        * apply Forall2_app; auto.
  Qed.

  Lemma par_customize_ok threads sep : sep_new (c_elim c) = Some sep -> validate sep = Some tt ->
    exists tk, par_customize c threads sep = Some tk /\ tinv adj nodes c up0 dn0 S0 0 n tk.
  Proof using HK S_up S_dn.
    intros E V. destruct (root_cells sep E V) as [C L]. unfold par_customize. rewrite V. cbn [bind].
    destruct (par_tree_ok (cch_nodes c / (32 * threads)) sep 0 C) as (tk & Et & Ht). rewrite L in *. cbn [Nat.add] in *. rewrite off_0 in Et.
    assert (Em : off nodes n = cch_arcs c). { rewrite <- NL, off_n. unfold cch_arcs. rewrite (co_head _ _ _ _ _ HK). auto. } rewrite Em in Et. eauto.
  Qed.
End ParTree.
