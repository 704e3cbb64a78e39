(** Dijkstra trees for the search for subpaths that are not (almost) shortest. *)
From Coq Require Import Sorting.Sorted.
From Verif Require Import Base SpecGraph LoopProof GraphProof Graph IndexHeap TsVec TsVecProof Dijkstra DijkstraRef DijkstraProof DijServer DijServerProof DijOrderProof SpecUBS UBS UBSScanProof UBSTreeProof.

Section Grow.
  Variable n : nat.
  Variable links : nat -> option (list (nat * N)).
  Hypothesis WF : wf_links n links.
  Notation nb := (snb links).
  Notation gst := (gstep n fst all_edges nb sslk).
  Notation arc := (garc links).
  Variable s : nat.
  Hypothesis Hs : s < n.
  Let H1 := snb_links n links WF.
  Let H2 := snb_hd n links WF.
  Let H3 := snb_lk n links WF.
  Notation sslk_mono := (sslk_mono n links). Notation sslk_ext := (sslk_ext n links).
  Notation OI := (OInv n fst def_pl nb sslk s tt).
  Notation Jok := (Jz_ok n links fst def_lk nb sslk H1 H2 H3 sslk_mono sslk_ext s Hs tt).
  Notation JA := (Jz_A (E:=unit) tt).

  (** labels of settled nodes are exact *)
  Lemma settled_exact d ord st v : OI d ord st -> In v (map fst ord) -> (aD st v < INF)%N /\ v < n /\ is_dist arc s v (aD st v).
  Proof.
    intros O Hin. pose proof (proj1 (o_set _ _ _ _ _ _ _ _ _ _ O v) Hin) as [HD HQ]. pose proof (o_G _ _ _ _ _ _ _ _ _ _ O) as G. pose proof (o_J _ _ _ _ _ _ _ _ _ _ O) as J.
    destruct (o_K _ _ _ _ _ _ _ _ _ _ O) as (K & (Z1 & Z2) & _). split; auto. split.
    { apply in_map_iff in Hin. destruct Hin as ((v' & x) & <- & Hin). apply (o_lab _ _ _ _ _ _ _ _ _ _ O _ _ Hin). }
    split. { destruct (reach_walk _ _ _ _ _ _ (g_reach _ _ _ _ _ _ _ _ _ _ _ _ G v HD)) as (l & W & ->). rewrite N.add_0_l. auto. }
    intros l W. destruct (N.lt_ge_cases l INF); [|lia]. pose proof (walk_reach n links WF s v l 0%N Hs W) as RW. rewrite N.add_0_l in RW.
    destruct (frontier (pl:=def_pl) Jok Hs ltac:(reflexivity) st v l G (JA _ _ _ J) ltac:(auto) RW) as [F|(z & dz & Hq & F1 & F2 & F3)]; auto. { intros; left; discriminate. }
    destruct (aQ st z) as [k|] eqn:Eq; [|congruence]. pose proof (Z1 z k Eq). destruct (key0 (pl:=def_pl) Jok Hs ltac:(reflexivity) JA ltac:(reflexivity) st z k G (JA _ _ _ J) Eq) as [-> _].
    pose proof (Z2 v (conj HD HQ)). destruct (reach_walk _ _ _ _ _ _ F3) as (l' & _ & ->). lia.
  Qed.

  (** tree paths of exactly labelled nodes are shortest *)
  Lemma tree_tpath (A : nat -> nat -> N -> Prop) (HA : forall u v w, A v u w <-> arc u v w) (d : dij unit) st v : R n d st -> (aD st s = 0)%N ->
    (forall v, (aD st v < INF)%N -> exists l, walk arc s v l /\ aD st v = l) ->
    tree n fst def_pl all_edges nb sslk s (aD st) (aP st) v -> v < n -> (forall l, walk arc s v l -> (aD st v <= l)%N) -> exists p, tpath n A s (aD st) (dij_pred d) v p.
  Proof.
    intros HR H0 HW HT. induction HT as [|v u a Hv Hu EP Ha _ Hh HD Hsl T IH]; intros Hvn HX. { exists [s]. constructor. auto. }
    assert (Arc : arc u v (snd a)). { subst v. apply snb_in; auto. }
    destruct (HW u HD) as (lu & Wu & Eu). unfold sslk in Hsl. pose proof (HX _ (walk_snoc _ _ _ _ _ _ Wu Arc)) as Q.
    destruct (IH Hu) as (p & Hp). { intros l Wl. pose proof (HX _ (walk_snoc _ _ _ _ _ _ Wl Arc)). lia. }
    exists (v :: p). apply tp_step with (u := u) (w := snd a); auto.
    - unfold dij_pred. rewrite (r_pred n d st HR v Hvn), EP. auto.
    - apply HA. auto.
    - lia.
  Qed.

  Lemma grow_ok g (onw : nat -> option bool) ws d : num_nodes (W := N) g = n -> NoDup ws -> 0 < length ws -> (forall v, v < n -> onw v = Some (existsb (Nat.eqb v) ws)) ->
    (forall v, In v ws -> exists y, (y < INF)%N /\ is_dist arc s v y) -> Ready n d ->
    exists d' ord st, grow g links onw d s ws = Some d' /\ OI d' ord st /\ forall v, In v ws -> In v (map fst ord).
  Proof.
    intros Hg ND Hlen Honw Hreach HR. unfold grow.
    destruct (OInv_init n links fst def_lk def_pl nb sslk H1 H2 H3 sslk_mono sslk_ext s Hs tt d HR) as (d1 & pr & E1 & O1). rewrite E1. cbn [bind]. rewrite Hg.
    set (left := fun ord : list (nat * N) => filter (fun v => negb (existsb (Nat.eqb v) (map fst ord))) ws).
    set (I := fun st '((d, c) : dij unit * nat) => exists ord, OI d ord st /\ c = length (left ord) /\ 0 < c).
    set (Q := fun d' : dij unit => exists ord st, OI d' ord st /\ forall v, In v ws -> In v (map fst ord)).
    assert (EB : forall (v : nat) l, existsb (Nat.eqb v) l = true <-> In v l). { intros v l. rewrite existsb_exists. split; [intros (x & Hx & Ex); apply Nat.eqb_eq in Ex; subst; auto|intros; exists v; rewrite Nat.eqb_refl; auto]. }
    match goal with |- context [loopN _ ?F _] => set (step := F) end.
    destruct (loopN_ghost step I Q (M n) (dij_fuel n) (initA s 0 pr) (d1, length ws)) as (d' & E2 & ord & st & O2 & HQ).
    - intros st (d2 & c) (ord & O & -> & Hc). unfold step.
      destruct (OInv_step n links fst def_lk def_pl nb sslk H1 H2 H3 sslk_mono sslk_ext s Hs tt d2 ord st O) as [(d3 & F1 & O3 & C)|(u & y & d3 & st3 & F1 & Hu & Fy & O3 & M3 & Far)]; rewrite F1; cbn [bind].
      + eexists. split; [reflexivity|]. exists ord, st. split; auto. intros v Hv. destruct (Hreach v Hv) as (y & Hy & HD). apply (C v y). apply (earliest_some n links WF s Hs). auto.
      + rewrite Honw by auto. cbn [bind]. assert (Hnu : ~ In u (map fst ord)). { pose proof (o_nd _ _ _ _ _ _ _ _ _ _ O3) as N3. rewrite map_app in N3. apply NoDup_remove_2 in N3. rewrite app_nil_r in N3. auto. }
        assert (Hmem : forall v, In v (map fst (ord ++ [(u, y)])) <-> In v (map fst ord) \/ v = u). { intros v. rewrite map_app, in_app_iff. cbn. intuition. }
        assert (Hleft : forall l, NoDup l -> length (filter (fun v => negb (existsb (Nat.eqb v) (map fst (ord ++ [(u, y)])))) l) + (if existsb (Nat.eqb u) l then 1 else 0) = length (filter (fun v => negb (existsb (Nat.eqb v) (map fst ord))) l)).
        { clear - EB Hnu Hmem. induction l as [|a l IH]; intros ND; auto. inversion ND as [|? ? Hni ND']; subst. specialize (IH ND'). cbn [filter existsb]. destruct (Nat.eqb_spec u a) as [->|Hne].
          - assert (E1 : existsb (Nat.eqb a) (map fst (ord ++ [(a, y)])) = true) by (apply EB; apply Hmem; auto). assert (E2 : existsb (Nat.eqb a) (map fst ord) = false) by (apply not_true_is_false; rewrite EB; auto).
            assert (E3 : existsb (Nat.eqb a) l = false) by (apply not_true_is_false; rewrite EB; auto). rewrite E3 in IH. rewrite E1, E2. cbn. lia.
          - assert (E1 : existsb (Nat.eqb a) (map fst (ord ++ [(u, y)])) = existsb (Nat.eqb a) (map fst ord)). { apply eq_true_iff_eq. rewrite !EB, Hmem. intuition congruence. }
            rewrite E1. cbn [orb]. destruct (existsb (Nat.eqb a) (map fst ord)); cbn [negb length]; lia. }
        specialize (Hleft ws ND). fold (left ord) in Hleft. fold (left (ord ++ [(u, y)])) in Hleft. cbv beta iota. destruct (existsb (Nat.eqb u) ws) eqn:Eu.
        * destruct (length (left ord)) as [|c] eqn:El; [lia|]. destruct (Nat.eqb_spec c 0) as [->|Hc0].
          -- eexists. split; [reflexivity|]. exists (ord ++ [(u, y)]), st3. split; auto. intros v Hv. apply EB. assert (L0 : left (ord ++ [(u, y)]) = []) by (apply length_zero_iff_nil; lia).
             destruct (existsb (Nat.eqb v) (map fst (ord ++ [(u, y)]))) eqn:Ev; auto. exfalso. assert (Hin : In v (left (ord ++ [(u, y)]))). { apply filter_In. rewrite Ev. auto. } rewrite L0 in Hin. destruct Hin.
          -- eexists. split; [reflexivity|]. exists st3. split; auto. exists (ord ++ [(u, y)]). split; auto. split; lia.
        * eexists. split; [reflexivity|]. exists st3. split; auto. exists (ord ++ [(u, y)]). split; auto. split; lia.
    - exists []. split; auto. split; auto. unfold left. f_equal. clear. induction ws as [|a l IH]; auto. cbn in *. f_equal. auto.
    - apply (M_init (pl:=def_pl) Jok Hs ltac:(reflexivity)).
    - exists d', ord, st. auto.
  Qed.

  (** what the search offers once it stopped *)
  Lemma grown_ok (A : nat -> nat -> N -> Prop) (HA : forall u v w, A v u w <-> arc u v w) d ord st : OI d ord st -> forall v, In v (map fst ord) ->
    is_dist A v s (aD st v) /\ dij_dist d v = Some (d, aD st v) /\ exists p, tpath n A s (aD st) (dij_pred d) v p.
  Proof.
    intros O v Hv. destruct (settled_exact d ord st v O Hv) as (HD & Hvn & HX). pose proof (o_R _ _ _ _ _ _ _ _ _ _ O) as HR. pose proof (o_G _ _ _ _ _ _ _ _ _ _ O) as G. split; [|split].
    - apply is_dist_flip in HX. split. { apply (walk_mono (flip_arc arc)); [intros; apply HA; auto|apply HX]. } intros l W. apply HX. revert W. apply walk_mono. intros x y w H. apply HA in H. exact H.
    - unfold dij_dist. rewrite (ts_get_spec N INF n _ _ v (r_dist n d st HR)), (proj2 (Nat.ltb_lt v n) Hvn). auto.
    - apply (tree_tpath A HA d st v HR); auto.
      + rewrite <- (JA _ _ _ (o_J _ _ _ _ _ _ _ _ _ _ O) s). apply (g_s _ _ _ _ _ _ _ _ _ _ _ _ G).
      + intros x Hx. destruct (reach_walk _ _ _ _ _ _ (g_reach _ _ _ _ _ _ _ _ _ _ _ _ G x Hx)) as (l & W & E). exists l. split; auto.
      + apply (g_tree _ _ _ _ _ _ _ _ _ _ _ _ G v HD).
      + apply HX.
  Qed.
End Grow.
