(** A customized CCH serves its metric (see CCHViewProof). *)
From Verif Require Import Base Graph SpecGraph SpecCCH Dijkstra LoopProof BitVec CCH CCHTheory CCHPathTheory CCHContractProof CCHBuildProof CCHCustProof CCHMetricProof CCHQuery CCHQueryProof CCHPathProof CCHViewProof.

Section Server.
  Variable adj : list (list (nat * N)).
  Variables order ranks : list nat.
  Variable nodes : list (list nat).
  Variable c : cch.
  Hypothesis HK : cch_ok adj order ranks nodes c.
  Let n := length adj.
  Let m := length (concat nodes).
  Let HC := co_chordal _ _ _ _ _ HK.

  Lemma elim_len : length (c_elim c) = n.
  Proof using HK. apply (co_eliml _ _ _ _ _ HK). Qed.
  Lemma elim_par x p : nth_error (c_elim c) x = Some (Some p) -> x < p < n.
  Proof using HK.
    intros H. pose proof (nth_error_Some_lt _ _ _ H) as Hx. rewrite elim_len in Hx. rewrite (co_elim _ _ _ _ _ HK x Hx) in H. injection H as H.
    apply (ch_up _ _ HC). destruct (nbh nodes x); [discriminate|]. injection H as ->. left; auto.
  Qed.
  Lemma elim_anc x y l : In y (nbh nodes x) -> rpath (c_elim c) x l -> In y l.
  Proof using HK.
    intros Hy Hl. pose proof (nbh_ancestor _ _ (c_elim c) HC (co_elim _ _ _ _ _ HK) x y Hy) as Ha. clear Hy. revert y Ha.
    induction Hl as [x E|x p l E Hl IH]; intros y Ha; inversion Ha as [|? q ? Eq Hq]; subst; try (left; reflexivity); [congruence|]. rewrite E in Eq. injection Eq as <-. right. auto.
  Qed.

  Lemma link_ids (ws : list N) x : length ws = m -> x < n -> exists ls, link_iter_ids (mkFo (c_fo c) (c_head c) ws) x = Some ls /\
    forall y w e, In (y, w, e) ls <-> edge nodes e x y /\ w = nth e ws 0%N.
  Proof using HK.
    intros L Hx. pose proof (nodes_len _ _ _ _ _ HK) as NL. fold n in NL.
    exists (map (fun p => (fst p, nth (snd p) ws 0%N, snd p)) (ids nodes x)). split.
    - unfold link_iter_ids, range. cbn [first_out head weight]. rewrite !(co_fo _ _ _ _ _ HK) by (fold n; lia). cbn [bind].
      rewrite (co_head _ _ _ _ _ HK), nbh_slice by lia. cbn [bind]. pose proof (off_le nodes (x + 1) ltac:(lia)). pose proof (off_mono nodes x (x + 1) ltac:(lia) ltac:(lia)).
      rewrite (slice_map _ _ _ 0%N) by (unfold m in *; lia). rewrite (proj2 (Nat.leb_le _ _)) by lia. cbn [bind]. rewrite (off_diff _ _ _ _ _ HK) by auto. f_equal.
      unfold ids. clear. generalize (seq (off nodes x) (length (nbh nodes x))). induction (nbh nodes x); intros [|b r]; cbn; auto. f_equal. auto.
    - intros y w e. rewrite in_map_iff. split.
      + intros ([y' e'] & Ep & Hin). cbn in Ep. injection Ep as -> <- ->. apply ids_In in Hin. auto.
      + intros [He ->]. exists (y, e). split; auto. apply ids_In; auto.
  Qed.
  Lemma larc_fo (ws : list N) x e y w : length ws = m -> larc (k_links (mkFo (c_fo c) (c_head c) ws)) x e y w <-> edge nodes e x y /\ w = nth e ws 0%N.
  Proof using HK.
    intros L. unfold larc, garc_ids, k_links. split.
    - intros (ls & E & Hin). assert (Hx : x < n).
      { unfold link_iter_ids, range in E. cbn [first_out] in E. destruct (nth_error (c_fo c) (x + 1)) eqn:K.
        - apply nth_error_Some_lt in K. rewrite (co_fol _ _ _ _ _ HK) in K. fold n in K. lia.
        - destruct (nth_error (c_fo c) x); discriminate. }
      destruct (link_ids ws x L Hx) as (ls' & E' & H'). rewrite E in E'. injection E' as <-. apply H'; auto.
    - intros H. assert (Hx : x < n). { pose proof (edge_tail_lt _ _ _ _ (proj1 H)). rewrite (nodes_len _ _ _ _ _ HK) in H0. auto. }
      destruct (link_ids ws x L Hx) as (ls' & E' & H'). exists ls'. split; auto. apply H'; auto.
  Qed.
  Lemma fo_up_graph (ws : list N) : length ws = m -> (forall e, (nth e ws 0 <= INF)%N) -> up_graph n (c_elim c) (k_links (mkFo (c_fo c) (c_head c) ws)).
  Proof using HK.
    intros L Hw x Hx. destruct (link_ids ws x L Hx) as (ls & E & H). exists ls. split; [exact E|]. intros y w e Hin. apply H in Hin. destruct Hin as [He ->].
    apply edge_In in He. split; [apply (ch_up _ _ HC) in He; lia|]. split; [auto|]. intros l Hl. eapply elim_anc; eauto.
  Qed.

  Lemma rank_of u : u < n -> exists x, nth_error ranks u = Some x /\ x < n /\ nth_error order x = Some u.
    Proof using HK.
      intros Hu. destruct (co_order _ _ _ _ _ HK) as (L1 & L2 & O1 & O2). destruct (nth_error_lt ranks u) as (x & E). { unfold n in Hu. lia. }
      exists x. split; auto. apply O2 in E. split; auto. apply nth_error_Some_lt in E. unfold n. lia.
    Qed.

  Definition hop (x y e : nat) : Prop := (x < y /\ edge nodes e x y) \/ (y < x /\ edge nodes e y x).
  Lemma hop_sym x y e : hop x y e <-> hop y x e.
  Proof using. unfold hop. tauto. Qed.

  Section Cust.
    Variable madj : list (list (nat * N)).
    Hypothesis HT : same_topology adj madj.
    Hypothesis HV : valid_adj madj.
    Variables up0 dn0 : list N.
    Variable s : cst.
    Variable k : customized.
    Hypothesis HR : cust_result adj order ranks nodes c madj up0 dn0 s k.
    Let A := carc nodes s.
    Definition un_of (x y : nat) (o : option nat) : Prop :=
      match o with
      | None => unp_of nodes s x y no_unp
      | Some z => exists e1 e2, unp_of nodes s x y (Some e1, Some e2) /\ edge nodes e1 z x /\ edge nodes e2 z y
      end.
    Let un := un_of.
    Let HO := cr_ok _ _ _ _ _ _ _ _ _ _ HR.

    Lemma unp_fun x y i i' : unp_of nodes s x y i -> unp_of nodes s x y i' -> i = i'.
    Proof using HK.
      intros [(L & e & He & ->)|(L & e & He & ->)] [(L' & e' & He' & ->)|(L' & e' & He' & ->)]; try lia; rewrite (edge_inj _ _ _ _ _ (HN _ _ _ _ _ HK _) He He'); auto.
    Qed.
    Lemma un_fun x y o o' : un x y o -> un x y o' -> o = o'.
    Proof using HK.
      destruct o as [z|], o' as [z'|]; cbn; auto.
      - intros (e1 & e2 & H & H1 & _) (e1' & e2' & H' & H1' & _). pose proof (unp_fun _ _ _ _ H H') as E. injection E as <- <-. destruct (edge_unique _ _ _ _ _ _ H1 H1'). congruence.
      - intros (e1 & e2 & H & _) H'. pose proof (unp_fun _ _ _ _ H H') as E. discriminate.
      - intros H' (e1 & e2 & H & _). pose proof (unp_fun _ _ _ _ H H') as E. discriminate.
    Qed.
    Lemma un_ex x y w : A x y w -> exists o, un x y o.
    Proof using HK HR.
      intros Ha. destruct (carc_unp nodes s x y (ex_intro _ w Ha)) as (i & Hi).
      destruct (carc_case _ _ _ _ _ HK _ _ _ HO x y w i Ha Hi) as [[-> _]|(z & e1 & e2 & -> & H1 & H2 & _)]; [exists None; exact Hi|exists (Some z); exists e1, e2; auto].
    Qed.
    Lemma un_ok : unpacking A un.
    Proof using HK HR.
      constructor.
      - apply (carc_tri _ _ _ _ _ HK _ _ _ HO).
      - intros x y w w'. apply (carc_fun _ _ _ _ _ HK).
      - intros x y w z Ha (e1 & e2 & Hi & H1 & H2). destruct (carc_case _ _ _ _ _ HK _ _ _ HO x y w _ Ha Hi) as [[E _]|(z' & e1' & e2' & E & H1' & H2' & -> & _ & K)]; [discriminate|].
        injection E as <- <-. destruct (edge_unique _ _ _ _ _ _ H1 H1') as [<- _].
        pose proof (ch_up _ _ HC _ _ (edge_In _ _ _ _ H1)). pose proof (ch_up _ _ HC _ _ (edge_In _ _ _ _ H2)).
        split; [lia|]. split; [lia|]. split; [|exact K]. exists (nth e1 (s_dn s) 0%N), (nth e2 (s_up s) 0%N). split; [right; split; [lia|eauto]|]. split; [left; split; [lia|eauto]|auto].
    Qed.
    Lemma un_orig x y w u v : A x y w -> un x y None -> (w < INF)%N -> nth_error order x = Some u -> nth_error order y = Some v -> adj_arc madj u v w.
    Proof using HK HR.
      intros Ha Hu Hw Eu Ev. destruct (carc_case _ _ _ _ _ HK _ _ _ HO x y w _ Ha Hu) as [[_ Hi]|(z' & e1' & e2' & E & _)]; [|discriminate].
      destruct (cr_real _ _ _ _ _ _ _ _ _ _ HR _ _ _ _ _ Hi Eu Ev) as [->|H]; [lia|auto].
    Qed.
    Lemma unpack_spec x v e w : A x v w -> hop x v e ->
      exists r, (if x <? v then unpack_edge (k_upu k) (k_btail k) e else unpack_edge (k_dnu k) (k_btail k) e) = Some r /\
      match r with None => un x v None | Some (d, u, z) => un x v (Some z) /\ hop x z d /\ hop z v u end.
    Proof using HK HR.
      intros Ha Hh. rewrite (cr_k _ _ _ _ _ _ _ _ _ _ HR). cbn [k_upu k_dnu k_btail].
      assert (G : forall us, length us = m -> unp_of nodes s x v (nth e us no_unp) -> e < m -> exists r, unpack_edge us (c_tail c) e = Some r /\
        match r with None => un x v None | Some (d, u, z) => un x v (Some z) /\ hop x z d /\ hop z v u end).
      { intros us Lu Hi He. unfold unpack_edge. rewrite (nth_error_nth' us no_unp) by lia. cbn [bind].
        destruct (carc_case _ _ _ _ _ HK _ _ _ HO x v w _ Ha Hi) as [[E _]|(z & e1 & e2 & E & H1 & H2 & _)]; rewrite E in *.
        - exists None. split; [reflexivity|exact Hi].
        - cbn [bind]. rewrite (co_tail _ _ _ _ _ HK _ _ _ H1). cbn [bind]. eexists. split; [reflexivity|]. split; [exists e1, e2; auto|].
          pose proof (ch_up _ _ HC _ _ (edge_In _ _ _ _ H1)). pose proof (ch_up _ _ HC _ _ (edge_In _ _ _ _ H2)). split; [right|left]; split; auto; lia. }
      destruct HO as [(_ & _ & Lu & Ld & _) _]. destruct Hh as [[L He]|[L He]].
      - rewrite (proj2 (Nat.ltb_lt x v) L). apply G; auto; [left; split; [auto|eauto]|eapply edge_lt; eauto].
      - rewrite (proj2 (Nat.ltb_ge x v)) by lia. apply G; auto; [right; split; [auto|eauto]|eapply edge_lt; eauto].
    Qed.

    (** the two graphs *)
    Lemma fw_up : up_graph n (k_elim k) (k_links (k_fw k)).
    Proof using HK HR. rewrite (cr_k _ _ _ _ _ _ _ _ _ _ HR). cbn [k_fw k_elim]. destruct HO as [((U & U') & _) _]. apply fo_up_graph; auto. Qed.
    Lemma bw_up : up_graph n (k_elim k) (k_links (k_bw k)).
    Proof using HK HR. rewrite (cr_k _ _ _ _ _ _ _ _ _ _ HR). cbn [k_bw k_elim]. destruct HO as [(_ & (U & U') & _) _]. apply fo_up_graph; auto. Qed.
    Lemma fw_larc x e y w : larc (k_links (k_fw k)) x e y w -> upa A x y w /\ hop x y e.
    Proof using HK HR.
      rewrite (cr_k _ _ _ _ _ _ _ _ _ _ HR). cbn [k_fw]. destruct HO as [((U & _) & _) _]. rewrite larc_fo by auto. intros [He ->].
      pose proof (ch_up _ _ HC _ _ (edge_In _ _ _ _ He)). split; [split; [lia|]; left; split; [lia|eauto]|left; split; [lia|auto]].
    Qed.
    Lemma bw_larc x e y w : larc (k_links (k_bw k)) x e y w -> upa (flip_arc A) x y w /\ hop x y e.
    Proof using HK HR.
      rewrite (cr_k _ _ _ _ _ _ _ _ _ _ HR). cbn [k_bw]. destruct HO as [(_ & (U & _) & _) _]. rewrite larc_fo by auto. intros [He ->].
      pose proof (ch_up _ _ HC _ _ (edge_In _ _ _ _ He)). split; [split; [lia|]; right; split; [lia|eauto]|left; split; [lia|auto]].
    Qed.
    Lemma fw_uarc x y w : upa A x y w -> uarc (k_links (k_fw k)) x y w.
    Proof using HK HR.
      rewrite (cr_k _ _ _ _ _ _ _ _ _ _ HR). cbn [k_fw]. destruct HO as [((U & _) & _) _]. intros [L [(_ & e & He & ->)|(L' & _)]]; [|lia]. exists e. apply larc_fo; auto.
    Qed.
    Lemma bw_uarc x y w : upa (flip_arc A) x y w -> uarc (k_links (k_bw k)) x y w.
    Proof using HK HR.
      rewrite (cr_k _ _ _ _ _ _ _ _ _ _ HR). cbn [k_bw]. destruct HO as [(_ & (U & _) & _) _]. intros [L [(L' & _)|(_ & e & He & ->)]]; [lia|]. exists e. apply larc_fo; auto.
    Qed.

    Lemma basic_view : view adj order ranks madj k A un hop.
    Proof using HK HT HV HR.
      assert (Eel : k_elim k = c_elim c) by (rewrite (cr_k _ _ _ _ _ _ _ _ _ _ HR); reflexivity).
      constructor.
      - apply (co_order _ _ _ _ _ HK).
      - rewrite (cr_k _ _ _ _ _ _ _ _ _ _ HR); reflexivity.
      - rewrite (cr_k _ _ _ _ _ _ _ _ _ _ HR); reflexivity.
      - rewrite (cr_k _ _ _ _ _ _ _ _ _ _ HR). unfold num_nodes. cbn. rewrite (co_fol _ _ _ _ _ HK). lia.
      - rewrite Eel. apply elim_len.
      - rewrite Eel. apply elim_par.
      - apply fw_up.
      - apply bw_up.
      - intros x y w Ha. destruct (carc_lt _ _ _ _ _ HK _ _ _ _ Ha) as (H1 & H2 & _). split; auto.
      - apply un_ok.
      - apply un_fun.
      - apply un_ex.
      - apply fw_larc.
      - intros x y w H _. apply fw_uarc; auto.
      - intros x e y w H. apply bw_larc in H. destruct H. split; auto. apply hop_sym; auto.
      - intros x y w H _. apply bw_uarc; auto.
      - apply unpack_spec.
      - apply un_orig.
      - intros u v l x y Hw Ex Ey. apply (walk_cwalk _ _ _ _ _ HK _ HT HV _ _ _ _ HR u v l x y Hw Ex Ey).
    Qed.
  End Cust.
End Server.
