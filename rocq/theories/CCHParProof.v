(** Parallel customization: every interleaving gives the weights of the sequential one. *)
From Verif Require Import Base BitVec Graph GraphProof GraphRevProof GraphIdProof GraphSpecProof SpecGraph SpecCCH CCH CCHTheory CCHContractProof CCHBuildProof CCHCustProof CCHPathTheory NodeOrder SepTree SepTreeProof CCHPar.
From Coq Require Import Sorting.Sorted.

(** ** the code of a node does what customize_node does *)
Definition sh_of (s : cst) : shared := mkShr (s_up s) (s_dn s) (s_upu s) (s_dnu s).
Definition run (lo hi : nat) (code : list instr) (sp : shared * priv) : option (shared * priv) := foldM (istep lo hi) code sp.

Lemma run_app lo hi l1 l2 sp : run lo hi (l1 ++ l2) sp = (sp' <- run lo hi l1 sp ;; run lo hi l2 sp').
Proof. unfold run. apply foldM_app. Qed.
Lemma inw_ok lo hi e : lo <= e < hi -> guard ((lo <=? e) && (e <? hi)) = Some tt.
Proof. intros H. rewrite (proj2 (Nat.leb_le _ _)), (proj2 (Nat.ltb_lt _ _)) by lia. auto. Qed.

Lemma load_code lo hi s fu fd : forall (l : list (nat * nat)) wo wi wo' wi',
  (forall x e, In (x, e) l -> lo <= e < hi /\ e < length (h_up s) /\ e < length (h_dn s)) ->
  load_edges (map (fun p => (fst p, nth (snd p) (h_dn s) 0%N, nth (snd p) (h_up s) 0%N)) l) (wo, wi) = Some (wo', wi') ->
  run lo hi (flat_map (fun xe => [ILoadDn (fst xe) (snd xe); ILoadUp (fst xe) (snd xe)]) l) (s, mkPrv wo wi fu fd) = Some (s, mkPrv wo' wi' fu fd).
Proof.
  induction l as [|[x e] l IH]; intros wo wi wo' wi' Hw E; cbn [map load_edges foldM flat_map] in *.
  { unfold load_edges in E. cbn [foldM] in E. injection E as <- <-. auto. }
  destruct (Hw x e (or_introl eq_refl)) as (W & L1 & L2). unfold load_edges in E. cbn [foldM fst snd] in E.
  destruct (set_at wi x _) as [wi1|] eqn:E1; cbn [bind] in E; [|discriminate]. destruct (set_at wo x _) as [wo1|] eqn:E2; cbn [bind] in E; [|discriminate].
  rewrite run_app. unfold run at 1. cbn [foldM istep fst snd p_wi p_wo p_fu p_fd]. rewrite inw_ok by auto. cbn [bind].
  rewrite (nth_error_nth_some (h_dn s) e 0%N) by auto. cbn [bind]. rewrite E1. cbn [bind istep p_wi p_wo p_fu p_fd]. rewrite inw_ok by auto. cbn [bind].
  rewrite (nth_error_nth_some (h_up s) e 0%N) by auto. cbn [bind]. rewrite E2. cbn [bind]. apply IH; auto. intros; eapply Hw; right; eauto.
Qed.

Lemma rel_code lo hi s cur e1 fu fd : forall (l : list (nat * nat)) wo wi wo' wi',
  (forall x e, In (x, e) l -> lo <= e < hi /\ e < length (h_up s) /\ e < length (h_dn s)) ->
  relax_low cur e1 fd fu (map (fun p => (fst p, nth (snd p) (h_up s) 0%N, nth (snd p) (h_dn s) 0%N, snd p)) l) wo wi = Some (wo', wi') ->
  run lo hi (flat_map (fun xe => [IRelUp e1 (snd xe) (fst xe); IRelDn e1 (snd xe) (fst xe)]) (above cur l)) (s, mkPrv wo wi fu fd) = Some (s, mkPrv wo' wi' fu fd).
Proof.
  induction l as [|[x e] l IH]; intros wo wi wo' wi' Hw E; cbn [map relax_low above] in *.
  { injection E as <- <-. auto. }
  destruct (Hw x e (or_introl eq_refl)) as (W & L1 & L2). cbn [fst snd] in E. destruct (x <=? cur). { injection E as <- <-. auto. }
  cbn [flat_map fst snd]. rewrite run_app. unfold run at 1. cbn [foldM istep fst snd p_wi p_wo p_fu p_fd]. rewrite inw_ok by auto. cbn [bind].
  rewrite (nth_error_nth_some (h_up s) e 0%N) by auto. cbn [bind].
  destruct (nth_error wo x) as [r|]; cbn [bind] in E |- *; [|discriminate]. destruct (cadd (nth e (h_up s) 0%N) fd) as [t|]; cbn [bind] in E |- *; [|discriminate].
  destruct (if (t <? fst r)%N then set_at wo x (t, (Some e1, Some e)) else Some wo) as [wo1|]; cbn [bind] in E |- *; [|discriminate].
  cbn [istep p_wi p_wo p_fu p_fd]. rewrite inw_ok by auto. cbn [bind]. rewrite (nth_error_nth_some (h_dn s) e 0%N) by auto. cbn [bind].
  destruct (nth_error wi x) as [r2|]; cbn [bind] in E |- *; [|discriminate]. destruct (cadd (nth e (h_dn s) 0%N) fu) as [t2|]; cbn [bind] in E |- *; [|discriminate].
  destruct (if (t2 <? fst r2)%N then set_at wi x (t2, (Some e, Some e1)) else Some wi) as [wi1|]; cbn [bind] in E |- *; [|discriminate].
  apply IH; auto. intros; eapply Hw; right; eauto.
Qed.

Lemma store_code lo hi fu fd : forall (l : list (nat * nat)) s s',
  foldM (store_edge lo hi) l s = Some s' ->
  run lo hi (flat_map (fun xe => [IStDn (fst xe) (snd xe); IStUp (fst xe) (snd xe); IStDnu (fst xe) (snd xe); IStUpu (fst xe) (snd xe)]) l)
    (sh_of s, mkPrv (s_wo s) (s_wi s) fu fd) = Some (sh_of s', mkPrv (s_wo s') (s_wi s') fu fd).
Proof.
  induction l as [|[x e] l IH]; intros s s' E; cbn [foldM flat_map] in *. { injection E as <-. auto. }
  destruct (store_edge lo hi s (x, e)) as [s1|] eqn:E1; cbn [bind] in E; [|discriminate].
  rewrite run_app. enough (Hr : run lo hi [IStDn x e; IStUp x e; IStDnu x e; IStUpu x e] (sh_of s, mkPrv (s_wo s) (s_wi s) fu fd) = Some (sh_of s1, mkPrv (s_wo s1) (s_wi s1) fu fd)).
  { cbn [fst snd]. rewrite Hr. cbn [bind]. auto. }
  unfold store_edge in E1. destruct (Nat.leb_spec lo e); cbn [guard bind] in E1; [|discriminate]. destruct (Nat.ltb_spec e hi); cbn [guard bind] in E1; [|discriminate].
  unfold run. cbn [foldM istep p_wi p_wo sh_of h_dn h_up h_upu h_dnu]. rewrite inw_ok by lia. cbn [bind].
  destruct (nth_error (s_wi s) x) as [ri|] eqn:Ei; cbn [bind] in E1 |- *; [|discriminate]. destruct (nth_error (s_wo s) x) as [ro|] eqn:Eo; cbn [bind] in E1 |- *; [|discriminate].
  destruct (set_at (s_dn s) e (fst ri)) as [dn|]; cbn [bind] in E1 |- *; [|discriminate].
  cbn [istep p_wi p_wo sh_of h_dn h_up h_upu h_dnu]. rewrite inw_ok by lia. cbn [bind]. rewrite Eo. cbn [bind].
  destruct (set_at (s_up s) e (fst ro)) as [up|]; cbn [bind] in E1 |- *; [|discriminate].
  cbn [istep p_wi p_wo sh_of h_dn h_up h_upu h_dnu]. rewrite inw_ok by lia. cbn [bind]. rewrite Ei. cbn [bind].
  destruct (set_at (s_dnu s) e (snd ri)) as [dnu|]; cbn [bind] in E1 |- *; [|discriminate].
  cbn [istep p_wi p_wo sh_of h_dn h_up h_upu h_dnu]. rewrite inw_ok by lia. cbn [bind]. rewrite Eo. cbn [bind].
  destruct (set_at (s_upu s) e (snd ro)) as [upu|]; cbn [bind] in E1 |- *; [|discriminate]. injection E1 as <-. auto.
Qed.

Lemma wslice_inv {A} lo hi (l : list A) a b r d : wslice lo hi l a b = Some r ->
  lo <= a /\ b <= hi /\ a <= b /\ b <= length l /\ r = map (fun e => nth e l d) (seq a (b - a)).
Proof.
  unfold wslice. destruct (Nat.leb_spec lo a); cbn [guard bind]; [|discriminate]. destruct (Nat.leb_spec b hi); cbn [guard bind]; [|discriminate].
  intros E. assert (L : b <= length l). { unfold slice in E. destruct (Nat.leb_spec a b), (Nat.leb_spec b (length l)); cbn [andb] in E; try discriminate; auto. }
  rewrite (slice_map l a b d L) in E. destruct (Nat.leb_spec a b); [|discriminate]. injection E as <-. auto.
Qed.

Lemma relax_code c lo hi s cur z e1 wo wi wo' wi' : relax_edge c lo hi (h_up s) (h_dn s) cur (wo, wi) (z, e1) = Some (wo', wi') ->
  exists code, low_code c cur (z, e1) = Some code /\ forall fu fd, exists fu' fd', run lo hi code (s, mkPrv wo wi fu fd) = Some (s, mkPrv wo' wi' fu' fd').
Proof.
  unfold relax_edge, low_code. intros E.
  destruct (wget lo hi (h_dn s) e1) as [fd1|] eqn:Ed; cbn [bind] in E; [|discriminate]. destruct (wget lo hi (h_up s) e1) as [fu1|] eqn:Eu; cbn [bind] in E; [|discriminate].
  destruct (cch_range c z) as [[a b]|]; cbn [bind] in E |- *; [|discriminate].
  destruct (slice (c_head c) a b) as [h|] eqn:Eh; cbn [bind] in E |- *; [|discriminate].
  destruct (wslice lo hi (h_up s) a b) as [us|] eqn:Es; cbn [bind] in E; [|discriminate]. destruct (wslice lo hi (h_dn s) a b) as [ds|] eqn:Es2; cbn [bind] in E; [|discriminate].
  apply wslice_inv with (d := 0%N) in Es as (W1 & W2 & W3 & W4 & ->). apply wslice_inv with (d := 0%N) in Es2 as (_ & _ & _ & W5 & ->).
  eexists. split; [reflexivity|]. intros fu fd. exists fu1, fd1.
  unfold wget in Ed, Eu. destruct (Nat.leb_spec lo e1); cbn [guard bind] in Ed, Eu; [|discriminate]. destruct (Nat.ltb_spec e1 hi); cbn [guard bind] in Ed, Eu; [|discriminate].
  unfold run. cbn [foldM istep]. rewrite inw_ok by lia. cbn [bind]. rewrite Ed. cbn [bind istep p_wo p_wi p_fu p_fd]. rewrite inw_ok by lia. cbn [bind]. rewrite Eu. cbn [bind p_wo p_wi p_fu p_fd].
  rewrite combine4, <- map_rev in E. cbn [fst snd] in E. apply rel_code; auto.
  intros x e Hin. apply in_rev in Hin. apply in_combine_r, in_seq in Hin. lia.
Qed.

Lemma node_code_ok c lo hi s cur s' : customize_node c lo hi s cur = Some s' -> exists code, node_code c cur = Some code /\
  forall fu fd, exists fu' fd', run lo hi code (sh_of s, mkPrv (s_wo s) (s_wi s) fu fd) = Some (sh_of s', mkPrv (s_wo s') (s_wi s') fu' fd').
Proof.
  unfold customize_node, node_code. intros E.
  destruct (cch_range c cur) as [[a b]|]; cbn [bind] in E |- *; [|discriminate].
  destruct (slice (c_head c) a b) as [h|] eqn:Eh; cbn [bind] in E |- *; [|discriminate].
  destruct (wslice lo hi (s_up s) a b) as [us|] eqn:Es; cbn [bind] in E; [|discriminate]. destruct (wslice lo hi (s_dn s) a b) as [ds|] eqn:Es2; cbn [bind] in E; [|discriminate].
  apply wslice_inv with (d := 0%N) in Es as (W1 & W2 & W3 & W4 & ->). apply wslice_inv with (d := 0%N) in Es2 as (_ & _ & _ & W5 & ->).
  rewrite combine3 in E.
  destruct (load_edges _ _) as [[wo wi]|] eqn:El; cbn [bind] in E; [|discriminate].
  destruct (link_iter (c_inv c) cur) as [lows|]; cbn [bind] in E |- *; [|discriminate].
  destruct (foldM (relax_edge c lo hi (s_up s) (s_dn s) cur) lows (wo, wi)) as [[wo1 wi1]|] eqn:Er; cbn [bind] in E; [|discriminate].
  assert (K : exists tri, mapM (low_code c cur) lows = Some tri /\ forall fu fd, exists fu' fd', run lo hi (concat tri) (sh_of s, mkPrv wo wi fu fd) = Some (sh_of s, mkPrv wo1 wi1 fu' fd')).
  { clear -Er. revert wo wi Er. induction lows as [|[z e1] lows IH]; intros wo wi Er; cbn [foldM mapM] in *.
    - injection Er as <- <-. exists []. split; auto. intros fu fd. exists fu, fd. auto.
    - destruct (relax_edge c lo hi (s_up s) (s_dn s) cur (wo, wi) (z, e1)) as [[wo2 wi2]|] eqn:E1; cbn [bind] in Er; [|discriminate].
      destruct (relax_code c lo hi (sh_of s) cur z e1 wo wi wo2 wi2 E1) as (code & -> & H1). destruct (IH _ _ Er) as (tri & -> & H2). cbn [bind].
      eexists. split; [reflexivity|]. intros fu fd. cbn [concat]. rewrite run_app. destruct (H1 fu fd) as (fu1 & fd1 & ->). cbn [bind]. apply H2. }
  destruct K as (tri & -> & HT). cbn [bind]. eexists. split; [reflexivity|]. intros fu fd.
  rewrite run_app. rewrite (load_code lo hi (sh_of s) fu fd (combine h (seq a (b - a))) (s_wo s) (s_wi s) wo wi); [|intros x e Hin; apply in_combine_r, in_seq in Hin; cbn [sh_of h_up h_dn]; lia|exact El].
  cbn [bind]. rewrite run_app. destruct (HT fu fd) as (fu1 & fd1 & ->). cbn [bind]. exists fu1, fd1.
  apply (store_code lo hi fu1 fd1 (combine h (seq a (b - a))) (mkCst (s_up s) (s_dn s) (s_upu s) (s_dnu s) wo1 wi1) s' E).
Qed.

Lemma nodes_code_ok c lo hi u : forall k s s', customize_nodes c lo hi u k s = Some s' -> exists code, nodes_code c u k = Some code /\
  forall fu fd, exists fu' fd', run lo hi code (sh_of s, mkPrv (s_wo s) (s_wi s) fu fd) = Some (sh_of s', mkPrv (s_wo s') (s_wi s') fu' fd').
Proof.
  intros k s s' E. unfold customize_nodes in E. unfold nodes_code.
  assert (K : exists l, mapM (node_code c) (seq u k) = Some l /\ forall fu fd, exists fu' fd', run lo hi (concat l) (sh_of s, mkPrv (s_wo s) (s_wi s) fu fd) = Some (sh_of s', mkPrv (s_wo s') (s_wi s') fu' fd')).
  { revert s E. generalize (seq u k) as l. induction l as [|x l IH]; intros s E; cbn [foldM mapM] in *.
    - injection E as <-. exists []. split; auto. intros fu fd. exists fu, fd. auto.
    - destruct (customize_node c lo hi s x) as [s1|] eqn:E1; cbn [bind] in E; [|discriminate].
      destruct (node_code_ok _ _ _ _ _ _ E1) as (code & -> & H1). destruct (IH _ E) as (tri & -> & H2). cbn [bind].
      eexists. split; [reflexivity|]. intros fu fd. cbn [concat]. rewrite run_app. destruct (H1 fu fd) as (fu1 & fd1 & ->). cbn [bind]. apply H2. }
  destruct K as (l & -> & H). cbn [bind]. eexists. split; [reflexivity|]. exact H.
Qed.

(** ** instructions only touch their window *)
Definition agree (lo hi : nat) (s1 s2 : shared) : Prop :=
  (length (h_up s1) = length (h_up s2) /\ length (h_dn s1) = length (h_dn s2) /\ length (h_upu s1) = length (h_upu s2) /\ length (h_dnu s1) = length (h_dnu s2)) /\
  forall e, lo <= e < hi -> nth_error (h_up s1) e = nth_error (h_up s2) e /\ nth_error (h_dn s1) e = nth_error (h_dn s2) e /\
    nth_error (h_upu s1) e = nth_error (h_upu s2) e /\ nth_error (h_dnu s1) e = nth_error (h_dnu s2) e.
Definition same_out (lo hi : nat) (s1 s2 : shared) : Prop :=
  (length (h_up s1) = length (h_up s2) /\ length (h_dn s1) = length (h_dn s2) /\ length (h_upu s1) = length (h_upu s2) /\ length (h_dnu s1) = length (h_dnu s2)) /\
  forall e, ~ (lo <= e < hi) -> nth_error (h_up s1) e = nth_error (h_up s2) e /\ nth_error (h_dn s1) e = nth_error (h_dn s2) e /\
    nth_error (h_upu s1) e = nth_error (h_upu s2) e /\ nth_error (h_dnu s1) e = nth_error (h_dnu s2) e.

Lemma agree_refl lo hi s : agree lo hi s s.
Proof. split; auto. Qed.
Lemma agree_sym lo hi s1 s2 : agree lo hi s1 s2 -> agree lo hi s2 s1.
Proof. intros [(a & b & c & d) H]. split; [repeat split; auto|]. intros e He. destruct (H e He) as (? & ? & ? & ?). repeat split; auto. Qed.
Lemma agree_trans lo hi s1 s2 s3 : agree lo hi s1 s2 -> agree lo hi s2 s3 -> agree lo hi s1 s3.
Proof.
  intros [(a & b & c & d) H] [(a' & b' & c' & d') H']. split; [repeat split; congruence|]. intros e He.
  destruct (H e He) as (? & ? & ? & ?), (H' e He) as (? & ? & ? & ?). repeat split; congruence.
Qed.
Lemma agree_sub lo hi lo' hi' s1 s2 : lo <= lo' -> hi' <= hi -> agree lo hi s1 s2 -> agree lo' hi' s1 s2.
Proof. intros A B [L H]. split; auto. intros e He. apply H. lia. Qed.
Lemma out_refl lo hi s : same_out lo hi s s.
Proof. split; auto. Qed.
Lemma out_trans lo hi s1 s2 s3 : same_out lo hi s1 s2 -> same_out lo hi s2 s3 -> same_out lo hi s1 s3.
Proof.
  intros [(a & b & c & d) H] [(a' & b' & c' & d') H']. split; [repeat split; congruence|]. intros e He.
  destruct (H e He) as (? & ? & ? & ?), (H' e He) as (? & ? & ? & ?). repeat split; congruence.
Qed.
Lemma out_sub lo hi lo' hi' s1 s2 : lo <= lo' -> hi' <= hi -> same_out lo' hi' s1 s2 -> same_out lo hi s1 s2.
Proof. intros A B [L H]. split; auto. intros e He. apply H. lia. Qed.
Lemma out_agree lo hi lo' hi' s1 s2 : hi' <= lo \/ hi <= lo' -> same_out lo hi s1 s2 -> agree lo' hi' s1 s2.
Proof. intros A [L H]. split; auto. intros e He. apply H. lia. Qed.

Lemma inw_inv {A} lo hi e (k : unit -> option A) r : (x <- guard ((lo <=? e) && (e <? hi)) ;; k x) = Some r -> lo <= e < hi /\ k tt = Some r.
Proof. destruct (Nat.leb_spec lo e), (Nat.ltb_spec e hi); cbn [andb guard bind]; intros E; try discriminate. split; auto. Qed.
Lemma set_at_agree {A} (l1 l2 : list A) e v l1' : length l1 = length l2 -> set_at l1 e v = Some l1' -> set_at l2 e v = Some (upd l2 e v) /\ l1' = upd l1 e v /\ e < length l1.
Proof. unfold set_at. intros L. rewrite L. destruct (Nat.ltb_spec e (length l2)); [|discriminate]. intros E. injection E as <-. auto. Qed.

Lemma istep_frame lo hi s1 s2 p i s1' p' : agree lo hi s1 s2 -> istep lo hi (s1, p) i = Some (s1', p') ->
  exists s2', istep lo hi (s2, p) i = Some (s2', p') /\ agree lo hi s1' s2' /\ same_out lo hi s2 s2' /\ same_out lo hi s1 s1'.
Proof.
  intros [(L1 & L2 & L3 & L4) H] E.
  assert (W : forall A (l1 l2 : list A) e v, length l1 = length l2 -> lo <= e < hi -> e < length l1 -> (forall j, lo <= j < hi -> nth_error l1 j = nth_error l2 j) ->
     (forall j, lo <= j < hi -> nth_error (upd l1 e v) j = nth_error (upd l2 e v) j) /\ forall j, ~ (lo <= j < hi) -> nth_error l2 j = nth_error (upd l2 e v) j /\ nth_error l1 j = nth_error (upd l1 e v) j).
  { intros A l1 l2 e v L He Hl Hj. split.
    - intros j Hj'. rewrite !nth_error_upd, <- L. rewrite (Hj j Hj'). auto.
    - intros j Hj'. rewrite !nth_error_upd_neq by lia. auto. }
  destruct i; cbn [istep] in E |- *; apply inw_inv in E as [He E]; rewrite (inw_ok lo hi _ He); cbn [bind];
    destruct (H _ He) as (E1 & E2 & E3 & E4).
  - rewrite <- E2. destruct (nth_error (h_dn s1) e); cbn [bind] in E |- *; [|discriminate]. destruct (set_at (p_wi p) x _); cbn [bind] in E |- *; [|discriminate].
    injection E as <- <-. exists s2. split; [reflexivity|]. split; [split; [tauto|exact H]|]. split; apply out_refl.
  - rewrite <- E1. destruct (nth_error (h_up s1) e); cbn [bind] in E |- *; [|discriminate]. destruct (set_at (p_wo p) x _); cbn [bind] in E |- *; [|discriminate].
    injection E as <- <-. exists s2. split; [reflexivity|]. split; [split; [tauto|exact H]|]. split; apply out_refl.
  - rewrite <- E2. destruct (nth_error (h_dn s1) e1); cbn [bind] in E |- *; [|discriminate].
    injection E as <- <-. exists s2. split; [reflexivity|]. split; [split; [tauto|exact H]|]. split; apply out_refl.
  - rewrite <- E1. destruct (nth_error (h_up s1) e1); cbn [bind] in E |- *; [|discriminate].
    injection E as <- <-. exists s2. split; [reflexivity|]. split; [split; [tauto|exact H]|]. split; apply out_refl.
  - rewrite <- E1. destruct (nth_error (h_up s1) e2); cbn [bind] in E |- *; [|discriminate]. destruct (nth_error (p_wo p) x); cbn [bind] in E |- *; [|discriminate].
    destruct (cadd _ _); cbn [bind] in E |- *; [|discriminate]. destruct (if (_ <? _)%N then _ else _); cbn [bind] in E |- *; [|discriminate].
    injection E as <- <-. exists s2. split; [reflexivity|]. split; [split; [tauto|exact H]|]. split; apply out_refl.
  - rewrite <- E2. destruct (nth_error (h_dn s1) e2); cbn [bind] in E |- *; [|discriminate]. destruct (nth_error (p_wi p) x); cbn [bind] in E |- *; [|discriminate].
    destruct (cadd _ _); cbn [bind] in E |- *; [|discriminate]. destruct (if (_ <? _)%N then _ else _); cbn [bind] in E |- *; [|discriminate].
    injection E as <- <-. exists s2. split; [reflexivity|]. split; [split; [tauto|exact H]|]. split; apply out_refl.
  - destruct (nth_error (p_wi p) x) as [r|]; cbn [bind] in E |- *; [|discriminate]. destruct (set_at (h_dn s1) e (fst r)) as [l'|] eqn:S1; cbn [bind] in E; [|discriminate].
    destruct (set_at_agree _ _ _ _ _ L2 S1) as (-> & -> & Hl). cbn [bind]. injection E as <- <-. eexists. split; [reflexivity|].
    destruct (W _ (h_dn s1) (h_dn s2) e (fst r) L2 He Hl) as [W1 W2]. { intros j Hj; apply (H j Hj). }
    unfold agree, same_out; cbn [h_up h_dn h_upu h_dnu]; rewrite ?upd_length. split; [|split]; (split; [repeat split; auto|]); intros j Hj; try (destruct (H j Hj) as (? & ? & ? & ?)); repeat split; auto; try (apply W1; auto); apply W2; auto.
  - destruct (nth_error (p_wo p) x) as [r|]; cbn [bind] in E |- *; [|discriminate]. destruct (set_at (h_up s1) e (fst r)) as [l'|] eqn:S1; cbn [bind] in E; [|discriminate].
    destruct (set_at_agree _ _ _ _ _ L1 S1) as (-> & -> & Hl). cbn [bind]. injection E as <- <-. eexists. split; [reflexivity|].
    destruct (W _ (h_up s1) (h_up s2) e (fst r) L1 He Hl) as [W1 W2]. { intros j Hj; apply (H j Hj). }
    unfold agree, same_out; cbn [h_up h_dn h_upu h_dnu]; rewrite ?upd_length. split; [|split]; (split; [repeat split; auto|]); intros j Hj; try (destruct (H j Hj) as (? & ? & ? & ?)); repeat split; auto; try (apply W1; auto); apply W2; auto.
  - destruct (nth_error (p_wi p) x) as [r|]; cbn [bind] in E |- *; [|discriminate]. destruct (set_at (h_dnu s1) e (snd r)) as [l'|] eqn:S1; cbn [bind] in E; [|discriminate].
    destruct (set_at_agree _ _ _ _ _ L4 S1) as (-> & -> & Hl). cbn [bind]. injection E as <- <-. eexists. split; [reflexivity|].
    destruct (W _ (h_dnu s1) (h_dnu s2) e (snd r) L4 He Hl) as [W1 W2]. { intros j Hj; apply (H j Hj). }
    unfold agree, same_out; cbn [h_up h_dn h_upu h_dnu]; rewrite ?upd_length. split; [|split]; (split; [repeat split; auto|]); intros j Hj; try (destruct (H j Hj) as (? & ? & ? & ?)); repeat split; auto; try (apply W1; auto); apply W2; auto.
  - destruct (nth_error (p_wo p) x) as [r|]; cbn [bind] in E |- *; [|discriminate]. destruct (set_at (h_upu s1) e (snd r)) as [l'|] eqn:S1; cbn [bind] in E; [|discriminate].
    destruct (set_at_agree _ _ _ _ _ L3 S1) as (-> & -> & Hl). cbn [bind]. injection E as <- <-. eexists. split; [reflexivity|].
    destruct (W _ (h_upu s1) (h_upu s2) e (snd r) L3 He Hl) as [W1 W2]. { intros j Hj; apply (H j Hj). }
    unfold agree, same_out; cbn [h_up h_dn h_upu h_dnu]; rewrite ?upd_length. split; [|split]; (split; [repeat split; auto|]); intros j Hj; try (destruct (H j Hj) as (? & ? & ? & ?)); repeat split; auto; try (apply W1; auto); apply W2; auto.
Qed.

Lemma run_out lo hi : forall code s p s' p', run lo hi code (s, p) = Some (s', p') -> same_out lo hi s s'.
Proof.
  induction code as [|i code IH]; intros s p s' p' E; unfold run in E; cbn [foldM] in E. { injection E as <- <-. apply out_refl. }
  destruct (istep lo hi (s, p) i) as [[s1 p1]|] eqn:E1; cbn [bind] in E; [|discriminate].
  destruct (istep_frame _ _ _ _ _ _ _ _ (agree_refl lo hi s) E1) as (? & _ & _ & _ & O). eapply out_trans; eauto.
Qed.

Lemma task_ind2 (P : task -> Prop) : (forall lo hi code, P (TExec lo hi code)) -> (forall lo hi p code, P (TRun lo hi p code)) ->
  (forall subs lo hi after, Forall P subs -> P (TScope subs lo hi after)) -> forall t, P t.
Proof.
  intros H1 H2 H3. fix IH 1. intros [lo hi code|lo hi p code|subs lo hi after]; [apply H1|apply H2|]. apply H3. induction subs; constructor; [apply IH|assumption].
Qed.

Definition patch {A} (d : A) (lo hi : nat) (a b : list A) : list A := map (fun e => if (lo <=? e) && (e <? hi) then nth e a d else nth e b d) (seq 0 (length b)).
Lemma patch_len {A} (d : A) lo hi a b : length (patch d lo hi a b) = length b.
Proof. unfold patch. rewrite map_length, seq_length. auto. Qed.
Lemma nth_error_patch {A} (d : A) lo hi a b e : length a = length b -> nth_error (patch d lo hi a b) e = if (lo <=? e) && (e <? hi) then nth_error a e else nth_error b e.
Proof.
  intros L. unfold patch. rewrite nth_error_map. destruct (Nat.ltb_spec e (length b)) as [He|He].
  - rewrite (nth_error_nth_some (seq 0 (length b)) e 0) by (rewrite seq_length; auto). rewrite seq_nth by auto. cbn [option_map Nat.add].
    destruct ((lo <=? e) && (e <? hi)); symmetry; apply nth_error_nth_some; lia.
  - rewrite !(proj2 (nth_error_None _ _)); rewrite ?seq_length; auto; try lia. destruct ((lo <=? e) && (e <? hi)); auto.
Qed.
Lemma nth_of_error {A} (l l' : list A) e d : nth_error l e = nth_error l' e -> nth e l d = nth e l' d.
Proof.
  intros H. destruct (nth_error l e) eqn:E.
  - rewrite (nth_error_nth _ _ d E). symmetry in H. rewrite (nth_error_nth _ _ d H). auto.
  - symmetry in H. apply nth_error_None in E, H. rewrite !nth_overflow; auto.
Qed.

Section Par.
  Variable adj : list (list (nat * N)).
  Variables order ranks : list nat.
  Variable nodes : list (list nat).
  Variable c : cch.
  Hypothesis HK : cch_ok adj order ranks nodes c.
  Variables up0 dn0 : list N.
  Hypothesis S_up : small nodes up0.
  Hypothesis S_dn : small nodes dn0.
  Notation n := (length adj).
  Notation m := (length (concat nodes)).
  Notation NL := (nodes_len adj order ranks nodes c HK).
  Notation st := (fun S : shared => mkCst (h_up S) (h_dn S) (h_upu S) (h_dnu S) [] []).

  (** a cell: the nodes o .. o+k-1, with all their lower neighbours *)
  Definition closed_cell (o k : nat) : Prop := o + k <= n /\ forall z x, In x (nbh nodes z) -> o <= x < o + k -> o <= z.
  Definition lens (S : shared) : Prop := length (h_up S) = m /\ length (h_dn S) = m /\ length (h_upu S) = m /\ length (h_dnu S) = m.
  (** in the cell (o, k) the nodes below [u] are done and the others untouched *)
  Record wd (o u k : nat) (S : shared) : Prop := {
    wd_len : lens S;
    wd_inf : forall e, off nodes o <= e < off nodes (o + k) -> (nth e (h_up S) 0 <= INF)%N /\ (nth e (h_dn S) 0 <= INF)%N;
    wd_eq : forall e x y, o <= x < u -> edge nodes e x y -> edge_eq nodes up0 dn0 (st S) e x y;
    wd_rest : forall e x y, u <= x < o + k -> edge nodes e x y -> nth e (h_up S) 0%N = nth e up0 0%N /\ nth e (h_dn S) 0%N = nth e dn0 0%N }.

  Lemma edge_cell o k e x y : o + k <= n -> o <= x < o + k -> edge nodes e x y -> off nodes o <= e < off nodes (o + k).
  Proof using HK.
    intros Hk Hx He. apply edge_range in He. pose proof (off_mono nodes o x). pose proof (off_mono nodes (x + 1) (o + k)). rewrite NL in *. lia.
  Qed.
  Lemma low_edge o k e z y x : closed_cell o k -> o <= x < o + k -> In x (nbh nodes z) -> edge nodes e z y -> off nodes o <= e < off nodes (o + k).
  Proof using HK.
    intros [Hk C] Hx Hz He. apply (edge_cell o k e z y Hk); [|exact He]. split; [eapply C; eauto|]. apply (ch_up _ _ (co_chordal _ _ _ _ _ HK)) in Hz. lia.
  Qed.
  Lemma agree_nth lo hi S1 S2 e : agree lo hi S1 S2 -> lo <= e < hi -> nth e (h_up S1) 0%N = nth e (h_up S2) 0%N /\ nth e (h_dn S1) 0%N = nth e (h_dn S2) 0%N /\
    nth e (h_upu S1) no_unp = nth e (h_upu S2) no_unp /\ nth e (h_dnu S1) no_unp = nth e (h_dnu S2) no_unp.
  Proof using. intros [_ H] He. destruct (H e He) as (? & ? & ? & ?). repeat split; apply nth_of_error; auto. Qed.
  Lemma edge_eq_agree o k e x y S1 S2 wo wi wo' wi' : closed_cell o k -> agree (off nodes o) (off nodes (o + k)) S1 S2 -> o <= x < o + k -> edge nodes e x y ->
    edge_eq nodes up0 dn0 (mkCst (h_up S1) (h_dn S1) (h_upu S1) (h_dnu S1) wo wi) e x y -> edge_eq nodes up0 dn0 (mkCst (h_up S2) (h_dn S2) (h_upu S2) (h_dnu S2) wo' wi') e x y.
  Proof using HK.
    intros C A Hx He. unfold edge_eq. cbn [s_up s_dn s_upu s_dnu].
    destruct (agree_nth _ _ _ _ e A (edge_cell _ _ _ _ _ (proj1 C) Hx He)) as (-> & -> & -> & ->).
    destruct (cand_ext _ _ _ _ _ HK (h_up S1) (h_dn S1) (h_up S2) (h_dn S2) x y) as [-> ->]; [|auto].
    intros e' x' z Hz He'. destruct (agree_nth _ _ _ _ e' A (low_edge _ _ _ _ _ _ C Hx Hz He')) as (-> & -> & _ & _). auto.
  Qed.

  Lemma wd_agree o u k S S' : closed_cell o k -> o <= u <= o + k -> agree (off nodes o) (off nodes (o + k)) S S' -> wd o u k S -> wd o u k S'.
  Proof using HK.
    intros C Hu A [L I E R]. split.
    - destruct A as [(a & b & d & f) _]. unfold lens in *. intuition congruence.
    - intros e He. destruct (agree_nth _ _ _ _ e A He) as (<- & <- & _ & _). auto.
    - intros e x y Hx He. apply (edge_eq_agree o k e x y S S' [] [] [] [] C A); auto. lia.
    - intros e x y Hx He. assert (Hx' : o <= x < o + k) by lia.
      destruct (agree_nth _ _ _ _ e A (edge_cell _ _ _ _ _ (proj1 C) Hx' He)) as (<- & <- & _ & _). eauto.
  Qed.

  (** extend the cell by the initial weights everywhere else *)
  Lemma wd_done o u k S wo wi : closed_cell o k -> o <= u <= o + k -> wd o u k S -> length wo = n -> length wi = n ->
    exists s0, done adj nodes up0 dn0 (fun x => o <= x < u) s0 /\ agree (off nodes o) (off nodes (o + k)) (sh_of s0) S /\ s_wo s0 = wo /\ s_wi s0 = wi.
  Proof using HK S_up S_dn.
    intros C Hu [(L1 & L2 & L3 & L4) I E R] Lo Li. set (lo := off nodes o) in *. set (hi := off nodes (o + k)) in *.
    destruct S_up as [U1 U2], S_dn as [D1 D2].
    set (s0 := mkCst (patch 0%N lo hi (h_up S) up0) (patch 0%N lo hi (h_dn S) dn0) (h_upu S) (h_dnu S) wo wi). exists s0.
    assert (A : agree lo hi (sh_of s0) S).
    { split. { cbn [sh_of s0 h_up h_dn h_upu h_dnu s_up s_dn s_upu s_dnu]. rewrite !patch_len. repeat split; congruence. }
      intros e He. cbn [sh_of s0 h_up h_dn h_upu h_dnu s_up s_dn s_upu s_dnu]. rewrite !nth_error_patch by congruence.
      rewrite (proj2 (Nat.leb_le lo e)), (proj2 (Nat.ltb_lt e hi)) by lia. auto. }
    assert (Pn : forall a b e, length a = length b -> nth e (patch 0%N lo hi a b) 0%N = if (lo <=? e) && (e <? hi) then nth e a 0%N else nth e b 0%N).
    { intros a b e Lab. pose proof (nth_error_patch 0%N lo hi a b e Lab) as P. destruct ((lo <=? e) && (e <? hi)); apply nth_of_error; auto. }
    split; [|split; [exact A|split; reflexivity]]. split.
    - unfold st_ok, small. cbn [s0 s_up s_dn s_upu s_dnu s_wo s_wi]. rewrite !patch_len. repeat split; auto; intros e; rewrite Pn by congruence;
        destruct (Nat.leb_spec lo e), (Nat.ltb_spec e hi); cbn [andb]; auto; apply I; lia.
    - intros e x y Hx He. assert (Hx' : o <= x < o + k) by lia. pose proof (E e x y Hx He) as Q.
      apply (edge_eq_agree o k e x y S (sh_of s0) [] [] wo wi C (agree_sym _ _ _ _ A) Hx' He Q).
    - intros e x y Hx He. cbn [s0 s_up s_dn]. rewrite !Pn by congruence. destruct (Nat.leb_spec lo e), (Nat.ltb_spec e hi); cbn [andb]; auto.
      apply (R e x y); auto. pose proof (edge_range nodes _ _ _ He). pose proof (edge_tail_lt nodes _ _ _ He). destruct C as [C _]. rewrite NL in *.
      assert (o <= x). { destruct (Nat.le_gt_cases o x); auto. pose proof (off_mono nodes (x + 1) o). rewrite NL in *. unfold lo in *. lia. }
      assert (x < o + k). { destruct (Nat.lt_ge_cases x (o + k)); auto. pose proof (off_mono nodes (o + k) x). rewrite NL in *. unfold hi in *. lia. } lia.
    - intros z x Hz Hx. pose proof (proj2 C z x Hz). apply (ch_up _ _ (co_chordal _ _ _ _ _ HK)) in Hz. lia.
  Qed.

  (** the code of the rest of a cell, run from a state where the nodes below [u] are done *)
  Lemma cell_code o u k s0 : closed_cell o k -> o <= u <= o + k -> done adj nodes up0 dn0 (fun x => o <= x < u) s0 ->
    exists code s', nodes_code c u (o + k - u) = Some code /\ done adj nodes up0 dn0 (fun x => o <= x < o + k) s' /\
    forall fu fd, exists fu' fd', run (off nodes o) (off nodes (o + k)) code (sh_of s0, mkPrv (s_wo s0) (s_wi s0) fu fd) = Some (sh_of s', mkPrv (s_wo s') (s_wi s') fu' fd').
  Proof using HK.
    intros [Hk C] Hu D. assert (MW : forall x, o <= x < o + k -> in_win nodes (off nodes o) (off nodes (o + k)) x).
    { intros x Hx. split; apply off_mono; rewrite ?NL; lia. }
    destruct (done_nodes _ _ _ _ _ HK up0 dn0 (off nodes o) (off nodes (o + k)) u (o + k - u) _ s0 D) as (s' & E & D').
    - lia.
    - intros i Hi. lia.
    - intros z x Hz Hx. assert (o <= z) by (eapply C; eauto; lia). lia.
    - intros x Hx. apply MW. lia.
    - intros z x Hz Hx. apply MW. split; [eapply C; eauto; lia|]. apply (ch_up _ _ (co_chordal _ _ _ _ _ HK)) in Hz. lia.
    - destruct (nodes_code_ok _ _ _ _ _ _ _ E) as (code & Ec & H). exists code, s'. split; auto. split; auto.
      eapply done_ext; eauto.
      + intros x Hx. cbn beta. lia.
      + intros z x Hz Hx. pose proof (C z x Hz Hx). apply (ch_up _ _ (co_chordal _ _ _ _ _ HK)) in Hz. lia.
  Qed.
  Lemma code_ex o u k : closed_cell o k -> o <= u <= o + k -> exists code, nodes_code c u (o + k - u) = Some code.
  Proof using HK S_up S_dn.
    (* the code does not depend on the weights *)
    intros C Hu. assert (D : done adj nodes up0 dn0 (fun x => o <= x < o) (mkCst up0 dn0 (repeat no_unp m) (repeat no_unp m) (repeat (INF, no_unp) n) (repeat (INF, no_unp) n))).
    { eapply done_ext; [exact HK| | |apply done_init; auto; apply repeat_length]; cbn beta; intros; lia. }
    destruct (cell_code o o k _ C ltac:(lia) D) as (code & s' & E & _).
    replace (o + k - o) with k in E by lia. unfold nodes_code in *. destruct (mapM (node_code c) (seq o k)) as [l|] eqn:M; [|discriminate].
    replace k with ((u - o) + (o + k - u)) in M by lia. rewrite seq_app, mapM_app in M. replace (o + (u - o)) with u in M by lia.
    destruct (mapM (node_code c) (seq o (u - o))); cbn [bind] in M; [|discriminate]. destruct (mapM (node_code c) (seq u (o + k - u))); cbn [bind] in M |- *; [|discriminate]. eauto.
  Qed.

  (** consecutive cells from [o] to [u] *)
  Fixpoint cells (o : nat) (l : list (nat * nat)) (u : nat) : Prop :=
    match l with [] => o = u | (a, k) :: l' => a = o /\ cells (o + k) l' u end.

  (** ** the invariant *)
  Inductive tinv (S : shared) : nat -> nat -> task -> Prop :=
  | ti_exec o u k code : closed_cell o k -> o <= u <= o + k -> nodes_code c u (o + k - u) = Some code -> wd o u k S ->
      tinv S o k (TExec (off nodes o) (off nodes (o + k)) code)
  | ti_run o u k s0 fu fd pre S1 p code : closed_cell o k -> o <= u <= o + k -> nodes_code c u (o + k - u) = Some (pre ++ code) ->
      done adj nodes up0 dn0 (fun x => o <= x < u) s0 ->
      run (off nodes o) (off nodes (o + k)) pre (sh_of s0, mkPrv (s_wo s0) (s_wi s0) fu fd) = Some (S1, p) ->
      agree (off nodes o) (off nodes (o + k)) S1 S ->
      tinv S o k (TRun (off nodes o) (off nodes (o + k)) p code)
  | ti_scope o u k l subs after : closed_cell o k -> o <= u <= o + k -> cells o l u -> Forall2 (fun a t => tinv S (fst a) (snd a) t) l subs ->
      nodes_code c u (o + k - u) = Some after -> lens S ->
      (forall e x y, u <= x < o + k -> edge nodes e x y -> nth e (h_up S) 0%N = nth e up0 0%N /\ nth e (h_dn S) 0%N = nth e dn0 0%N) ->
      tinv S o k (TScope subs (off nodes o) (off nodes (o + k)) after).

  Lemma ti_exec_inv S o k lo hi code : tinv S o k (TExec lo hi code) -> lo = off nodes o /\ hi = off nodes (o + k) /\ closed_cell o k /\
    exists u, o <= u <= o + k /\ nodes_code c u (o + k - u) = Some code /\ wd o u k S.
  Proof using. intros H. inversion H; subst. split; auto. split; auto. split; auto. eauto 10. Qed.
  Lemma ti_run_inv S o k lo hi p code : tinv S o k (TRun lo hi p code) -> lo = off nodes o /\ hi = off nodes (o + k) /\ closed_cell o k /\
    exists u s0 fu fd pre S1, o <= u <= o + k /\ nodes_code c u (o + k - u) = Some (pre ++ code) /\ done adj nodes up0 dn0 (fun x => o <= x < u) s0 /\
      run (off nodes o) (off nodes (o + k)) pre (sh_of s0, mkPrv (s_wo s0) (s_wi s0) fu fd) = Some (S1, p) /\ agree (off nodes o) (off nodes (o + k)) S1 S.
  Proof using. intros H. inversion H; subst. split; auto. split; auto. split; auto. eauto 15. Qed.
  Lemma ti_scope_inv S o k subs lo hi after : tinv S o k (TScope subs lo hi after) -> lo = off nodes o /\ hi = off nodes (o + k) /\ closed_cell o k /\
    exists u l, o <= u <= o + k /\ cells o l u /\ Forall2 (fun a t => tinv S (fst a) (snd a) t) l subs /\ nodes_code c u (o + k - u) = Some after /\ lens S /\
      (forall e x y, u <= x < o + k -> edge nodes e x y -> nth e (h_up S) 0%N = nth e up0 0%N /\ nth e (h_dn S) 0%N = nth e dn0 0%N).
  Proof using. intros H. inversion H; subst. split; auto. split; auto. split; auto. exists u, l. auto 10. Qed.

  Lemma tinv_lens S o k t : tinv S o k t -> lens S /\ closed_cell o k.
  Proof using.
    intros H. destruct t as [lo hi code|lo hi p code|subs lo hi after].
    - apply ti_exec_inv in H as (-> & -> & C & u & Hu & E & W). split; auto. apply W.
    - apply ti_run_inv in H as (-> & -> & C & u & s0 & fu & fd & pre & S1 & Hu & E & D & R & A). split; auto.
      apply run_out in R as [(a & b & d & f) _]. destruct A as [(a' & b' & d' & f') _]. destruct (dn_st _ _ _ _ _ _ D) as ((? & _) & (? & _) & ? & ? & _).
      cbn [sh_of h_up h_dn h_upu h_dnu] in *. unfold lens. intuition congruence.
    - apply ti_scope_inv in H as (-> & -> & C & u & l & Hu & Hc & HS & E & L & R). auto.
  Qed.
  Lemma cells_range : forall l o u a k, cells o l u -> In (a, k) l -> o <= a /\ a + k <= u.
  Proof using.
    induction l as [|[b j] l IH]; intros o u a k H Hi; [destruct Hi|]. cbn [cells] in H. destruct H as [-> H].
    assert (G : o + j <= u). { clear -H. revert H. generalize (o + j) as q. induction l as [|[b i] l IH]; cbn [cells]; intros q H; [lia|]. destruct H as [-> H]. apply IH in H. lia. }
    destruct Hi as [E|Hi]. { injection E as <- <-. lia. } specialize (IH _ _ _ _ H Hi). lia.
  Qed.

  (** only the window of the cell matters *)
  Lemma tinv_agree t : forall S S' o k, tinv S o k t -> agree (off nodes o) (off nodes (o + k)) S S' -> tinv S' o k t.
  Proof using HK.
    induction t as [lo hi code|lo hi p code|subs lo hi after IH] using task_ind2; intros S S' o k H A.
    - apply ti_exec_inv in H as (-> & -> & C & u & Hu & E & W). eapply ti_exec; eauto. eapply wd_agree; eauto.
    - apply ti_run_inv in H as (-> & -> & C & u & s0 & fu & fd & pre & S1 & Hu & E & D & R & A'). eapply ti_run; eauto. eapply agree_trans; eauto.
    - apply ti_scope_inv in H as (-> & -> & C & u & l & Hu & Hc & HS & E & L & R). eapply (ti_scope S' o u k l); eauto.
      + rewrite Forall_forall in IH. assert (G : forall a j, In (a, j) l -> off nodes o <= off nodes a /\ off nodes (a + j) <= off nodes (o + k)).
        { intros a j Hi. destruct (cells_range _ _ _ _ _ Hc Hi). destruct C as [C _]. split; apply off_mono; rewrite ?NL; lia. }
        clear -HS IH A G. induction HS as [|[a j] t l ts Ht F IHF]; constructor.
        * cbn [fst snd] in *. apply (IH t (or_introl eq_refl) S); auto. destruct (G a j (or_introl eq_refl)). eapply agree_sub; eauto.
        * apply IHF. { intros; eapply IH; eauto. right; auto. } intros; apply G; right; auto.
      + destruct A as [(a & b & d & f) _]. unfold lens in *. intuition congruence.
      + intros e x y Hx He. assert (Hx' : o <= x < o + k) by lia.
        destruct (agree_nth _ _ _ _ e A (edge_cell _ _ _ _ _ (proj1 C) Hx' He)) as (<- & <- & _ & _). eauto.
  Qed.

  (** a finished task leaves its whole cell done *)
  Lemma tinv_finished S o k t : tinv S o k t -> finished t -> wd o (o + k) k S.
  Proof using HK.
    intros H F. destruct (tinv_lens _ _ _ _ H) as [L C]. destruct t as [|lo hi p [|i code]|]; cbn [finished] in F; try tauto.
    apply ti_run_inv in H as (-> & -> & _ & u & s0 & fu & fd & pre & S1 & Hu & Ec & D0 & R0 & H6). rewrite app_nil_r in Ec.
    destruct (cell_code o u k s0 C Hu D0) as (code & s' & E & D & R). assert (pre = code) as -> by congruence.
    destruct (R fu fd) as (fu' & fd' & R'). rewrite R' in R0. injection R0 as <- <-.
    destruct D as [D1 D2 D3 D4]. destruct D1 as ((U1 & U2) & (V1 & V2) & _). split; auto.
    - intros e He. destruct (agree_nth _ _ _ _ e H6 He) as (<- & <- & _ & _). cbn [sh_of h_up h_dn]. auto.
    - intros e x y Hx He. apply (edge_eq_agree o k e x y (sh_of s') S (s_wo s') (s_wi s') [] [] C H6 Hx He).
      specialize (D2 e x y Hx He). destruct s'. exact D2.
    - intros; lia.
  Qed.

  Lemma cells_wd S : forall l o u, cells o l u -> lens S -> (forall a j, In (a, j) l -> wd a (a + j) j S) ->
    (forall e, u <= length nodes -> off nodes o <= e < off nodes u -> (nth e (h_up S) 0 <= INF)%N /\ (nth e (h_dn S) 0 <= INF)%N) /\
    forall e x y, o <= x < u -> edge nodes e x y -> edge_eq nodes up0 dn0 (st S) e x y.
  Proof using.
    induction l as [|[a j] l IH]; intros o u Hc L W; cbn [cells] in Hc. { subst u. split; intros; lia. }
    destruct Hc as [-> Hc]. destruct (IH _ _ Hc L) as [I1 I2]. { intros; apply W; right; auto. }
    pose proof (W o j (or_introl eq_refl)) as [_ W1 W2 _]. split.
    - intros e Hu He. destruct (Nat.lt_ge_cases e (off nodes (o + j))); [apply W1; lia|apply I1; auto; lia].
    - intros e x y Hx He. destruct (Nat.lt_ge_cases x (o + j)); [apply W2; auto; lia|apply (I2 e x y); auto; lia].
  Qed.

  Lemma Forall2_mid {A B} (R : A -> B -> Prop) l l1 t l2 : Forall2 R l (l1 ++ t :: l2) -> exists a1 a a2, l = a1 ++ a :: a2 /\ Forall2 R a1 l1 /\ R a t /\ Forall2 R a2 l2.
  Proof using. intros H. apply Forall2_app_inv_r in H as (a1 & r & H1 & H2 & ->). inversion H2; subst. eauto 8. Qed.
  Lemma cells_app l1 : forall l2 o u, cells o (l1 ++ l2) u <-> exists v, cells o l1 v /\ cells v l2 u.
  Proof using.
    induction l1 as [|[a j] l1 IH]; intros l2 o u; cbn [app cells].
    - split; [eauto|]. intros (v & -> & H). auto.
    - rewrite IH. split; [intros (-> & v & H1 & H2); eauto|intros (v & (-> & H1) & H2); eauto].
  Qed.

  Lemma tstep_inv S t S' t' : tstep n S t S' t' -> forall o k, tinv S o k t -> tinv S' o k t' /\ same_out (off nodes o) (off nodes (o + k)) S S'.
  Proof using HK S_up S_dn.
    induction 1 as [S lo hi code p Lo Li|S lo hi p i code S' p' E|S l1 t l2 lo hi after S' t' Hs IH|S subs lo hi after HFin]; intros o k H.
    - split; [|apply out_refl]. apply ti_exec_inv in H as (-> & -> & C & u & Hu & Ec & W). destruct (wd_done o u k S (p_wo p) (p_wi p)) as (s0 & D & A & E1 & E2); auto.
      destruct p as [wo wi fu fd]. cbn [p_wo p_wi] in *. eapply (ti_run S o u k s0 fu fd [] (sh_of s0) _ code); eauto. rewrite E1, E2. reflexivity.
    - apply ti_run_inv in H as (-> & -> & C & u & s0 & fu & fd & pre & S1 & Hu & Ec & D0 & R & A).
      assert (X : exists S1' p1', istep (off nodes o) (off nodes (o + k)) (S1, p) i = Some (S1', p1')).
      { destruct (cell_code o u k s0) as (full & s' & Ef & D & R'); auto. assert (full = pre ++ i :: code) as -> by congruence.
        destruct (R' fu fd) as (fu' & fd' & R''). rewrite run_app, R in R''. cbn [bind] in R''. unfold run in R''. cbn [foldM] in R''.
        destruct (istep _ _ (S1, p) i) as [[S1' p1']|]; [eauto|discriminate]. }
      destruct X as (S1' & p1' & X). destruct (istep_frame _ _ _ _ _ _ _ _ A X) as (S2 & E2 & A2 & O2 & _). rewrite E2 in E. injection E as <- <-.
      split; auto. eapply (ti_run S2 o u k s0 fu fd (pre ++ [i]) S1' p1' code); eauto.
      + rewrite <- app_assoc. auto.
      + rewrite run_app, R. cbn [bind]. unfold run. cbn [foldM]. rewrite X. reflexivity.
    - apply ti_scope_inv in H as (-> & -> & C & u & l & Hu & Hc & HS & Ec & L & R0). destruct (Forall2_mid _ _ _ _ _ HS) as (a1 & [a j] & a2 & -> & F1 & Ht & F2). cbn [fst snd] in Ht.
      destruct (IH _ _ Ht) as [Ht' O].
      assert (Ra : o <= a /\ a + j <= u). { eapply cells_range; eauto. apply in_or_app. right; left; auto. }
      assert (On : same_out (off nodes o) (off nodes (o + k)) S S').
      { destruct C as [Hk _]. eapply out_sub; [| |exact O]; apply off_mono; rewrite ?NL; lia. }
      split; auto. eapply (ti_scope S' o u k (a1 ++ (a, j) :: a2)); eauto.
      + apply cells_app in Hc as (v & Hc1 & Hc2). cbn [cells] in Hc2. destruct Hc2 as [-> Hc2].
        assert (N1 : forall b i, In (b, i) a1 -> o <= b /\ b + i <= v) by (intros; eapply cells_range; eauto).
        assert (N2 : forall b i, In (b, i) a2 -> v + j <= b /\ b + i <= u) by (intros; eapply cells_range; eauto).
        apply Forall2_app; [|constructor].
        * clear -F1 N1 O C Ra HK Hu. induction F1 as [|[b i] t l ts H1 F IHF]; constructor; [|apply IHF; intros; apply N1; right; auto].
          cbn [fst snd] in *. eapply tinv_agree; eauto. eapply out_agree; [|exact O]. left. destruct (N1 b i (or_introl eq_refl)), C as [C _].
          apply off_mono; rewrite ?NL; lia.
        * cbn [fst snd]. auto.
        * clear -F2 N2 O C Ra HK Hu. induction F2 as [|[b i] t l ts H1 F IHF]; constructor; [|apply IHF; intros; apply N2; right; auto].
          cbn [fst snd] in *. eapply tinv_agree; eauto. eapply out_agree; [|exact O]. right. destruct (N2 b i (or_introl eq_refl)), C as [C _].
          apply off_mono; rewrite ?NL; lia.
      + destruct On as [(a' & b' & d' & f') _]. unfold lens in *. intuition congruence.
      + intros e x y Hx He. destruct (R0 e x y Hx He) as [R1 R2].
        assert (Hx' : u <= x < u + (o + k - u)) by lia. assert (Hk : u + (o + k - u) <= n) by (destruct C; lia).
        pose proof (edge_cell u (o + k - u) e x y Hk Hx' He) as W.
        assert (A : agree (off nodes u) (off nodes (u + (o + k - u))) S S'). { eapply out_agree; [|exact O]. right. apply off_mono; rewrite ?NL; lia. }
        destruct (agree_nth _ _ _ _ e A W) as (<- & <- & _ & _). auto.
    - split; [|apply out_refl]. apply ti_scope_inv in H as (-> & -> & C & u & l & Hu & Hc & HS & Ec & L & R0).
      eapply ti_exec; eauto.
      assert (W : forall a j, In (a, j) l -> wd a (a + j) j S).
      { intros a j Hi. destruct (Forall2_In_l _ _ _ _ HS Hi) as (t & Ht & Hi'). rewrite Forall_forall in HFin. eapply tinv_finished; eauto. }
      destruct (cells_wd S l o u Hc L W) as [W1 W2]. destruct C as [Hk C]. split; auto. intros e He.
      destruct (Nat.lt_ge_cases e (off nodes u)). { apply W1; [rewrite NL; lia|lia]. }
      assert (Hem : e < m). { pose proof (off_le nodes (o + k)). rewrite NL in *. lia. }
      destruct (edge_ex nodes e Hem) as (x & y & He2). assert (Hx : u <= x < o + k).
      { pose proof (edge_range nodes _ _ _ He2). pose proof (edge_tail_lt nodes _ _ _ He2). rewrite NL in *. split.
        - destruct (Nat.le_gt_cases u x); auto. pose proof (off_mono nodes (x + 1) u). rewrite NL in *. lia.
        - destruct (Nat.lt_ge_cases x (o + k)); auto. pose proof (off_mono nodes (o + k) x). rewrite NL in *. lia. }
      destruct (R0 e x y Hx He2) as [-> ->]. split; [apply S_up|apply S_dn].
  Qed.

  (** no step panics, and a task that is not finished can go on *)
  Lemma tinv_safe S t : forall o k, tinv S o k t -> ~ tpanic S t.
  Proof using HK.
    induction t as [lo hi code|lo hi p code|subs lo hi after IH] using task_ind2; intros o k H P; inversion P; subst.
    - apply ti_run_inv in H as (-> & -> & C & u & s0 & fu & fd & pre & S1 & Hu & Ec & D0 & R & A).
      destruct (cell_code o u k s0) as (full & s' & Ef & D & R'); auto. assert (full = pre ++ i :: code0) as -> by congruence.
      destruct (R' fu fd) as (fu' & fd' & R''). rewrite run_app, R in R''. cbn [bind] in R''. unfold run in R''. cbn [foldM] in R''.
      destruct (istep _ _ (S1, p) i) as [[S1' p1']|] eqn:X; [|discriminate]. destruct (istep_frame _ _ _ _ _ _ _ _ A X) as (S2 & E2 & _). congruence.
    - apply ti_scope_inv in H as (-> & -> & C & u & l & Hu & Hc & HS & Ec & L & R0). rewrite Forall_forall in IH. assert (Hin : In t (l1 ++ t :: l2)) by (apply in_or_app; right; left; auto).
      destruct (Forall2_In_r _ _ _ _ HS Hin) as (a & _ & Ha). eapply (IH t Hin); eauto.
  Qed.
  Lemma finished_dec t : {finished t} + {~ finished t}.
  Proof using. destruct t as [| ? ? ? [|]|]; cbn; auto. Qed.
  Lemma tinv_progress S t : forall o k, tinv S o k t -> finished t \/ exists S' t', tstep n S t S' t'.
  Proof using HK.
    induction t as [lo hi code|lo hi p code|subs lo hi after IH] using task_ind2; intros o k H.
    - right. exists S, (TRun lo hi (mkPrv (repeat (0%N, no_unp) n) (repeat (0%N, no_unp) n) 0%N 0%N) code). constructor; cbn; apply repeat_length.
    - destruct code as [|i code]; [left; exact I|]. right. destruct (istep lo hi (S, p) i) as [[S' p']|] eqn:E.
      + exists S', (TRun lo hi p' code). constructor; auto.
      + exfalso. eapply tinv_safe; [exact H|]. constructor; auto.
    - right. destruct (Forall_Exists_dec finished finished_dec subs) as [F|F]. { exists S, (TExec lo hi after). constructor; auto. }
      apply Exists_exists in F as (t & Ht & Hn). apply in_split in Ht as (l1 & l2 & ->). apply ti_scope_inv in H as (-> & -> & C & u & l & Hu & Hc & HS & Ec & L & R0).
      rewrite Forall_forall in IH. assert (Hin : In t (l1 ++ t :: l2)) by (apply in_or_app; right; left; auto).
      destruct (Forall2_In_r _ _ _ _ HS Hin) as (a & _ & Ha). destruct (IH t Hin _ _ Ha) as [|(S' & t' & Hs)]; [tauto|].
      exists S', (TScope (l1 ++ t' :: l2) (off nodes o) (off nodes (o + k)) after). constructor; auto.
  Qed.

  Lemma tsteps_inv j : forall S t S' t', tsteps n j S t S' t' -> forall o k, tinv S o k t -> tinv S' o k t'.
  Proof using HK S_up S_dn. induction j; intros S t S' t' H o k Hi; inversion H; subst; auto. eapply IHj; eauto. eapply tstep_inv; eauto. Qed.

  Lemma par_final S t s : tinv S 0 n t -> finished t -> cust_ok adj nodes up0 dn0 s ->
    h_up S = s_up s /\ h_dn S = s_dn s /\ h_upu S = s_upu s /\ h_dnu S = s_dnu s.
  Proof using HK.
    intros H F Hs. pose proof (tinv_finished _ _ _ _ H F) as W. cbn [Nat.add] in W. destruct W as [(L1 & L2 & L3 & L4) I E _].
    apply (cust_unique _ _ _ _ _ HK up0 dn0 s (mkCst (h_up S) (h_dn S) (h_upu S) (h_dnu S) (repeat (0%N, no_unp) n) (repeat (0%N, no_unp) n))); auto. split.
    - assert (J : forall e, (nth e (h_up S) 0 <= INF)%N /\ (nth e (h_dn S) 0 <= INF)%N).
      { intros e. destruct (Nat.lt_ge_cases e m). { apply I. rewrite off_0, <- NL, off_n. lia. } rewrite !nth_overflow by lia. unfold INF. lia. }
      unfold st_ok, small. cbn [s_up s_dn s_upu s_dnu s_wo s_wi]. rewrite !repeat_length. repeat split; auto; intros e; apply J.
    - intros e x y He. pose proof (edge_tail_lt nodes _ _ _ He) as Hx. rewrite NL in Hx.
      specialize (E e x y ltac:(lia) He). exact E.
  Qed.
End Par.
