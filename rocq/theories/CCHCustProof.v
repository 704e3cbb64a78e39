(** Basic customization: what one node does, and the invariant over any order of the nodes that goes bottom-up. *)
From Verif Require Import Base BitVec Graph GraphProof GraphRevProof GraphIdProof GraphSpecProof SpecGraph SpecCCH CCH CCHTheory CCHContractProof CCHBuildProof.
From Coq Require Import Sorting.Sorted.

Lemma slice_map {A} (l : list A) a b d : b <= length l -> slice l a b = if a <=? b then Some (map (fun e => nth e l d) (seq a (b - a))) else None.
Proof.
  intros H. destruct (Nat.leb_spec a b).
  - rewrite slice_Some by lia. f_equal. apply list_ext. intros i. rewrite nth_error_slice, nth_error_map.
    destruct (Nat.ltb_spec i (b - a)).
    + rewrite nth_error_nth_some with (d := 0) by (rewrite seq_length; auto). rewrite seq_nth by auto. cbn. apply nth_error_nth_some. lia.
    + replace (nth_error (seq a (b - a)) i) with (@None nat); auto. symmetry. apply nth_error_None. rewrite seq_length. auto.
  - unfold slice. destruct (Nat.leb_spec a b); [lia|]. reflexivity.
Qed.
Lemma combine4 {A B X Y} (f : B -> X) (g : B -> Y) (l : list A) (r : list B) :
  combine (combine (combine l (map f r)) (map g r)) r = map (fun p => (fst p, f (snd p), g (snd p), snd p)) (combine l r).
Proof. revert r; induction l; intros [|b r]; cbn; auto. f_equal. auto. Qed.
Lemma combine3 {A B X Y} (f : B -> X) (g : B -> Y) (l : list A) (r : list B) :
  combine (combine l (map f r)) (map g r) = map (fun p => (fst p, f (snd p), g (snd p))) (combine l r).
Proof. revert r; induction l; intros [|b r]; cbn; auto. f_equal. auto. Qed.

(** keep the strictly better one *)
Definition relax1 (r c : N * unp) : N * unp := if (fst c <? fst r)%N then c else r.

Lemma relax_fold_le l r : (fst (fold_left relax1 l r) <= fst r)%N /\ forall c, In c l -> (fst (fold_left relax1 l r) <= fst c)%N.
Proof.
  revert r; induction l as [|c l IH]; intros r; cbn. { split; [lia|tauto]. } destruct (IH (relax1 r c)) as [H1 H2].
  assert (K : (fst (relax1 r c) <= fst r)%N /\ (fst (relax1 r c) <= fst c)%N) by (unfold relax1; destruct (N.ltb_spec (fst c) (fst r)); lia).
  split; [lia|]. intros c' [<-|Hc]; [lia|auto].
Qed.
(** either nothing was strictly better, or the result is the first of the best ones *)
Lemma relax_fold_case l : forall r, (fold_left relax1 l r = r /\ forall c, In c l -> (fst r <= fst c)%N) \/
  exists l1 c l2, l = l1 ++ c :: l2 /\ fold_left relax1 l r = c /\ (fst c < fst r)%N /\ (forall c', In c' l1 -> (fst c < fst c')%N) /\ (forall c', In c' l2 -> (fst c <= fst c')%N).
Proof.
  induction l as [|x l IH]; intros r. { left. split; auto. intros c []. } cbn [fold_left]. unfold relax1 at 2 4. destruct (N.ltb_spec (fst x) (fst r)) as [L|L].
  - right. destruct (IH x) as [[E H]|(l1 & c & l2 & E & F & L1 & H1 & H2)].
    + exists [], x, l. split; auto. split; auto. split; auto. split; [intros c []|auto].
    + exists (x :: l1), c, l2. split; [cbn; congruence|]. split; auto. split; [lia|]. split; auto. intros c' [<-|Hc]; auto.
  - destruct (IH r) as [[E H]|(l1 & c & l2 & E & F & L1 & H1 & H2)].
    + left. split; auto. intros c [<-|Hc]; auto.
    + right. exists (x :: l1), c, l2. split; [cbn; congruence|]. split; auto. split; auto. split; auto. intros c' [<-|Hc]; [lia|auto].
Qed.

Lemma relax_low_ok cur e1 fd fu (U D : nat -> N) (ids : list (nat * nat)) : forall wo wi,
  StronglySorted (fun a b => fst b < fst a) ids ->
  (forall x e, In (x, e) ids -> x < length wo /\ x < length wi /\ (U e + fd < U32)%N /\ (D e + fu < U32)%N) ->
  exists wo' wi', relax_low cur e1 fd fu (map (fun p => (fst p, U (snd p), D (snd p), snd p)) ids) wo wi = Some (wo', wi') /\
    length wo' = length wo /\ length wi' = length wi /\
    (forall x e2, In (x, e2) ids -> cur < x ->
       nth_error wo' x = option_map (fun r => relax1 r ((U e2 + fd)%N, (Some e1, Some e2))) (nth_error wo x) /\
       nth_error wi' x = option_map (fun r => relax1 r ((D e2 + fu)%N, (Some e2, Some e1))) (nth_error wi x)) /\
    (forall x, ~ In x (map fst ids) -> nth_error wo' x = nth_error wo x /\ nth_error wi' x = nth_error wi x).
Proof.
  induction ids as [|[x e2] ids IH]; intros wo wi HS HB.
  { exists wo, wi. cbn. split; auto. split; auto. split; auto. split; [intros ? ? []|auto]. }
  inversion HS as [|? ? HS' HF]; subst. destruct (HB x e2) as (B1 & B2 & B3 & B4); [left; auto|].
  rewrite Forall_forall in HF. cbn [map relax_low fst snd].
  destruct (Nat.leb_spec x cur) as [L|L].
  { exists wo, wi. split; auto. split; auto. split; auto. split; auto. intros x' e' [[= <- <-]|Hin] Hx; [lia|]. apply HF in Hin. cbn in Hin. lia. }
  rewrite !cadd_ok by auto. destruct (nth_error_lt wo x B1) as (r & Er). destruct (nth_error_lt wi x B2) as (r2 & Er2). rewrite Er, Er2. cbn [bind].
  set (c1 := ((U e2 + fd)%N, (Some e1, Some e2))). set (c2 := ((D e2 + fu)%N, (Some e2, Some e1))).
  assert (Ko : (if (U e2 + fd <? fst r)%N then set_at wo x c1 else Some wo) = Some (upd wo x (relax1 r c1))).
  { unfold relax1, c1. cbn [fst]. destruct (U e2 + fd <? fst r)%N; [apply set_at_lt; auto|]. f_equal. symmetry. apply upd_same. auto. }
  assert (Ki : (if (D e2 + fu <? fst r2)%N then set_at wi x c2 else Some wi) = Some (upd wi x (relax1 r2 c2))).
  { unfold relax1, c2. cbn [fst]. clear Ko. destruct (D e2 + fu <? fst r2)%N; [apply set_at_lt; auto|]. f_equal. symmetry. apply upd_same. auto. }
  rewrite Ko, Ki. cbn [bind].
  destruct (IH (upd wo x (relax1 r c1)) (upd wi x (relax1 r2 c2)) HS') as (wo' & wi' & E & Lo & Li & H1 & H2).
  { intros x' e' Hin. rewrite !upd_length. apply HB. right; auto. }
  rewrite upd_length in Lo, Li. exists wo', wi'. split; auto. split; auto. split; auto. split.
  - intros x' e' [[= <- <-]|Hin] Hx.
    + destruct (H2 x) as [-> ->]. { intros K. apply in_map_iff in K. destruct K as ([a b] & Ea & K). apply HF in K. cbn in *. lia. }
      rewrite !nth_error_upd_eq, Er, Er2 by auto. auto.
    + apply HF in Hin as Hlt. cbn in Hlt. destruct (H1 x' e' Hin Hx) as [-> ->]. rewrite !nth_error_upd_neq by lia. auto.
  - intros x' Hx'. destruct (H2 x') as [-> ->]. { intros K. apply Hx'. right; auto. }
    rewrite !nth_error_upd_neq; auto; intros ->; apply Hx'; left; auto.
Qed.

Section Cust.
  Variable adj : list (list (nat * N)).
  Variables order ranks : list nat.
  Variable nodes : list (list nat).
  Variable c : cch.
  Hypothesis HK : cch_ok adj order ranks nodes c.
  Let n := length adj.
  Let m := length (concat nodes).
  Let HC := co_chordal _ _ _ _ _ HK.

  Definition ids (z : nat) : list (nat * nat) := combine (nbh nodes z) (seq (off nodes z) (length (nbh nodes z))).
  Lemma HN x : NoDup (nbh nodes x).
  Proof using HK. apply asc_NoDup, (ch_asc _ _ (co_chordal _ _ _ _ _ HK)). Qed.
  Lemma ids_nth z k : nth_error (ids z) k = match nth_error (nbh nodes z) k with Some x => Some (x, off nodes z + k) | None => None end.
  Proof.
    clear HC. unfold ids. generalize (off nodes z) as s. generalize (nbh nodes z) as l. clear. intros l. revert k. induction l as [|x l IH]; intros k s.
    { destruct k; auto. } destruct k; cbn. { rewrite Nat.add_0_r. auto. } rewrite IH. destruct (nth_error l k); auto. do 2 f_equal. lia.
  Qed.
  Lemma ids_In z x e : In (x, e) (ids z) <-> edge nodes e z x.
  Proof.
    split.
    - intros H. apply In_nth_error in H. destruct H as (k & H). rewrite ids_nth in H. exists k. destruct (nth_error (nbh nodes z) k); [|discriminate]. injection H as -> <-. auto.
    - intros (k & Hk & ->). eapply nth_error_In with (n := k). rewrite ids_nth, Hk. auto.
  Qed.
  Lemma ids_fst z : map fst (ids z) = nbh nodes z.
  Proof.
    clear. unfold ids. generalize (off nodes z). induction (nbh nodes z); intros s; cbn; auto. f_equal. auto.
  Qed.
  Lemma ids_desc z : StronglySorted (fun a b => fst b < fst a) (rev (ids z)).
  Proof using HK.
    assert (G : forall l : list (nat * nat), ascending_list (map fst l) -> StronglySorted (fun a b => fst b < fst a) (rev l)).
    { clear. induction l as [|[x e] l IH]; cbn; intros H; [constructor|]. apply ss_inv in H. destruct H as [H1 H2]. specialize (IH H1).
      assert (Q : forall y, In y (rev l) -> x < fst y). { intros y Hy. apply H2. apply in_map. apply in_rev. auto. }
      clear H1 H2. induction (rev l) as [|y r IHr]; cbn. { constructor; constructor. } inversion IH; subst.
      constructor. { apply IHr; auto. intros y' Hy'. apply Q. right; auto. }
      apply Forall_app. split; auto. constructor; [apply Q; left; auto|constructor]. }
    apply G. rewrite ids_fst. apply (ch_asc _ _ (co_chordal _ _ _ _ _ HK)).
  Qed.

  Lemma c_range z : z < n -> cch_range c z = Some (off nodes z, off nodes (z + 1)).
  Proof using HK. intros H. unfold cch_range. rewrite !(co_fo _ _ _ _ _ HK) by (fold n; lia). reflexivity. Qed.
  Lemma nodes_len : length nodes = n.
  Proof using HK. apply (ch_len _ _ (co_chordal _ _ _ _ _ HK)). Qed.
  Lemma off_diff z : z < n -> off nodes (z + 1) - off nodes z = length (nbh nodes z).
  Proof using HK. intros H. rewrite off_S by (rewrite nodes_len; auto). lia. Qed.

  (** the access window of a task *)
  Definition in_win (lo hi z : nat) : Prop := lo <= off nodes z /\ off nodes (z + 1) <= hi.
  Lemma wslice_ok lo hi z (l : list N) : z < n -> length l = m -> in_win lo hi z ->
    wslice lo hi l (off nodes z) (off nodes (z + 1)) = Some (map (fun e => nth e l 0%N) (seq (off nodes z) (length (nbh nodes z)))).
  Proof using HK.
    intros Hz Hl [W1 W2]. unfold wslice. rewrite (proj2 (Nat.leb_le _ _) W1), (proj2 (Nat.leb_le _ _) W2). cbn [guard bind].
    pose proof nodes_len as NL. pose proof (off_le nodes (z + 1) ltac:(lia)). pose proof (off_mono nodes z (z + 1) ltac:(lia) ltac:(lia)).
    rewrite (slice_map _ _ _ 0%N) by (unfold m in *; lia). rewrite (proj2 (Nat.leb_le _ _)) by lia. rewrite off_diff by auto. auto.
  Qed.

  (** triangle candidates for the edge from [cur] up to [x] through the lower node [z] *)
  Definition tri_up (up dn : list N) (x : nat) (ze : nat * nat) : list (N * unp) :=
    match eid nodes (fst ze) x with Some e2 => [((nth e2 up 0 + nth (snd ze) dn 0)%N, (Some (snd ze), Some e2))] | None => [] end.
  Definition tri_dn (up dn : list N) (x : nat) (ze : nat * nat) : list (N * unp) :=
    match eid nodes (fst ze) x with Some e2 => [((nth e2 dn 0 + nth (snd ze) up 0)%N, (Some e2, Some (snd ze)))] | None => [] end.
  Definition cand_up (up dn : list N) (cur x : nat) : list (N * unp) := flat_map (tri_up up dn x) (lows nodes cur).
  Definition cand_dn (up dn : list N) (cur x : nat) : list (N * unp) := flat_map (tri_dn up dn x) (lows nodes cur).

  Definition small (l : list N) : Prop := length l = m /\ forall e, (nth e l 0 <= INF)%N.

  Lemma relax_edge_ok lo hi up dn cur z e1 wo wi : edge nodes e1 z cur -> in_win lo hi z -> small up -> small dn -> length wo = n -> length wi = n ->
    exists wo' wi', relax_edge c lo hi up dn cur (wo, wi) (z, e1) = Some (wo', wi') /\ length wo' = n /\ length wi' = n /\
    forall x, cur < x -> nth_error wo' x = option_map (fold_left relax1 (tri_up up dn x (z, e1))) (nth_error wo x) /\
                         nth_error wi' x = option_map (fold_left relax1 (tri_dn up dn x (z, e1))) (nth_error wi x).
  Proof using HK.
    intros He W [U1 U2] [D1 D2] Lo Li. pose proof (edge_tail_lt _ _ _ _ He) as Hz. rewrite nodes_len in Hz. pose proof (edge_range _ _ _ _ He) as Hr. pose proof (edge_lt _ _ _ _ He) as Hm.
    unfold relax_edge, wget. destruct W as [W1 W2]. rewrite (proj2 (Nat.leb_le lo e1)) by lia. rewrite (proj2 (Nat.ltb_lt e1 hi)) by lia. cbn [guard bind].
    rewrite (nth_error_nth_some dn e1 0%N), (nth_error_nth_some up e1 0%N) by (unfold m in *; lia). cbn [bind].
    rewrite c_range by auto. cbn [bind]. rewrite (co_head _ _ _ _ _ HK), nbh_slice by (rewrite nodes_len; auto). cbn [bind].
    rewrite !wslice_ok by (auto; split; auto). cbn [bind]. rewrite off_diff by auto. cbn [fst snd].
    assert (EL : combine (combine (combine (nbh nodes z) (map (fun e => nth e up 0%N) (seq (off nodes z) (length (nbh nodes z))))) (map (fun e => nth e dn 0%N) (seq (off nodes z) (length (nbh nodes z))))) (seq (off nodes z) (length (nbh nodes z)))
      = map (fun p => (fst p, nth (snd p) up 0%N, nth (snd p) dn 0%N, snd p)) (ids z)).
    { apply (combine4 (fun e => nth e up 0%N) (fun e => nth e dn 0%N)). }
    rewrite EL, <- map_rev.
    assert (HU : U32 = 4294967296%N) by reflexivity. assert (HI : INF = 2147483647%N) by reflexivity.
    destruct (relax_low_ok cur e1 (nth e1 dn 0%N) (nth e1 up 0%N) (fun e => nth e up 0%N) (fun e => nth e dn 0%N) (rev (ids z)) wo wi (ids_desc z)) as (wo' & wi' & E & L1 & L2 & H1 & H2).
    { intros x e Hx. rewrite <- in_rev in Hx. apply ids_In in Hx. apply edge_In in Hx. apply (ch_up _ _ HC) in Hx. fold n in Hx.
      pose proof (U2 e). pose proof (D2 e). pose proof (U2 e1). pose proof (D2 e1). repeat split; lia. }
    exists wo', wi'. split; [exact E|]. split; [lia|]. split; [lia|]. intros x Hx. unfold tri_up, tri_dn. cbn [fst snd].
    destruct (eid nodes z x) as [e2|] eqn:Ee.
    - apply eid_edge in Ee. destruct (H1 x e2) as [-> ->]; auto. { rewrite <- in_rev. apply ids_In. auto. }
    - destruct (H2 x) as [-> ->]. { rewrite map_rev, <- in_rev, ids_fst. intros K. destruct (eid_In _ _ _ K). congruence. }
      cbn. destruct (nth_error wo x), (nth_error wi x); auto.
  Qed.

  Lemma relax_all_ok lo hi up dn cur : forall zs wo wi, (forall z e, In (z, e) zs -> edge nodes e z cur /\ in_win lo hi z) -> small up -> small dn -> length wo = n -> length wi = n ->
    exists wo' wi', foldM (relax_edge c lo hi up dn cur) zs (wo, wi) = Some (wo', wi') /\ length wo' = n /\ length wi' = n /\
    forall x, cur < x -> nth_error wo' x = option_map (fold_left relax1 (flat_map (tri_up up dn x) zs)) (nth_error wo x) /\
                         nth_error wi' x = option_map (fold_left relax1 (flat_map (tri_dn up dn x) zs)) (nth_error wi x).
  Proof using HK.
    induction zs as [|[z e] zs IH]; intros wo wi Hz HU HD Lo Li.
    - exists wo, wi. cbn. split; auto. split; auto. split; auto. intros x _. destruct (nth_error wo x), (nth_error wi x); auto.
    - destruct (Hz z e) as [He Hw]; [left; auto|]. destruct (relax_edge_ok lo hi up dn cur z e wo wi He Hw HU HD Lo Li) as (wo1 & wi1 & E1 & L1 & L2 & H1).
      destruct (IH wo1 wi1) as (wo' & wi' & E & L3 & L4 & H2); auto. { intros z' e' H. apply Hz. right; auto. }
      exists wo', wi'. cbn [foldM]. rewrite E1. cbn [bind]. split; auto. split; auto. split; auto. intros x Hx.
      destruct (H2 x Hx) as [-> ->]. destruct (H1 x Hx) as [-> ->]. cbn [flat_map].
      split; [destruct (nth_error wo x)|destruct (nth_error wi x)]; cbn; auto; f_equal; rewrite fold_left_app; auto.
  Qed.

  Lemma load_ok (U D : nat -> N) : forall (l : list (nat * nat)) wo wi, NoDup (map fst l) -> (forall x e, In (x, e) l -> x < n) -> length wo = n -> length wi = n ->
    exists wo' wi', load_edges (map (fun p => (fst p, D (snd p), U (snd p))) l) (wo, wi) = Some (wo', wi') /\ length wo' = n /\ length wi' = n /\
    (forall x e, In (x, e) l -> nth_error wo' x = Some (U e, no_unp) /\ nth_error wi' x = Some (D e, no_unp)) /\
    (forall x, ~ In x (map fst l) -> nth_error wo' x = nth_error wo x /\ nth_error wi' x = nth_error wi x).
  Proof using adj nodes n m.
    induction l as [|[x e] l IH]; intros wo wi ND Hl Lo Li.
    - exists wo, wi. cbn. split; auto. split; auto. split; auto. split; [intros ? ? []|auto].
    - inversion ND; subst. assert (Hx : x < n) by (apply (Hl x e); left; auto).
      cbn [map load_edges foldM fst snd]. unfold load_edges. cbn [foldM fst snd]. rewrite !set_at_lt by lia. cbn [bind].
      destruct (IH (upd wo x (U e, no_unp)) (upd wi x (D e, no_unp))) as (wo' & wi' & E & L1 & L2 & H3 & H4); auto.
      { intros x' e' H. apply (Hl x' e'). right; auto. } { rewrite upd_length; auto. } { rewrite upd_length; auto. }
      exists wo', wi'. split; [exact E|]. split; auto. split; auto. split.
      + intros x' e' [[= <- <-]|Hin]; auto. destruct (H4 x H1) as [-> ->]. rewrite !nth_error_upd_eq by lia. auto.
      + intros x' Hx'. cbn in Hx'. destruct (H4 x') as [-> ->]; [tauto|]. rewrite !nth_error_upd_neq by (intros ->; tauto). auto.
  Qed.

  Lemma store_ok lo hi (wo wi : list (N * unp)) (FO FI : nat -> N * unp) : forall (l : list (nat * nat)) s, NoDup (map snd l) ->
    (forall x e, In (x, e) l -> lo <= e < hi /\ e < m /\ nth_error wo x = Some (FO x) /\ nth_error wi x = Some (FI x)) ->
    length (s_up s) = m -> length (s_dn s) = m -> length (s_upu s) = m -> length (s_dnu s) = m -> s_wo s = wo -> s_wi s = wi ->
    exists s', foldM (store_edge lo hi) l s = Some s' /\ length (s_up s') = m /\ length (s_dn s') = m /\ length (s_upu s') = m /\ length (s_dnu s') = m /\ s_wo s' = wo /\ s_wi s' = wi /\
    (forall x e, In (x, e) l -> nth_error (s_up s') e = Some (fst (FO x)) /\ nth_error (s_upu s') e = Some (snd (FO x)) /\
                                nth_error (s_dn s') e = Some (fst (FI x)) /\ nth_error (s_dnu s') e = Some (snd (FI x))) /\
    (forall e, ~ In e (map snd l) -> nth_error (s_up s') e = nth_error (s_up s) e /\ nth_error (s_upu s') e = nth_error (s_upu s) e /\
                                     nth_error (s_dn s') e = nth_error (s_dn s) e /\ nth_error (s_dnu s') e = nth_error (s_dnu s) e).
  Proof using adj nodes n m.
    induction l as [|[x e] l IH]; intros s ND Hl L1 L2 L3 L4 Eo Ei.
    - exists s. cbn. repeat (split; [auto; fail|]). split; [intros ? ? []|auto].
    - inversion ND; subst. destruct (Hl x e) as (B1 & B2 & Ro & Ri); [left; auto|]. cbn [foldM]. unfold store_edge at 1.
      rewrite (proj2 (Nat.leb_le lo e)) by lia. rewrite (proj2 (Nat.ltb_lt e hi)) by lia. cbn [guard bind]. rewrite Ri. cbn [bind]. rewrite Ro. cbn [bind].
      rewrite !set_at_lt by lia. cbn [bind].
      destruct (IH (mkCst (upd (s_up s) e (fst (FO x))) (upd (s_dn s) e (fst (FI x))) (upd (s_upu s) e (snd (FO x))) (upd (s_dnu s) e (snd (FI x))) (s_wo s) (s_wi s)))
        as (s' & E & M1 & M2 & M3 & M4 & M5 & M6 & G1 & G2); cbn; rewrite ?upd_length; auto.
      { intros x' e' H. apply Hl. right; auto. }
      cbn in G2. exists s'. repeat (split; [assumption|]). split.
      + intros x' e' [[= <- <-]|Hin]; auto. destruct (G2 e H1) as (-> & -> & -> & ->). rewrite !nth_error_upd_eq by lia. auto.
      + intros e' He'. cbn in He'. destruct (G2 e') as (-> & -> & -> & ->); [tauto|]. rewrite !nth_error_upd_neq by (intros ->; tauto). auto.
  Qed.

  Definition st_ok (s : cst) : Prop :=
    small (s_up s) /\ small (s_dn s) /\ length (s_upu s) = m /\ length (s_dnu s) = m /\ length (s_wo s) = n /\ length (s_wi s) = n.

  Lemma customize_node_ok lo hi s cur : cur < n -> in_win lo hi cur -> (forall z, In cur (nbh nodes z) -> in_win lo hi z) -> st_ok s ->
    exists s', customize_node c lo hi s cur = Some s' /\ st_ok s' /\
    (forall e x, edge nodes e cur x ->
       let ro := fold_left relax1 (cand_up (s_up s) (s_dn s) cur x) (nth e (s_up s) 0%N, no_unp) in
       let ri := fold_left relax1 (cand_dn (s_up s) (s_dn s) cur x) (nth e (s_dn s) 0%N, no_unp) in
       nth_error (s_up s') e = Some (fst ro) /\ nth_error (s_upu s') e = Some (snd ro) /\
       nth_error (s_dn s') e = Some (fst ri) /\ nth_error (s_dnu s') e = Some (snd ri)) /\
    (forall e, (forall x, ~ edge nodes e cur x) -> nth_error (s_up s') e = nth_error (s_up s) e /\ nth_error (s_upu s') e = nth_error (s_upu s) e /\
                                     nth_error (s_dn s') e = nth_error (s_dn s) e /\ nth_error (s_dnu s') e = nth_error (s_dnu s) e).
  Proof using HK.
    intros Hc W WL (HU & HD & L1 & L2 & L3 & L4). unfold customize_node. rewrite c_range by auto. cbn [bind].
    rewrite (co_head _ _ _ _ _ HK), nbh_slice by (rewrite nodes_len; auto). cbn [bind]. pose proof HU as [U1 U2]. pose proof HD as [D1 D2].
    rewrite !wslice_ok by auto. cbn [bind]. rewrite off_diff by auto.
    assert (EL : combine (combine (nbh nodes cur) (map (fun e => nth e (s_dn s) 0%N) (seq (off nodes cur) (length (nbh nodes cur))))) (map (fun e => nth e (s_up s) 0%N) (seq (off nodes cur) (length (nbh nodes cur))))
       = map (fun p => (fst p, nth (snd p) (s_dn s) 0%N, nth (snd p) (s_up s) 0%N)) (ids cur)).
    { apply (combine3 (fun e => nth e (s_dn s) 0%N) (fun e => nth e (s_up s) 0%N)). }
    rewrite EL.
    destruct (load_ok (fun e => nth e (s_up s) 0%N) (fun e => nth e (s_dn s) 0%N) (ids cur) (s_wo s) (s_wi s)) as (wo1 & wi1 & E1 & A1 & A2 & A3 & _); auto.
    { rewrite ids_fst. apply HN. }
    { intros x e H. apply ids_In, edge_In, (ch_up _ _ HC) in H. fold n in H. lia. }
    rewrite E1. cbn [bind]. rewrite (co_inv _ _ _ _ _ HK) by auto. cbn [bind].
    destruct (relax_all_ok lo hi (s_up s) (s_dn s) cur (lows nodes cur) wo1 wi1) as (wo2 & wi2 & E2 & B1 & B2 & B3); auto.
    { intros z e Hz. apply lows_In in Hz; [|apply HN]. split; auto. apply WL. eapply edge_In; eauto. }
    rewrite E2. cbn [bind].
    set (FO := fun x => match eid nodes cur x with Some e => fold_left relax1 (cand_up (s_up s) (s_dn s) cur x) (nth e (s_up s) 0%N, no_unp) | None => (0%N, no_unp) end).
    set (FI := fun x => match eid nodes cur x with Some e => fold_left relax1 (cand_dn (s_up s) (s_dn s) cur x) (nth e (s_dn s) 0%N, no_unp) | None => (0%N, no_unp) end).
    fold (ids cur).
    destruct (store_ok lo hi wo2 wi2 FO FI (ids cur) (mkCst (s_up s) (s_dn s) (s_upu s) (s_dnu s) wo2 wi2)) as (s' & E3 & C1 & C2 & C3 & C4 & C5 & C6 & C7 & C8); cbn; auto.
    { clear. unfold ids. 
      assert (G : forall (a b : list nat), length a = length b -> map snd (combine a b) = b). { induction a; intros [|y b] H; cbn in *; try discriminate; auto. f_equal. auto. }
      rewrite G; [|rewrite seq_length; auto]. apply seq_NoDup. }
    { intros x e H. apply ids_In in H. pose proof (edge_range _ _ _ _ H). destruct W. split; [lia|]. split; [eapply edge_lt; eauto|].
      pose proof (edge_In _ _ _ _ H) as K. apply (ch_up _ _ HC) in K. destruct (B3 x) as [-> ->]; [lia|].
      destruct (A3 x e) as [-> ->]. { apply ids_In; auto. } unfold FO, FI. rewrite (edge_eid _ _ _ e (HN cur) H). auto. }
    exists s'. split; [exact E3|]. cbn in C8.
    assert (G1 : forall e x, edge nodes e cur x ->
       let ro := fold_left relax1 (cand_up (s_up s) (s_dn s) cur x) (nth e (s_up s) 0%N, no_unp) in
       let ri := fold_left relax1 (cand_dn (s_up s) (s_dn s) cur x) (nth e (s_dn s) 0%N, no_unp) in
       nth_error (s_up s') e = Some (fst ro) /\ nth_error (s_upu s') e = Some (snd ro) /\
       nth_error (s_dn s') e = Some (fst ri) /\ nth_error (s_dnu s') e = Some (snd ri)).
    { intros e x He ro ri. destruct (C7 x e) as (-> & -> & -> & ->). { apply ids_In; auto. } unfold FO, FI. rewrite (edge_eid _ _ _ e (HN cur) He). auto. }
    assert (G2 : forall e, (forall x, ~ edge nodes e cur x) -> nth_error (s_up s') e = nth_error (s_up s) e /\ nth_error (s_upu s') e = nth_error (s_upu s) e /\
                                     nth_error (s_dn s') e = nth_error (s_dn s) e /\ nth_error (s_dnu s') e = nth_error (s_dnu s) e).
    { intros e He. apply C8. intros K. apply in_map_iff in K. destruct K as ([x e'] & Ee & K). cbn in Ee. subst e'. apply ids_In in K. eapply He; eauto. }
    split; [|split; auto].
    assert (ED : forall e, (exists x, edge nodes e cur x) \/ forall x, ~ edge nodes e cur x).
    { intros e. destruct (in_dec Nat.eq_dec e (map snd (ids cur))) as [K|K].
      - left. apply in_map_iff in K. destruct K as ([x e'] & Ee & K). cbn in Ee. subst e'. apply ids_In in K. eauto.
      - right. intros x Hx. apply K. apply in_map_iff. exists (x, e). split; auto. apply ids_In; auto. }
    split; [|split; [|rewrite C5, C6; auto]].
    - split; auto. intros e. destruct (ED e) as [(x & He)|He].
      + destruct (G1 e x He) as (K & _). rewrite (nth_error_nth _ _ _ K). pose proof (proj1 (relax_fold_le (cand_up (s_up s) (s_dn s) cur x) (nth e (s_up s) 0%N, no_unp))). cbn [fst] in H. specialize (U2 e). lia.
      + destruct (G2 e He) as (K & _). specialize (U2 e). destruct (nth_error (s_up s) e) eqn:En.
        * rewrite (nth_error_nth _ _ _ K). rewrite (nth_error_nth _ _ _ En) in U2. auto.
        * apply nth_error_None in K. rewrite nth_overflow by auto. lia.
    - split; auto. intros e. destruct (ED e) as [(x & He)|He].
      + destruct (G1 e x He) as (_ & _ & K & _). rewrite (nth_error_nth _ _ _ K). pose proof (proj1 (relax_fold_le (cand_dn (s_up s) (s_dn s) cur x) (nth e (s_dn s) 0%N, no_unp))). cbn [fst] in H. specialize (D2 e). lia.
      + destruct (G2 e He) as (_ & _ & K & _). specialize (D2 e). destruct (nth_error (s_dn s) e) eqn:En.
        * rewrite (nth_error_nth _ _ _ K). rewrite (nth_error_nth _ _ _ En) in D2. auto.
        * apply nth_error_None in K. rewrite nth_overflow by auto. lia.
  Qed.

  (** ** Any bottom-up order of the nodes *)

  Lemma nth_of {A} (l : list A) e x d : nth_error l e = Some x -> nth e l d = x.
  Proof using. intros H. apply nth_error_nth. auto. Qed.
  Lemma eq_nth {A} (l l' : list A) e d : nth_error l' e = nth_error l e -> nth e l' d = nth e l d.
  Proof using.
    intros H. destruct (nth_error l e) eqn:E. { rewrite (nth_of _ _ _ d E). apply nth_of. auto. }
    apply nth_error_None in H, E. rewrite !nth_overflow by auto. auto.
  Qed.

  (** the equations a finished edge satisfies *)
  Definition edge_eq (up0 dn0 : list N) (s : cst) (e x y : nat) : Prop :=
    (nth e (s_up s) 0%N, nth e (s_upu s) no_unp) = fold_left relax1 (cand_up (s_up s) (s_dn s) x y) (nth e up0 0%N, no_unp) /\
    (nth e (s_dn s) 0%N, nth e (s_dnu s) no_unp) = fold_left relax1 (cand_dn (s_up s) (s_dn s) x y) (nth e dn0 0%N, no_unp).
  Record done (up0 dn0 : list N) (P : nat -> Prop) (s : cst) : Prop := {
    dn_st : st_ok s;
    dn_eq : forall e x y, P x -> edge nodes e x y -> edge_eq up0 dn0 s e x y;
    dn_rest : forall e x y, ~ P x -> edge nodes e x y -> nth e (s_up s) 0%N = nth e up0 0%N /\ nth e (s_dn s) 0%N = nth e dn0 0%N;
    dn_low : forall z x, In x (nbh nodes z) -> P x -> P z }.

  Lemma cand_ext up dn up' dn' cur y : (forall e x z, In cur (nbh nodes z) -> edge nodes e z x -> nth e up' 0%N = nth e up 0%N /\ nth e dn' 0%N = nth e dn 0%N) ->
    cand_up up' dn' cur y = cand_up up dn cur y /\ cand_dn up' dn' cur y = cand_dn up dn cur y.
  Proof using HK.
    intros H. unfold cand_up, cand_dn.
    assert (G : forall z e, In (z, e) (lows nodes cur) -> tri_up up' dn' y (z, e) = tri_up up dn y (z, e) /\ tri_dn up' dn' y (z, e) = tri_dn up dn y (z, e)).
    { intros z e Hz. apply lows_In in Hz; [|apply HN]. pose proof (edge_In _ _ _ _ Hz) as Hi. unfold tri_up, tri_dn. cbn [fst snd].
      destruct (eid nodes z y) as [e2|] eqn:E; auto. apply eid_edge in E. destruct (H _ _ _ Hi Hz) as [-> ->]. destruct (H _ _ _ Hi E) as [-> ->]. auto. }
    clear H. induction (lows nodes cur) as [|[z e] l IH]; cbn; auto. destruct (G z e) as [-> ->]; [left; auto|].
    destruct IH as [-> ->]; [|auto]. intros z' e' Hz. apply G. right; auto.
  Qed.

  Lemma done_node up0 dn0 (P : nat -> Prop) s lo hi cur : done up0 dn0 P s -> cur < n -> ~ P cur -> (forall z, In cur (nbh nodes z) -> P z) ->
    in_win lo hi cur -> (forall z, In cur (nbh nodes z) -> in_win lo hi z) ->
    exists s', customize_node c lo hi s cur = Some s' /\ done up0 dn0 (fun x => P x \/ x = cur) s'.
  Proof using HK.
    intros [H1 H2 H3 H4] Hc NP Hlow W WL. destruct (customize_node_ok lo hi s cur Hc W WL H1) as (s' & E & St & G1 & G2). exists s'. split; [exact E|].
    assert (Other : forall e x y, edge nodes e x y -> x <> cur -> nth e (s_up s') 0%N = nth e (s_up s) 0%N /\ nth e (s_dn s') 0%N = nth e (s_dn s) 0%N /\
       nth e (s_upu s') no_unp = nth e (s_upu s) no_unp /\ nth e (s_dnu s') no_unp = nth e (s_dnu s) no_unp).
    { intros e x y He Ne. destruct (G2 e) as (K1 & K2 & K3 & K4). { intros x' He'. destruct (edge_unique _ _ _ _ _ _ He He'). auto. }
      repeat split; apply eq_nth; auto. }
    assert (Ce : forall x y, x = cur \/ P x -> cand_up (s_up s') (s_dn s') x y = cand_up (s_up s) (s_dn s) x y /\ cand_dn (s_up s') (s_dn s') x y = cand_dn (s_up s) (s_dn s) x y).
    { intros x y Hx. apply cand_ext. intros e v z Hz He.
      assert (z <> cur). { intros ->. destruct Hx as [->|Hx]. - apply (ch_up _ _ HC) in Hz. lia. - apply NP. eapply H4; eauto. }
      destruct (Other e z v He) as (K1 & K2 & _); auto. }
    constructor; auto.
    - intros e x y Hx He. unfold edge_eq. destruct (Ce x y) as [-> ->]; [tauto|]. destruct (Nat.eq_dec x cur) as [->|Ne].
      + destruct (G1 e y He) as (K1 & K2 & K3 & K4). rewrite (nth_of _ _ _ 0%N K1), (nth_of _ _ _ no_unp K2), (nth_of _ _ _ 0%N K3), (nth_of _ _ _ no_unp K4).
        destruct (H3 e cur y NP He) as [<- <-]. split; symmetry; apply surjective_pairing.
      + destruct (Other e x y He Ne) as (-> & -> & -> & ->). destruct Hx as [Hx|Hx]; [|contradiction]. apply H2; auto.
    - intros e x y Hx He. destruct (Other e x y He) as (-> & -> & _). { intros ->. tauto. } apply (H3 e x y); tauto.
    - intros z x Hz [Hx|Hx]. { left. eapply H4; eauto. } subst x. left. auto.
  Qed.

  Lemma done_ext up0 dn0 (P Q : nat -> Prop) s : (forall x, x < n -> (P x <-> Q x)) -> (forall z x, In x (nbh nodes z) -> Q x -> Q z) -> done up0 dn0 P s -> done up0 dn0 Q s.
  Proof using HK.
    intros H Hl [H1 H2 H3 H4]. constructor; auto.
    - intros e x y Hx He. apply H2; auto. apply H; auto. rewrite <- nodes_len. eapply edge_tail_lt; eauto.
    - intros e x y Hx He. apply (H3 e x y); auto. rewrite H; auto. rewrite <- nodes_len. eapply edge_tail_lt; eauto.
  Qed.

  (** a run of consecutive nodes *)
  Lemma done_nodes up0 dn0 lo hi u : forall k (P : nat -> Prop) s, done up0 dn0 P s -> u + k <= n -> (forall i, u <= i < u + k -> ~ P i) ->
    (forall z x, In x (nbh nodes z) -> u <= x < u + k -> P z \/ u <= z) -> (forall x, u <= x < u + k -> in_win lo hi x) ->
    (forall z x, In x (nbh nodes z) -> u <= x < u + k -> in_win lo hi z) ->
    exists s', customize_nodes c lo hi u k s = Some s' /\ done up0 dn0 (fun x => P x \/ u <= x < u + k) s'.
  Proof using HK.
    induction k as [|k IH]; intros P s HD Hk NP Hl W WL.
    - exists s. split; [reflexivity|]. eapply done_ext; [| |exact HD]. { intros x _. split; [tauto|]. intros [?|?]; auto. lia. }
      intros z x Hz [Hx|Hx]; [|lia]. left. eapply (dn_low _ _ _ _ HD); eauto.
    - destruct (IH P s HD) as (s1 & E1 & D1); try lia.
      { intros i Hi. apply NP. lia. } { intros z x Hz Hx. apply (Hl z x); auto. lia. } { intros x Hx. apply W. lia. } { intros z x Hz Hx. apply (WL z x); auto. lia. }
      destruct (done_node up0 dn0 _ s1 lo hi (u + k) D1) as (s2 & E2 & D2).
      + lia. + intros [Hx|Hx]; [|lia]. apply (NP (u + k)); [lia|auto].
      + intros z Hz. destruct (Hl z (u + k) Hz) as [?|?]; [lia|auto|]. right. apply (ch_up _ _ HC) in Hz. lia.
      + apply W. lia. + intros z Hz. apply (WL z (u + k)); auto. lia.
      + exists s2. split.
        * unfold customize_nodes in *. rewrite seq_S, foldM_app, E1. cbn [foldM bind]. rewrite E2. reflexivity.
        * eapply done_ext; [| |exact D2]. { intros x _. split; [intros [[?|?]|?]|intros [?|?]]; auto; [right; lia|right; lia|].
            destruct (Nat.eq_dec x (u + k)); [right; auto|left; right; lia]. }
          intros z x Hz [Hx|Hx]. { left. eapply (dn_low _ _ _ _ HD); eauto. } destruct (Hl z x Hz Hx); auto. right. apply (ch_up _ _ HC) in Hz. lia.
  Qed.

  (** the state before anything was done, with arbitrary workspaces *)
  Lemma done_init up0 dn0 upu dnu wo wi : small up0 -> small dn0 -> length upu = m -> length dnu = m -> length wo = n -> length wi = n ->
    done up0 dn0 (fun _ => False) (mkCst up0 dn0 upu dnu wo wi).
  Proof using. intros. constructor; cbn; auto; try tauto. repeat (split; [assumption|]). assumption. Qed.

  Definition cust_ok (up0 dn0 : list N) (s : cst) : Prop := st_ok s /\ forall e x y, edge nodes e x y -> edge_eq up0 dn0 s e x y.
  Lemma done_all up0 dn0 (P : nat -> Prop) s : done up0 dn0 P s -> (forall x, x < n -> P x) -> cust_ok up0 dn0 s.
  Proof using HK. intros [H1 H2 H3 H4] HP. split; auto. intros e x y He. apply H2; auto. apply HP. rewrite <- nodes_len. eapply edge_tail_lt; eauto. Qed.

  Lemma customize_basic_ok up0 dn0 : small up0 -> small dn0 -> exists s, customize_basic c up0 dn0 = Some s /\ cust_ok up0 dn0 s.
  Proof using HK.
    intros HU HD. unfold customize_basic.
    assert (En : cch_nodes c = n) by (unfold cch_nodes; rewrite (co_fol _ _ _ _ _ HK); fold n; lia).
    assert (Em : cch_arcs c = m) by (unfold cch_arcs; rewrite (co_head _ _ _ _ _ HK); reflexivity). rewrite En, Em.
    destruct (done_nodes up0 dn0 0 m 0 n (fun _ => False) (mkCst up0 dn0 (repeat no_unp m) (repeat no_unp m) (repeat (INF, no_unp) n) (repeat (INF, no_unp) n))) as (s & E & D).
    - apply done_init; auto; apply repeat_length.
    - lia. - auto. - intros; lia.
    - intros x Hx. split; [lia|]. unfold m. apply off_le. rewrite nodes_len. lia.
    - intros z x Hz Hx. apply (ch_up _ _ HC) in Hz. split; [lia|]. unfold m. apply off_le. rewrite nodes_len. lia.
    - exists s. split; [exact E|]. eapply done_all; eauto. intros x Hx. right. lia.
  Qed.

  (** the equations have only one solution *)
  Lemma cust_unique up0 dn0 s s' : cust_ok up0 dn0 s -> cust_ok up0 dn0 s' -> s_up s' = s_up s /\ s_dn s' = s_dn s /\ s_upu s' = s_upu s /\ s_dnu s' = s_dnu s.
  Proof using HK.
    intros [((L1 & _) & (L2 & _) & L3 & L4 & _) H] [((L1' & _) & (L2' & _) & L3' & L4' & _) H'].
    assert (G : forall k x, x < k -> forall e y, edge nodes e x y -> nth e (s_up s') 0%N = nth e (s_up s) 0%N /\ nth e (s_dn s') 0%N = nth e (s_dn s) 0%N /\
       nth e (s_upu s') no_unp = nth e (s_upu s) no_unp /\ nth e (s_dnu s') no_unp = nth e (s_dnu s) no_unp).
    { induction k as [|k IH]; intros x Hx e y He; [lia|]. destruct (H _ _ _ He) as [A1 A2]. destruct (H' _ _ _ He) as [B1 B2].
      destruct (cand_ext (s_up s) (s_dn s) (s_up s') (s_dn s') x y) as [C1 C2].
      { intros e' x' z Hz He'. destruct (IH z) with (e := e') (y := x') as (K1 & K2 & _); auto. apply (ch_up _ _ HC) in Hz. lia. }
      rewrite C1 in B1. rewrite C2 in B2. rewrite <- A1 in B1. rewrite <- A2 in B2. injection B1 as -> ->. injection B2 as -> ->. auto. }
    assert (Ex : forall e, e < m -> exists x y, edge nodes e x y) by (apply edge_ex).
    repeat split; [apply (list_ext_nth _ _ 0%N)|apply (list_ext_nth _ _ 0%N)|apply (list_ext_nth _ _ no_unp)|apply (list_ext_nth _ _ no_unp)]; try congruence;
      intros e He; (destruct (Ex e) as (x & y & Hxy); [lia|]); destruct (G (S x) x ltac:(lia) e y Hxy) as (K1 & K2 & K3 & K4); auto.
  Qed.

  (** ** The customized weights as a relation: arcs up and down between ranks *)
  Section Result.
    Variables up0 dn0 : list N.
    Variable s : cst.
    Hypothesis HS : cust_ok up0 dn0 s.

    Definition carc (x y : nat) (w : N) : Prop :=
      (x < y /\ exists e, edge nodes e x y /\ w = nth e (s_up s) 0%N) \/ (y < x /\ exists e, edge nodes e y x /\ w = nth e (s_dn s) 0%N).

    Lemma cand_up_In x y v i : In (v, i) (cand_up (s_up s) (s_dn s) x y) <->
      exists z e1 e2, edge nodes e1 z x /\ edge nodes e2 z y /\ v = (nth e2 (s_up s) 0 + nth e1 (s_dn s) 0)%N /\ i = (Some e1, Some e2).
    Proof using HK.
      unfold cand_up. rewrite in_flat_map. split.
      - intros ([z e1] & Hz & H). apply lows_In in Hz; [|apply HN]. unfold tri_up in H. cbn [fst snd] in H. destruct (eid nodes z y) as [e2|] eqn:E; [|destruct H].
        apply eid_edge in E. destruct H as [[= <- <-]|[]]. exists z, e1, e2. auto.
      - intros (z & e1 & e2 & H1 & H2 & -> & ->). exists (z, e1). split. { apply lows_In; [apply HN|auto]. } unfold tri_up. cbn [fst snd].
        rewrite (edge_eid _ _ _ e2 (HN z) H2). left; auto.
    Qed.
    Lemma cand_dn_In x y v i : In (v, i) (cand_dn (s_up s) (s_dn s) x y) <->
      exists z e1 e2, edge nodes e1 z x /\ edge nodes e2 z y /\ v = (nth e2 (s_dn s) 0 + nth e1 (s_up s) 0)%N /\ i = (Some e2, Some e1).
    Proof using HK.
      unfold cand_dn. rewrite in_flat_map. split.
      - intros ([z e1] & Hz & H). apply lows_In in Hz; [|apply HN]. unfold tri_dn in H. cbn [fst snd] in H. destruct (eid nodes z y) as [e2|] eqn:E; [|destruct H].
        apply eid_edge in E. destruct H as [[= <- <-]|[]]. exists z, e1, e2. auto.
      - intros (z & e1 & e2 & H1 & H2 & -> & ->). exists (z, e1). split. { apply lows_In; [apply HN|auto]. } unfold tri_dn. cbn [fst snd].
        rewrite (edge_eid _ _ _ e2 (HN z) H2). left; auto.
    Qed.

    Lemma carc_fun x y w w' : carc x y w -> carc x y w' -> w = w'.
    Proof using HK.
      intros [(L & e & He & ->)|(L & e & He & ->)] [(L' & e' & He' & ->)|(L' & e' & He' & ->)]; try lia; rewrite (edge_inj _ _ _ _ _ (HN _) He He'); auto.
    Qed.
    Lemma carc_cadj x y : (exists w, carc x y w) <-> cadj nodes x y.
    Proof using HK.
      split.
      - intros (w & [(L & e & He & _)|(L & e & He & _)]); apply edge_In in He; [left|right]; auto.
      - intros [H|H]; pose proof (proj1 (ch_up _ _ HC _ _ H)); destruct (In_edge _ _ _ H) as (e & He); eexists; [left|right]; split; eauto.
    Qed.
    Lemma carc_small x y w : carc x y w -> (w <= INF)%N.
    Proof using HS. destruct HS as [((_ & U) & (_ & D) & _) _]. intros [(_ & e & _ & ->)|(_ & e & _ & ->)]; auto. Qed.
    Lemma carc_lt x y w : carc x y w -> x < n /\ y < n /\ x <> y.
    Proof using HK. intros [(L & e & He & _)|(L & e & He & _)]; apply edge_In, (ch_up _ _ HC) in He; fold n in He; lia. Qed.

    (** lower triangle inequality *)
    Lemma carc_tri : tri_closed carc.
    Proof using HK HS.
      destruct HS as [_ H]. split. { intros x w [(L & _)|(L & _)]; lia. }
      intros x z y w1 w2 Lx Ly Ne [(L & _)|(_ & e1 & He1 & ->)] [(_ & e2 & He2 & ->)|(L' & _)]; try lia.
      pose proof (edge_In _ _ _ _ He1) as I1. pose proof (edge_In _ _ _ _ He2) as I2.
      destruct (Nat.lt_ge_cases x y) as [L|L].
      - destruct (In_edge _ _ _ (ch_tri _ _ HC z x y I1 I2 L)) as (e & He). exists (nth e (s_up s) 0%N). split; [left; split; [auto|eauto]|].
        destruct (H _ _ _ He) as [A _].
        pose proof (proj2 (relax_fold_le (cand_up (s_up s) (s_dn s) x y) (nth e up0 0%N, no_unp)) (_, _) (proj2 (cand_up_In x y _ _) (ex_intro _ z (ex_intro _ e1 (ex_intro _ e2 (conj He1 (conj He2 (conj eq_refl eq_refl)))))))) as K.
        rewrite <- A in K. cbn [fst] in K. lia.
      - destruct (In_edge _ _ _ (ch_tri _ _ HC z y x I2 I1 ltac:(lia))) as (e & He). exists (nth e (s_dn s) 0%N). split; [right; split; [lia|eauto]|].
        destruct (H _ _ _ He) as [_ A].
        pose proof (proj2 (relax_fold_le (cand_dn (s_up s) (s_dn s) y x) (nth e dn0 0%N, no_unp)) (_, _) (proj2 (cand_dn_In y x _ _) (ex_intro _ z (ex_intro _ e2 (ex_intro _ e1 (conj He2 (conj He1 (conj eq_refl eq_refl)))))))) as K.
        rewrite <- A in K. cbn [fst] in K. lia.
    Qed.

    (** Where the weight of an arc comes from, including the unpacking information: the initial weight, or the lower
        triangle with the lowest middle node among the best ones. *)
    Definition unp_of (x y : nat) (i : unp) : Prop :=
      (x < y /\ exists e, edge nodes e x y /\ i = nth e (s_upu s) no_unp) \/ (y < x /\ exists e, edge nodes e y x /\ i = nth e (s_dnu s) no_unp).
    Definition init_of (x y : nat) (w : N) : Prop :=
      (x < y /\ exists e, edge nodes e x y /\ w = nth e up0 0%N) \/ (y < x /\ exists e, edge nodes e y x /\ w = nth e dn0 0%N).

    Lemma lows_split cur (l1 : list (nat * nat)) z e l2 : lows nodes cur = l1 ++ (z, e) :: l2 -> forall z' e', z' < z -> edge nodes e' z' cur -> In (z', e') l1.
    Proof using HK.
      intros E z' e' L He'. assert (SS : StronglySorted (fun a b => fst a < fst b) (lows nodes cur)).
      { unfold lows. assert (G : forall k s0, StronglySorted (fun a b => fst a < fst b) (flat_map (fun z => match eid nodes z cur with Some e => [(z, e)] | None => [] end) (seq s0 k)) ).
        { induction k as [|k IH]; intros s0; cbn; [constructor|]. destruct (eid nodes s0 cur); cbn; auto. constructor; auto. apply Forall_forall. intros [a b] Hab.
          apply in_flat_map in Hab. destruct Hab as (a' & Ha & Hb). apply in_seq in Ha. destruct (eid nodes a' cur); [|destruct Hb]. destruct Hb as [[= -> ->]|[]]. cbn. lia. }
        apply G. }
      assert (Hin : In (z', e') (lows nodes cur)) by (apply lows_In; [apply HN|auto]). rewrite E in SS, Hin. apply in_app_or in Hin. destruct Hin as [Hin|[[= -> ->]|Hin]]; auto; [lia|].
      exfalso. clear E. induction l1 as [|a l1 IH]; cbn in SS; inversion SS; subst; auto. rewrite Forall_forall in H2. apply H2 in Hin. cbn in Hin. lia.
    Qed.

    (** the first candidate of a given flat_map position *)
    Lemma flat_split (f : nat * nat -> list (N * unp)) l a v b : (forall p, length (f p) <= 1) -> flat_map f l = a ++ v :: b ->
      exists l1 p l2, l = l1 ++ p :: l2 /\ f p = [v] /\ flat_map f l1 = a.
    Proof using.
      clear. intros H1. revert a. induction l as [|p l IH]; cbn [flat_map]; intros a E. { destruct a; discriminate. }
      specialize (H1 p) as Hp. destruct (f p) as [|x [|y r]] eqn:Ef; cbn in Hp; [| |lia].
      - cbn in E. destruct (IH a E) as (l1 & q & l2 & -> & F & G). exists (p :: l1), q, l2. cbn. rewrite Ef. auto.
      - cbn in E. destruct a as [|x' a]; cbn in E; injection E as -> E.
        + exists [], p, l. auto.
        + destruct (IH a E) as (l1 & q & l2 & -> & F & G). exists (p :: l1), q, l2. cbn. rewrite Ef, F, G. auto.
    Qed.

    (** [mid x y z e1 e2]: the lower triangle x - z - y; e1 is walked down from x to z, e2 up from z to y *)
    Lemma carc_case x y w i : carc x y w -> unp_of x y i ->
      (i = no_unp /\ init_of x y w) \/
      exists z e1 e2, i = (Some e1, Some e2) /\ edge nodes e1 z x /\ edge nodes e2 z y /\ w = (nth e1 (s_dn s) 0 + nth e2 (s_up s) 0)%N /\
        (forall w0, init_of x y w0 -> (w < w0)%N) /\
        (forall z' w1 w2, z' < z -> carc x z' w1 -> carc z' y w2 -> (w < w1 + w2)%N).
    Proof using HK HS.
      destruct HS as [_ H]. intros [(L & e & He & ->)|(L & e & He & ->)] [(L' & e' & He' & ->)|(L' & e' & He' & ->)]; try lia;
        rewrite <- (edge_inj _ _ _ _ _ (HN _) He He'); clear e' He' L'.
      - destruct (H _ _ _ He) as [A _]. destruct (relax_fold_case (cand_up (s_up s) (s_dn s) x y) (nth e up0 0%N, no_unp)) as [[B _]|(l1 & [v i] & l2 & E & B & B1 & B2 & B3)].
        + rewrite B in A. injection A as A1 A2. left. split; auto. left. split; auto. exists e. auto.
        + right. rewrite B in A. injection A as A1 A2. unfold cand_up in E. assert (T1 : forall p, length (tri_up (s_up s) (s_dn s) y p) <= 1).
          { intros p. unfold tri_up. destruct (eid nodes (fst p) y); cbn; lia. }
          destruct (flat_split _ _ _ _ _ T1 E) as (q1 & [z e1] & q2 & Eq & F & G).
          unfold tri_up in F. cbn [fst snd] in F. destruct (eid nodes z y) as [e2|] eqn:Ee; [|discriminate]. apply eid_edge in Ee. injection F as F1 F2.
          assert (Hz : edge nodes e1 z x). { apply lows_In; [apply HN|]. rewrite Eq. apply in_elt. }
          exists z, e1, e2. split; [congruence|]. split; [auto|]. split; [auto|]. split; [lia|]. split.
          * intros w0 [(_ & e0 & He0 & ->)|(L0 & _)]; [|lia]. rewrite <- (edge_inj _ _ _ _ _ (HN _) He He0). cbn [fst] in B1. lia.
          * intros z' w1 w2 Lz Hc1 Hc2. destruct (carc_lt _ _ _ Hc1) as (_ & _ & N1). pose proof (ch_up _ _ HC _ _ (edge_In _ _ _ _ Hz)) as Lzx.
            destruct Hc1 as [(K & _)|(_ & d1 & Hd1 & ->)]; [lia|]. destruct Hc2 as [(_ & d2 & Hd2 & ->)|(K & _)]; [|lia].
            pose proof (lows_split _ _ _ _ _ Eq z' d1 Lz Hd1) as Hin.
            assert (Hc' : In ((nth d2 (s_up s) 0 + nth d1 (s_dn s) 0)%N, (Some d1, Some d2)) l1).
            { rewrite <- G. apply in_flat_map. exists (z', d1). split; auto. unfold tri_up. cbn [fst snd]. rewrite (edge_eid _ _ _ d2 (HN z') Hd2). left; auto. }
            apply B2 in Hc'. cbn [fst] in Hc'. lia.
      - destruct (H _ _ _ He) as [_ A]. destruct (relax_fold_case (cand_dn (s_up s) (s_dn s) y x) (nth e dn0 0%N, no_unp)) as [[B _]|(l1 & [v i] & l2 & E & B & B1 & B2 & B3)].
        + rewrite B in A. injection A as A1 A2. left. split; auto. right. split; auto. exists e. auto.
        + right. rewrite B in A. injection A as A1 A2. unfold cand_dn in E. assert (T1 : forall p, length (tri_dn (s_up s) (s_dn s) x p) <= 1).
          { intros p. unfold tri_dn. destruct (eid nodes (fst p) x); cbn; lia. }
          destruct (flat_split _ _ _ _ _ T1 E) as (q1 & [z e2] & q2 & Eq & F & G).
          unfold tri_dn in F. cbn [fst snd] in F. destruct (eid nodes z x) as [e1|] eqn:Ee; [|discriminate]. apply eid_edge in Ee. injection F as F1 F2.
          assert (Hz : edge nodes e2 z y). { apply lows_In; [apply HN|]. rewrite Eq. apply in_elt. }
          exists z, e1, e2. split; [congruence|]. split; [auto|]. split; [auto|]. split; [lia|]. split.
          * intros w0 [(L0 & _)|(_ & e0 & He0 & ->)]; [lia|]. rewrite <- (edge_inj _ _ _ _ _ (HN _) He He0). cbn [fst] in B1. lia.
          * intros z' w1 w2 Lz Hc1 Hc2. destruct (carc_lt _ _ _ Hc1) as (_ & _ & N1). pose proof (ch_up _ _ HC _ _ (edge_In _ _ _ _ Hz)) as Lzx.
            destruct Hc1 as [(K & _)|(_ & d1 & Hd1 & ->)]; [lia|]. destruct Hc2 as [(_ & d2 & Hd2 & ->)|(K & _)]; [|lia].
            pose proof (lows_split _ _ _ _ _ Eq z' d2 Lz Hd2) as Hin.
            assert (Hc' : In ((nth d1 (s_dn s) 0 + nth d2 (s_up s) 0)%N, (Some d1, Some d2)) l1).
            { rewrite <- G. apply in_flat_map. exists (z', d2). split; auto. unfold tri_dn. cbn [fst snd]. rewrite (edge_eid _ _ _ d1 (HN z') Hd1). left; auto. }
            apply B2 in Hc'. cbn [fst] in Hc'. lia.
    Qed.
    Lemma carc_init x y w w0 : carc x y w -> init_of x y w0 -> (w <= w0)%N.
    Proof using HK HS.
      destruct HS as [_ H]. intros [(L & e & He & ->)|(L & e & He & ->)] [(L' & e' & He' & ->)|(L' & e' & He' & ->)]; try lia;
        rewrite <- (edge_inj _ _ _ _ _ (HN _) He He'); destruct (H _ _ _ He) as [A B].
      - pose proof (proj1 (relax_fold_le (cand_up (s_up s) (s_dn s) x y) (nth e up0 0%N, no_unp))) as K. rewrite <- A in K. auto.
      - pose proof (proj1 (relax_fold_le (cand_dn (s_up s) (s_dn s) y x) (nth e dn0 0%N, no_unp))) as K. rewrite <- B in K. auto.
    Qed.
    Lemma carc_unp x y : (exists w, carc x y w) -> exists i, unp_of x y i.
    Proof using. intros (w & [(L & e & He & _)|(L & e & He & _)]); eexists; [left|right]; split; eauto. Qed.
  End Result.
End Cust.
