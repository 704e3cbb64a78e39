(** Nearest neighbour queries, see NN. *)
From Coq Require Import Sorting.Sorted.
From Verif Require Import Base BitVec SpecGraph SpecCCH SpecNN Graph GraphIdProof Dijkstra CCH CCHTheory CCHContractProof CCHBuildProof CCHCustProof CCHMetricProof CCHPathTheory CCHQuery CCHQueryProof CCHPathProof CCHViewProof CCHServerProof CCHPot CCHPotProof SepTree SepTreeProof LoopProof CHPrepProof NN.

(** ** The heap of the best targets *)
Lemma nn_push_perm x h : Permutation (nn_push x h) (x :: h).
Proof.
  induction h as [|y h IH]; cbn [nn_push]; auto. destruct (nge x y); auto. rewrite IH. apply perm_swap.
Qed.
Definition desc (h : list (N * nat)) : Prop := StronglySorted (fun x y => (fst y <= fst x)%N) h.
Lemma nn_push_desc x h : desc h -> desc (nn_push x h).
Proof.
  unfold desc. induction 1 as [|y h HS IH HF]; cbn [nn_push]. { constructor; constructor. }
  destruct (nge x y) eqn:E; unfold nge in E.
  - constructor; [constructor; auto|]. constructor; [lia|]. rewrite Forall_forall in *. intros z Hz. specialize (HF z Hz). lia.
  - constructor; auto. rewrite Forall_forall in *. intros z Hz. apply (Permutation_in _ (nn_push_perm x h)) in Hz. destruct Hz as [<-|Hz]; auto. lia.
Qed.
(** [h] holds [k] best of [all], the others are [rest] *)
Definition best (k : nat) (all h rest : list (N * nat)) : Prop :=
  Permutation all (h ++ rest) /\ length h = Nat.min k (length all) /\ desc h /\ forall x y, In x h -> In y rest -> (fst x <= fst y)%N.
Lemma best_nil k : best k [] [] [].
Proof. split; [auto|]. split; [cbn; lia|]. split; [constructor|]. intros x y []. Qed.
Lemma offer_ok k all h rest d t : 1 <= k -> best k all h rest -> exists h' rest', offer k h d t = Some h' /\ best k (all ++ [(d, t)]) h' rest'.
Proof.
  intros Hk (HP & HL & HS & HB). unfold offer. pose proof (Permutation_length HP) as PL. rewrite app_length in PL. destruct (Nat.ltb_spec (length h) k) as [Hlt|Hge].
  - assert (rest = []) by (destruct rest; auto; cbn in PL; lia). subst rest. exists (nn_push (d, t) h), []. split; [auto|]. split; [|split; [|split]].
    + rewrite nn_push_perm. rewrite HP, !app_nil_r. rewrite <- Permutation_cons_append. auto.
    + rewrite (Permutation_length (nn_push_perm _ _)). cbn [length]. rewrite app_length. cbn [length] in *. lia.
    + apply nn_push_desc; auto.
    + intros x y _ [].
  - destruct h as [|[d0 t0] r]; [cbn in Hge; lia|]. inversion HS as [|? ? HS' HF]; subst. rewrite Forall_forall in HF. cbn [fst] in HF. destruct (N.ltb_spec d d0) as [Hd|Hd].
    + exists (nn_push (d, t) r), ((d0, t0) :: rest). split; [auto|]. split; [|split; [|split]].
      * rewrite nn_push_perm. rewrite <- Permutation_cons_append. cbn [app]. apply perm_skip. rewrite HP. apply Permutation_middle.
      * rewrite (Permutation_length (nn_push_perm _ _)). rewrite app_length. cbn [length] in *. lia.
      * apply nn_push_desc; auto.
      * intros x y Hx Hy. apply (Permutation_in _ (nn_push_perm _ _)) in Hx.
        assert (HX : (fst x <= d0)%N). { destruct Hx as [<-|Hx]; [cbn; lia|]. apply (HF x Hx). }
        destruct Hy as [<-|Hy]; [exact HX|]. assert ((d0 <= fst y)%N); [|lia]. apply (HB (d0, t0) y); [left|]; auto.
    + exists ((d0, t0) :: r), ((d, t) :: rest). split; [auto|]. split; [|split; [|split]].
      * rewrite <- Permutation_cons_append. rewrite HP. apply Permutation_middle.
      * rewrite app_length. cbn [length] in *. lia.
      * auto.
      * intros x y Hx [<-|Hy]; [|apply HB; auto]. cbn [fst]. destruct Hx as [<-|Hx]; [auto|]. specialize (HF x Hx). lia.
Qed.

(** ** Distances from a source *)
Record otm (n : nat) (arc : nat -> nat -> N -> Prop) (order ranks : list nat) (OK : cpot -> option nat -> Prop) : Prop := mkOtm {
  o_ranks : forall p t, OK p t -> p_ranks p = ranks;
  o_rk : forall u, u < n -> exists x, nth_error ranks u = Some x /\ x < n /\ nth_error order x = Some u;
  o_init : forall p t s, OK p t -> s < n -> exists p', pot_init p s = Some p' /\ OK p' (Some s);
  o_value : forall p s u, OK p (Some s) -> s < n -> u < n -> exists p' r, pot_value p u = Some (p', r) /\ OK p' (Some s) /\ exact_answer arc s u r }.

Lemma exact_flip arc u v r : exact_answer (flip_arc arc) u v r <-> exact_answer arc v u r.
Proof.
  unfold exact_answer, is_dist. destruct r as [d|].
  - rewrite walk_flip_iff. split; intros (A & B & C); (split; [auto|]; split; [auto|]); intros l Hl; apply C; apply walk_flip_iff; auto.
  - split; intros H l Hl; apply H; apply walk_flip_iff; auto.
Qed.
Lemma flip_flip_walk (arc : nat -> nat -> N -> Prop) : forall u v r, exact_answer (flip_arc (flip_arc arc)) u v r <-> exact_answer arc u v r.
Proof. intros. rewrite !exact_flip. tauto. Qed.

Lemma served_otm_bw adj order ranks madj k : served adj order ranks madj k ->
  exists OK, otm (length adj) (adj_arc madj) order ranks OK /\ OK (pot_backward k) None.
Proof.
  intros (A & un & hop & HW). pose proof (v_fw _ _ _ _ _ _ _ _ HW) as UF. pose proof (v_bw _ _ _ _ _ _ _ _ HW) as UB.
  assert (B1 : forall x y w, uarc (k_links (k_fw k)) x y w -> flip_arc (flip_arc A) x y w). { intros a b w (e & He). apply (v_fl _ _ _ _ _ _ _ _ HW) in He. apply He. }
  assert (B3 : forall x y w, uarc (k_links (k_bw k)) x y w -> flip_arc A x y w). { intros a b w (e & He). apply (v_bl _ _ _ _ _ _ _ _ HW) in He. apply He. }
  assert (W1 : forall u v l x y, walk (flip_arc (adj_arc madj)) u v l -> nth_error order x = Some u -> nth_error order y = Some v -> exists l', walk (flip_arc A) x y l' /\ (l' <= l)%N).
  { intros u v l a b Hw Ea Eb. apply walk_flip_iff in Hw. destruct (v_walk _ _ _ _ _ _ _ _ HW _ _ _ _ _ Hw Eb Ea) as (l' & H' & L). exists l'. split; [|auto]. apply walk_flip_iff. exact H'. }
  assert (W2 : forall x y l, walk (flip_arc A) x y l -> (l < INF)%N -> forall u v, nth_error order x = Some u -> nth_error order y = Some v -> walk (flip_arc (adj_arc madj)) u v l).
  { intros a b l Hw Hl u v Eu Ev. apply walk_flip_iff in Hw. apply walk_flip_iff. eapply view_walk; eauto. }
  assert (HT : tri_closed (flip_arc A)) by (apply flip_closed, (un_tri (v_unp _ _ _ _ _ _ _ _ HW))).
  exists (pst_ok adj ranks k (k_bw k) (k_fw k)). split; [|eapply backward_new; eauto]. constructor.
  - intros p t HP. apply HP.
  - intros u Hu. apply (vrank_of _ _ _ _ _ _ _ _ HW u Hu).
  - intros p t s HP Hs. eapply pst_init; eauto.
  - intros p s u HP Hs Hu. destruct (pst_value _ _ _ _ _ _ _ _ HW (k_bw k) (k_fw k) UB (flip_arc A) HT B3 (v_bu _ _ _ _ _ _ _ _ HW) B1 (v_fu _ _ _ _ _ _ _ _ HW) _ W1 W2 p s u HP Hs Hu) as (p' & r & E & HP' & X).
    exists p', r. split; auto. split; auto. apply exact_flip in X. exact X.
Qed.
Lemma served_otm_fw adj order ranks madj k : served adj order ranks madj k ->
  exists OK, otm (length adj) (flip_arc (adj_arc madj)) order ranks OK /\ OK (pot_forward k) None.
Proof.
  intros (A & un & hop & HW). pose proof (v_fw _ _ _ _ _ _ _ _ HW) as UF. pose proof (v_bw _ _ _ _ _ _ _ _ HW) as UB.
  assert (B1 : forall x y w, uarc (k_links (k_fw k)) x y w -> A x y w). { intros a b w (e & He). apply (v_fl _ _ _ _ _ _ _ _ HW) in He. apply He. }
  assert (B3 : forall x y w, uarc (k_links (k_bw k)) x y w -> flip_arc A x y w). { intros a b w (e & He). apply (v_bl _ _ _ _ _ _ _ _ HW) in He. apply He. }
  exists (pst_ok adj ranks k (k_fw k) (k_bw k)). split; [|eapply forward_new; eauto]. constructor.
  - intros p t HP. apply HP.
  - intros u Hu. apply (vrank_of _ _ _ _ _ _ _ _ HW u Hu).
  - intros p t s HP Hs. eapply pst_init; eauto.
  - intros p s u HP Hs Hu. destruct (pst_value _ _ _ _ _ _ _ _ HW (k_fw k) (k_bw k) UF A (un_tri (v_unp _ _ _ _ _ _ _ _ HW)) B1 (v_fu _ _ _ _ _ _ _ _ HW) B3 (v_bu _ _ _ _ _ _ _ _ HW) (adj_arc madj) (v_walk _ _ _ _ _ _ _ _ HW) (view_walk _ _ _ _ _ _ _ _ HW) p s u HP Hs Hu) as (p' & r & E & HP' & X).
    exists p', r. split; auto. split; auto. apply exact_flip. exact X.
Qed.

Lemma F2_length {X Y} (R : X -> Y -> Prop) l1 l2 : Forall2 R l1 l2 -> length l1 = length l2.
Proof. induction 1; cbn; auto. Qed.

Section NN.
Context (n : nat) (arc : nat -> nat -> N -> Prop) (order ranks : list nat) (OK : cpot -> option nat -> Prop).
Hypothesis HO : otm n arc order ranks OK.

Lemma reached_app ts1 a1 ts2 a2 : length ts1 = length a1 -> reached (ts1 ++ ts2) (a1 ++ a2) = reached ts1 a1 ++ reached ts2 a2.
Proof.
  revert a1. induction ts1 as [|t ts1 IH]; intros [|a a1] H; cbn in H; try lia; auto. unfold reached. cbn [app combine flat_map].
  fold (reached (ts1 ++ ts2) (a1 ++ a2)). fold (reached ts1 a1). rewrite IH by lia. rewrite app_assoc. auto.
Qed.
Lemma lr_fold k s : 1 <= k -> s < n -> forall ts, (forall t, In t ts -> t < n) -> forall p done ans h rest,
  OK p (Some s) -> Forall2 (fun t r => exact_answer arc s t r) done ans -> best k (reached done ans) h rest ->
  exists p' h' ans' rest', foldM (lr_step k) ts (p, h) = Some (p', h') /\ OK p' (Some s) /\
    Forall2 (fun t r => exact_answer arc s t r) (done ++ ts) ans' /\ best k (reached (done ++ ts) ans') h' rest'.
Proof.
  intros Hk Hs. induction ts as [|t ts IH]; intros Hts p done ans h rest HP HF HB; cbn [foldM].
  { exists p, h, ans, rest. rewrite app_nil_r. auto. }
  unfold lr_step at 1. cbn [fst snd]. destruct (o_value _ _ _ _ _ HO p s t HP Hs (Hts t ltac:(left; auto))) as (p1 & r & E & HP1 & X). rewrite E. cbn [bind].
  assert (HF' : Forall2 (fun t r => exact_answer arc s t r) (done ++ [t]) (ans ++ [r])) by (apply Forall2_app; auto).
  pose proof (reached_app done ans [t] [r] (F2_length _ _ _ HF)) as ER.
  replace (done ++ t :: ts) with ((done ++ [t]) ++ ts) by (rewrite <- app_assoc; auto).
  destruct r as [d|]; cbn [reached combine flat_map snd fst app] in ER.
  - destruct (offer_ok k (reached done ans) h rest d t Hk HB) as (h' & rest' & E' & HB'). rewrite E'. cbn [bind].
    eapply IH; [|eauto|eauto|rewrite ER; exact HB']. intros x Hx; apply Hts; right; auto.
  - cbn [bind]. eapply IH; [|eauto|eauto|rewrite ER, app_nil_r; exact HB]. intros x Hx; apply Hts; right; auto.
Qed.
Lemma lr_query_ok p t0 s ts k : OK p t0 -> s < n -> (forall t, In t ts -> t < n) -> 1 <= k ->
  exists p' res, lr_query p s ts k = Some (p', res) /\ OK p' (Some s) /\ nearest arc s ts k res.
Proof.
  intros HP Hs Hts Hk. unfold lr_query. destruct (o_init _ _ _ _ _ HO p t0 s HP Hs) as (p1 & E & HP1). rewrite E. cbn [bind].
  destruct (lr_fold k s Hk Hs ts Hts p1 [] [] [] [] HP1 (Forall2_nil _) (best_nil k)) as (p' & h & ans & rest & E' & HP' & HF & HB). cbn [app] in *.
  exists p', h. split; auto. split; auto. exists ans, rest. destruct HB as (B1 & B2 & _ & B3). auto.
Qed.

(** ** Separator based queries *)
(** ranks as targets *)
Lemma o_rank p s x u : OK p (Some s) -> s < n -> x < n -> nth_error order x = Some u -> nth_error ranks u = Some x -> u < n ->
  exists p' r, pot_rank p x = Some (p', r) /\ OK p' (Some s) /\ exact_answer arc s u r.
Proof.
  intros HP Hs Hx Eo Er Hu. destruct (o_value _ _ _ _ _ HO p s u HP Hs Hu) as (p' & r & E & HP' & X). exists p', r. split; auto.
  unfold pot_value in E. rewrite (o_ranks _ _ _ _ _ HO p _ HP), Er in E. exact E.
Qed.
Hypothesis HOrd : node_order n order ranks.
Lemma ord_of x : x < n -> exists u, nth_error order x = Some u /\ nth_error ranks u = Some x /\ u < n.
Proof.
  intros Hx. destruct HOrd as (L1 & L2 & H1 & H2). destruct (nth_error order x) as [u|] eqn:E. 2: { apply nth_error_None in E. lia. }
  exists u. split; auto. pose proof (H1 x u E) as Er. split; auto. apply nth_error_Some_lt in Er. lia.
Qed.
(** the node of rank [x] *)
Definition nd (x : nat) : nat := nth x order 0.
Lemma nd_some x u : nth_error order x = Some u -> nd x = u.
Proof. intros E. unfold nd. apply nth_error_nth with (d := 0) in E. auto. Qed.
Lemma o_rank' p s x : OK p (Some s) -> s < n -> x < n -> exists p' r, pot_rank p x = Some (p', r) /\ OK p' (Some s) /\ exact_answer arc s (nd x) r.
Proof.
  intros HP Hs Hx. destruct (ord_of x Hx) as (u & E1 & E2 & E3). rewrite (nd_some x u E1). eapply o_rank; eauto.
Qed.
Lemma sep_fold k s : 1 <= k -> s < n -> forall ts, (forall t, In t ts -> t < n) -> forall p done ans h rest,
  OK p (Some s) -> Forall2 (fun t r => exact_answer arc s (nd t) r) done ans -> best k (reached done ans) h rest ->
  exists p' h' ans' rest', foldM (sep_offer k) ts (p, h) = Some (p', h') /\ OK p' (Some s) /\
    Forall2 (fun t r => exact_answer arc s (nd t) r) (done ++ ts) ans' /\ best k (reached (done ++ ts) ans') h' rest'.
Proof.
  intros Hk Hs. induction ts as [|t ts IH]; intros Hts p done ans h rest HP HF HB; cbn [foldM].
  { exists p, h, ans, rest. rewrite app_nil_r. auto. }
  unfold sep_offer at 1. cbn [fst snd]. destruct (o_rank' p s t HP Hs (Hts t ltac:(left; auto))) as (p1 & r & E & HP1 & X). rewrite E. cbn [bind].
  assert (HF' : Forall2 (fun t r => exact_answer arc s (nd t) r) (done ++ [t]) (ans ++ [r])) by (apply Forall2_app; auto).
  pose proof (reached_app done ans [t] [r] (F2_length _ _ _ HF)) as ER.
  replace (done ++ t :: ts) with ((done ++ [t]) ++ ts) by (rewrite <- app_assoc; auto).
  destruct r as [d|]; cbn [reached combine flat_map snd fst app] in ER.
  - destruct (offer_ok k (reached done ans) h rest d t Hk HB) as (h' & rest' & E' & HB'). rewrite E'. cbn [bind].
    eapply IH; [|eauto|eauto|rewrite ER; exact HB']. intros x Hx; apply Hts; right; auto.
  - cbn [bind]. eapply IH; [|eauto|eauto|rewrite ER, app_nil_r; exact HB]. intros x Hx; apply Hts; right; auto.
Qed.
(** when there are at most [k] targets all are taken *)
Lemma all_fold s : s < n -> forall ts, (forall t, In t ts -> t < n) -> forall p done ans h,
  OK p (Some s) -> Forall2 (fun t r => exact_answer arc s (nd t) r) done ans -> Permutation (reached done ans) h ->
  exists p' h' ans', foldM (fun s t => '(p, r) <- pot_rank (fst s) t ;; Some (p, match r with Some d => nn_push (d, t) (snd s) | None => snd s end)) ts (p, h) = Some (p', h') /\
    OK p' (Some s) /\ Forall2 (fun t r => exact_answer arc s (nd t) r) (done ++ ts) ans' /\ Permutation (reached (done ++ ts) ans') h'.
Proof.
  intros Hs. induction ts as [|t ts IH]; intros Hts p done ans h HP HF HB; cbn [foldM].
  { exists p, h, ans. rewrite app_nil_r. auto. }
  cbn [fst snd]. destruct (o_rank' p s t HP Hs (Hts t ltac:(left; auto))) as (p1 & r & E & HP1 & X). rewrite E. cbn [bind].
  assert (HF' : Forall2 (fun t r => exact_answer arc s (nd t) r) (done ++ [t]) (ans ++ [r])) by (apply Forall2_app; auto).
  pose proof (reached_app done ans [t] [r] (F2_length _ _ _ HF)) as ER.
  replace (done ++ t :: ts) with ((done ++ [t]) ++ ts) by (rewrite <- app_assoc; auto).
  eapply IH; eauto. { intros x Hx; apply Hts; right; auto. } rewrite ER.
  destruct r as [d|]; cbn [reached combine flat_map snd fst app]; [|rewrite app_nil_r; auto]. rewrite nn_push_perm, HB. symmetry. apply Permutation_cons_append.
Qed.

(** translation to nodes *)
Lemma reached_map ts ans : length ts = length ans -> reached (map nd ts) ans = map (fun '(d, t) => (d, nd t)) (reached ts ans).
Proof.
  revert ans. induction ts as [|t ts IH]; intros [|a ans] H; cbn in H; try lia; auto. unfold reached in *. cbn [map combine flat_map fst snd].
  rewrite IH by lia. destruct a; cbn; auto.
Qed.
Lemma reached_In ts ans d t : In (d, t) (reached ts ans) -> In (t, Some d) (combine ts ans).
Proof.
  unfold reached. intros H. apply in_flat_map in H. destruct H as ((t' & r) & H1 & H2). cbn [fst snd] in H2. destruct r as [d'|]; [|destruct H2].
  destruct H2 as [H2|[]]. injection H2 as -> ->. auto.
Qed.
Lemma reached_perm (ts ts' : list nat) (ans : list (option N)) : length ts = length ans -> Permutation ts ts' -> exists ans', length ts' = length ans' /\ Permutation (combine ts ans) (combine ts' ans').
Proof.
  intros HL HP. revert ans HL. induction HP; intros ans HL.
  - exists ans. auto.
  - destruct ans as [|a ans]; cbn in HL; [lia|]. destruct (IHHP ans ltac:(lia)) as (ans' & L' & P'). exists (a :: ans'). cbn. split; [lia|]. auto.
  - destruct ans as [|a [|b ans]]; cbn in HL; try lia. exists (b :: a :: ans). cbn. split; [lia|]. apply perm_swap.
  - destruct (IHHP1 ans HL) as (a1 & L1 & P1). destruct (IHHP2 a1 L1) as (a2 & L2 & P2). exists a2. split; auto. rewrite P1; auto.
Qed.
Lemma nearest_perm s ts ts' k res res' : Permutation ts ts' -> Permutation res res' -> nearest arc s ts k res -> nearest arc s ts' k res'.
Proof.
  intros HP HR (ans & rest & HF & P & L & B). pose proof (F2_length _ _ _ HF) as HL. destruct (reached_perm ts ts' ans HL HP) as (ans' & L' & P').
  exists ans', rest. assert (PR : Permutation (reached ts ans) (reached ts' ans')) by (unfold reached; apply Permutation_flat_map; auto).
  split; [|split; [|split]].
  - assert (HX : forall t r, In (t, r) (combine ts' ans') -> exact_answer arc s t r).
    { intros t r Hin. apply (Permutation_in _ (Permutation_sym P')) in Hin. clear -HF Hin. induction HF; cbn in Hin; [tauto|]. destruct Hin as [Hin|Hin]; [injection Hin as <- <-; auto|auto]. }
    clear -L' HX. revert ans' L' HX. induction ts' as [|t ts' IH]; intros [|a ans'] L' HX; cbn in L'; try lia; constructor. { apply HX. left; auto. } apply IH; [lia|]. intros; apply HX; right; auto.
  - rewrite <- PR, P, HR. auto.
  - rewrite <- (Permutation_length PR), <- (Permutation_length HR). auto.
  - intros x y Hx Hy. apply B; auto. apply (Permutation_in _ (Permutation_sym HR)); auto.
Qed.

(** every entry found is a target with its distance *)
Definition sound (s : nat) (targets : list nat) (h : list (N * nat)) : Prop := forall d t, In (d, t) h -> In t targets /\ exact_answer arc s (nd t) (Some d).
Lemma offer_sound k s targets h d t h' : sound s targets h -> In t targets -> exact_answer arc s (nd t) (Some d) -> offer k h d t = Some h' -> sound s targets h'.
Proof.
  intros HS Ht Hd E. assert (HP : forall h0, sound s targets h0 -> sound s targets (nn_push (d, t) h0)).
  { intros h0 H0 d' t' Hin. apply (Permutation_in _ (nn_push_perm _ _)) in Hin. destruct Hin as [Hin|Hin]; auto. injection Hin as <- <-. auto. }
  unfold offer in E. destruct (length h <? k). { injection E as <-. apply HP; auto. } destruct h as [|[d0 t0] r]; [discriminate|].
  destruct (d <? d0)%N; injection E as <-; auto. apply HP. intros d' t' Hin. apply HS. right; auto.
Qed.
Lemma sep_offer_sound k s targets : s < n -> (forall t, In t targets -> t < n) -> forall ts, incl ts targets -> forall p h p' h',
  OK p (Some s) -> sound s targets h -> foldM (sep_offer k) ts (p, h) = Some (p', h') -> OK p' (Some s) /\ sound s targets h'.
Proof.
  intros Hs HT. induction ts as [|t ts IH]; intros HI p h p' h' HP HS; cbn [foldM]. { intros E. injection E as <- <-. auto. }
  unfold sep_offer at 1. cbn [fst snd]. assert (Ht : In t targets) by (apply HI; left; auto).
  destruct (o_rank' p s t HP Hs (HT t Ht)) as (p1 & r & E & HP1 & X). rewrite E. cbn [bind]. assert (HI' : incl ts targets) by (intros x Hx; apply HI; right; auto).
  destruct r as [d|]; cbn [bind]; [|intros E'; eapply IH; eauto].
  destruct (offer k h d t) as [h1|] eqn:Eo; cbn [bind]; [|discriminate]. intros E'. apply (IH HI' p1 h1 p' h' HP1); auto. eapply offer_sound; eauto.
Qed.
Lemma bound_fold s : s < n -> forall hs, (forall x, In x hs -> x < n) -> forall p lb p' lb', OK p (Some s) ->
  foldM (fun '(p, lb) boundary => '(p, r) <- pot_rank p boundary ;; Some (p, N.min lb (match r with Some d => d | None => INF end))) hs (p, lb) = Some (p', lb') -> OK p' (Some s).
Proof.
  intros Hs. induction hs as [|x hs IH]; intros HX p lb p' lb' HP; cbn [foldM]. { intros E. injection E as <- <-. auto. }
  destruct (o_rank' p s x HP Hs (HX x ltac:(left; auto))) as (p1 & r & E & HP1 & X). rewrite E. cbn [bind]. apply IH; auto. intros y Hy; apply HX; right; auto.
Qed.
Lemma slice_incl {T} (l : list T) a b r : slice l a b = Some r -> incl r l.
Proof.
  unfold slice, guard. destruct ((a <=? b) && (b <=? length l))%bool; [|discriminate]. cbn. intros E. injection E as <-. intros x Hx.
  rewrite <- (firstn_skipn a l). apply in_or_app. right. rewrite <- (firstn_skipn (b - a) (skipn a l)). apply in_or_app. auto.
Qed.
Lemma children_sound s c : s < n -> (forall x, In x (c_head c) -> x < n) -> forall cs p acc p' acc', OK p (Some s) ->
  foldM (child_bound c) cs (p, acc) = Some (p', acc') -> OK p' (Some s).
Proof.
  intros Hs HC. induction cs as [|ch cs IH]; intros p acc p' acc' HP; cbn [foldM]. { intros E. injection E as <- <-. auto. }
  unfold child_bound at 1. cbn [fst snd]. destruct (sn_high (st_nodes ch)) as [top|]; cbn [bind]; [|discriminate].
  destruct (nth_error (c_fo c) top) as [a|]; cbn [bind]; [|discriminate]. destruct (nth_error (c_fo c) (top + 1)) as [b|]; cbn [bind]; [|discriminate].
  destruct (slice (c_head c) a b) as [hs|] eqn:Es; cbn [bind]; [|discriminate].
  destruct (foldM _ hs _) as [[p1 lb]|] eqn:Ef; cbn [bind]; [|discriminate]. apply IH.
  eapply (bound_fold s Hs hs); [|exact HP|exact Ef]. intros x Hx. apply HC. eapply slice_incl; eauto.
Qed.

Lemma upto_incl start l : incl (upto_sep start l) l.
Proof. induction l as [|t l IH]; cbn [upto_sep]; [intros x []|]. destruct (t <? start); [intros x []|]. intros x [<-|Hx]; [left; auto|right; auto]. Qed.

Lemma sep_step_sound bs sort c targets k s : s < n -> (forall t, In t targets -> t < n) -> (forall x, In x (c_head c) -> x < n) ->
  forall st r, OK (fst (fst st)) (Some s) /\ sound s targets (snd (fst st)) -> sep_step bs sort c targets k st = Some r ->
  match r with inl st' | inr st' => OK (fst (fst st')) (Some s) /\ sound s targets (snd (fst st')) end.
Proof.
  intros Hs HT HC [[p h] stack] r [HP HS]. cbn [fst snd] in HP, HS. unfold sep_step. destruct stack as [|[md cell] stack]. { intros E; injection E as <-. auto. }
  destruct (if k <=? length h then _ else _) as [[|]|]; cbn [bind]; [intros E; injection E as <-; auto| |discriminate].
  destruct (sn_range (st_nodes cell)) as [[a b]|]; cbn [bind]; [|discriminate].
  destruct (if b <=? a then _ else _) as [[[lo hi] ss]|]; cbn [bind]; [|discriminate].
  destruct (bs_idx bs targets lo) as [i|]; cbn [bind]; [|discriminate]. destruct (bs_idx bs targets hi) as [j|]; cbn [bind]; [|discriminate].
  destruct (slice targets i j) as [ts|] eqn:Es; cbn [bind]; [|discriminate]. apply slice_incl in Es. destruct (length ts <? 8).
  - destruct (foldM (sep_offer k) ts (p, h)) as [[p1 h1]|] eqn:Ef; cbn [bind]; [|discriminate]. intros E; injection E as <-. cbn [fst snd].
    eapply sep_offer_sound; eauto.
  - destruct (foldM (sep_offer k) (upto_sep ss (rev ts)) (p, h)) as [[p1 h1]|] eqn:Ef; cbn [bind]; [|discriminate].
    destruct (foldM (child_bound c) (st_children cell) (p1, [])) as [[p2 ch]|] eqn:Ec; cbn [bind]; [|discriminate]. intros E; injection E as <-. cbn [fst snd].
    destruct (sep_offer_sound k s targets Hs HT (upto_sep ss (rev ts)) ltac:(intros x Hx; apply Es, in_rev, (upto_incl _ _ _ Hx)) p h p1 h1 HP HS Ef) as [HP1 HS1].
    split; auto. eapply children_sound; eauto.
Qed.
Lemma sep_query_sound bs sort c tree p t0 targets s k p' h : OK p t0 -> s < n -> (forall t, In t targets -> t < n) -> (forall x, In x (c_head c) -> x < n) ->
  sep_query_ranks bs sort c tree p targets s k = Some (p', h) -> OK p' (Some s) /\ sound s targets h.
Proof.
  intros HP Hs HT HC. unfold sep_query_ranks. destruct (o_init _ _ _ _ _ HO p t0 s HP Hs) as (p1 & E & HP1). rewrite E. cbn [bind].
  set (first := if k <? length targets then _ else _). destruct first as [[p2 h2]|] eqn:Ef; cbn [bind]; [|discriminate].
  assert (H2 : OK p2 (Some s) /\ sound s targets h2).
  { unfold first in Ef. destruct (k <? length targets). { injection Ef as <- <-. split; auto. intros d t []. }
    destruct (all_fold s Hs targets HT p1 [] [] [] HP1 (Forall2_nil _) (perm_nil _)) as (p3 & h3 & ans & E3 & HP3 & HF3 & HR3). rewrite E3 in Ef. injection Ef as <- <-.
    split; auto. intros d t Hin. apply (Permutation_in _ (Permutation_sym HR3)) in Hin. apply reached_In in Hin. cbn [app] in *. split. { eapply in_combine_l; eauto. }
    clear -HF3 Hin. induction HF3; cbn in Hin; [tauto|]. destruct Hin as [Hin|Hin]; [injection Hin as -> ->; auto|auto]. }
  destruct (loopN _ _ _) as [[[p3 h3] st3]|] eqn:El; cbn [bind]; [|discriminate]. intros Er. injection Er as <- <-.
  assert (HQ : OK (fst (fst (p3, h3, st3))) (Some s) /\ sound s targets (snd (fst (p3, h3, st3)))).
  { set (I := fun st : sstate => OK (fst (fst st)) (Some s) /\ sound s targets (snd (fst st))). change (I (p3, h3, st3)). refine (loopN_pres _ I I _ _ _ _ _ _ El); [| |exact H2].
    - intros st r Hst E1. exact (sep_step_sound bs sort c targets k s Hs HT HC st (inl r) Hst E1).
    - intros st r Hst E1. exact (sep_step_sound bs sort c targets k s Hs HT HC st (inr r) Hst E1). }
  exact HQ.
Qed.

(** few targets: all are looked at in the root cell *)
Lemma sep_few bs sort c p t0 targets s k subs : OK p t0 -> s < n -> (forall t, In t targets -> t < n) -> bs_contract bs -> StronglySorted lt targets -> 1 <= k ->
  length targets <= k \/ length targets < 8 ->
  exists p' h ans rest, sep_query_ranks bs sort c (Sep sn_new subs n) p targets s k = Some (p', h) /\ OK p' (Some s) /\
    Forall2 (fun t r => exact_answer arc s (nd t) r) targets ans /\ Permutation (reached targets ans) (h ++ rest) /\ length h = Nat.min k (length (reached targets ans)) /\
    forall x y, In x h -> In y rest -> (fst x <= fst y)%N.
Proof.
  intros HP Hs HT HB HA Hk HF. unfold sep_query_ranks. destruct (o_init _ _ _ _ _ HO p t0 s HP Hs) as (p1 & E & HP1). rewrite E. cbn [bind].
  set (fuel := N.of_nat _). assert (Hfuel : (1 < fuel)%N) by (unfold fuel; cbn [st_count]; lia). clearbody fuel.
  destruct (Nat.ltb_spec k (length targets)) as [Hlt|Hge]; cbn [bind].
  - destruct (sep_fold k s Hk Hs targets HT p1 [] [] [] [] HP1 (Forall2_nil _) (best_nil k)) as (p2 & h & ans & rest & E2 & HP2 & HF2 & (B1 & B2 & _ & B3)). cbn [app] in *.
    assert (HI : ascending targets).
    { assert (HI : forall i j a b, i < j -> nth_error targets i = Some a -> nth_error targets j = Some b -> a < b).
      { clear -HA. induction HA as [|x l HS IH HF]; intros i j a b Hij Ea Eb; destruct i, j; cbn in Ea, Eb; try lia; try discriminate.
        - injection Ea as <-. rewrite Forall_forall in HF. apply HF. eapply nth_error_In; eauto.
        - eapply (IH i j); eauto. lia. }
      intros i j a b Hij Ea Eb. destruct (Nat.eq_dec i j) as [->|Ne]; [rewrite Ea in Eb; injection Eb as <-; lia|]. specialize (HI i j a b ltac:(lia) Ea Eb). lia. }
    assert (I1 : bs_idx bs targets 0 = Some 0).
    { unfold bs_idx. destruct (HB targets 0 HI) as (r & Er & Hr). rewrite Er. cbn [bind]. f_equal. destruct r as [i|i].
      - destruct i as [|i]; auto. exfalso. destruct targets as [|a l]; [discriminate|]. inversion HA as [|? ? _ HX]; subst. cbn in Hr. apply nth_error_In in Hr. rewrite Forall_forall in HX. specialize (HX 0 Hr). lia.
      - destruct i as [|i]; auto. exfalso. destruct Hr as (H1 & H2 & _). destruct targets as [|a l]; [cbn in H1; lia|]. specialize (H2 0 a ltac:(lia) eq_refl). lia. }
    assert (I2 : bs_idx bs targets n = Some (length targets)).
    { unfold bs_idx. destruct (HB targets n HI) as (r & Er & Hr). rewrite Er. cbn [bind]. f_equal. destruct r as [i|i].
      - apply nth_error_In in Hr. specialize (HT n Hr). lia.
      - destruct Hr as (H1 & _ & H3). destruct (Nat.eq_dec i (length targets)) as [|Ne]; auto. destruct (nth_error targets i) as [y|] eqn:Ey. 2: { apply nth_error_None in Ey. lia. }
        specialize (H3 i y (Nat.le_refl i) Ey). apply nth_error_In in Ey. specialize (HT y Ey). lia. }
    assert (SL : slice targets 0 (length targets) = Some targets). { unfold slice. rewrite Nat.leb_refl. cbn. rewrite Nat.sub_0_r, firstn_all. auto. }
    assert (S1 : sep_step bs sort c targets k (p1, [], [(0%N, Sep sn_new subs n)]) = Some (inl (p2, h, []))).
    { unfold sep_step. cbn [length]. destruct (Nat.leb_spec k 0); [lia|]. cbn [bind st_nodes sn_range sn_new st_num]. rewrite (proj2 (Nat.leb_le 0 0)) by lia. cbn [bind].
      rewrite I1, I2. cbn [bind]. rewrite SL. cbn [bind]. destruct (Nat.ltb_spec (length targets) 8); [|lia]. rewrite E2. cbn [bind]. auto. }
    destruct (loopN_ghost (sep_step bs sort c targets k) (fun (g : bool) st => st = if g then (p1, [], [(0%N, Sep sn_new subs n)]) else (p2, h, [])) (fun r => r = (p2, h, []))
      (fun g => if g then 1%N else 0%N) fuel true (p1, [], [(0%N, Sep sn_new subs n)])) as (r & El & ->).
    + intros [|] st ->; [exists (inl (p2, h, [])); split; auto; exists false; split; auto; lia|]. exists (inr (p2, h, [])). auto.
    + auto.
    + lia.
    + rewrite El. cbn [bind]. exists p2, h, ans, rest. auto 7.
  - destruct (all_fold s Hs targets HT p1 [] [] [] HP1 (Forall2_nil _) (perm_nil _)) as (p2 & h & ans & E2 & HP2 & HF2 & HR). cbn [app] in *. rewrite E2. cbn [bind].
    destruct (loopN_ghost (sep_step bs sort c targets k) (fun (g : bool) st => st = (p2, h, [])) (fun r => r = (p2, h, []))
      (fun g => 0%N) fuel true (p2, h, [])) as (r & El & ->).
    + intros _ st ->. exists (inr (p2, h, [])). auto.
    + auto.
    + lia.
    + rewrite El. cbn [bind]. exists p2, h, ans, []. rewrite app_nil_r. split; [auto|]. split; [auto|]. split; [auto|]. split; [auto|]. split; [|intros x y _ []].
      rewrite (Permutation_length HR). assert (length h <= length targets); [|lia]. rewrite <- (Permutation_length HR). clear. unfold reached.
      revert ans. induction targets as [|t l IH]; intros [|a ans]; cbn [combine flat_map length]; try lia. rewrite app_length. specialize (IH ans). destruct a; cbn [snd length] in *; lia.
Qed.
End NN.
