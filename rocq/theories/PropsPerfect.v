(** Statements about perfect customizations. *)
From Verif Require Import Base SpecGraph SpecCCH BitVec Graph ExTab CCH CCHTheory CCHContractProof CCHBuildProof CCHCustProof CCHMetricProof
  Dijkstra CCHQuery CCHQueryProof CCHPathTheory CCHPathProof CCHViewProof CCHServerProof CCHPot CCHPotProof SepTree CCHPerfect CCHPerfectProof CCHRebuild CCHRebuildProof CCHPerfectView CCHRebuildPar PropsCCH PropsPot.

Lemma slice_len {T} (l : list T) a b r : slice l a b = Some r -> length r = b - a.
Proof.
  unfold slice, guard. destruct ((a <=? b) && (b <=? length l))%bool eqn:E; [|discriminate]. cbn. intros H. injection H as <-.
  apply andb_prop in E. destruct E as [E1 E2]. apply Nat.leb_le in E1, E2. rewrite firstn_length, skipn_length. lia.
Qed.
Lemma garc_larc (g : fograph N) x y w : garc (link_iter g) x y w <-> exists e, larc (k_links g) x e y w.
Proof.
  unfold garc, larc, garc_ids, k_links, link_iter, link_iter_ids. destruct (range g x) as [[a b]|]; cbn [bind].
  2: { split; [intros (ls & E & _)|intros (e & ls & E & _)]; discriminate. }
  destruct (slice (head g) a b) as [h|] eqn:Eh; cbn [bind]. 2: { split; [intros (ls & E & _)|intros (e & ls & E & _)]; discriminate. }
  destruct (slice (weight g) a b) as [ws|] eqn:Ew; cbn [bind]. 2: { split; [intros (ls & E & _)|intros (e & ls & E & _)]; discriminate. }
  apply slice_len in Eh, Ew. assert (L : length (combine h ws) = length (seq a (b - a))) by (rewrite combine_length, seq_length; lia). split.
  - intros (ls & E & Hin). injection E as <-. destruct (In_nth _ _ (0, 0%N) Hin) as (i & Hi & En). exists (nth i (seq a (b - a)) 0). eexists. split; [reflexivity|].
    assert (En' : nth i (combine (combine h ws) (seq a (b - a))) ((0, 0%N), 0) = ((y, w), nth i (seq a (b - a)) 0)) by (rewrite combine_nth by auto; congruence).
    rewrite <- En'. apply nth_In. rewrite combine_length. lia.
  - intros (e & ls & E & Hin). injection E as <-. eexists. split; [reflexivity|]. apply in_combine_l in Hin. auto.
Qed.

(** ** C28: what a perfect customization is *)
Lemma perfect_exists adj g order ranks c madj k : valid_adj adj -> fits_u32 adj -> from_adjacency_lists adj = Some g -> node_order (length adj) order ranks ->
  cch_contract g order ranks = Some c -> metric_for adj c madj k ->
  exists nodes up0 dn0 s S, cch_ok adj order ranks nodes c /\ valid_adj madj /\ cust_result adj order ranks nodes c madj up0 dn0 s k /\ glens nodes S /\ cell_fin nodes s 0 (length adj) S /\
    perfect_weights c (weight (k_fw k)) (weight (k_bw k)) = Some S /\ customize_perfect c k = Some (perfect_cust adj order ranks nodes c s S).
Proof.
  intros HV HF Hg HO E Hm. destruct (cch_contract_ok _ _ _ _ _ HV HF Hg HO E) as (nodes & HK).
  destruct (metric_result _ _ _ _ _ _ _ _ HV HF Hg HO HK Hm) as (up0 & dn0 & s & HVm & HR).
  destruct (perfect_ok adj order ranks nodes c HK up0 dn0 s (cr_ok _ _ _ _ _ _ _ _ _ _ HR)) as (S & ES & L & F).
  assert (E1 : perfect_weights c (weight (k_fw k)) (weight (k_bw k)) = Some S) by (rewrite (cr_k _ _ _ _ _ _ _ _ _ _ HR); exact ES).
  exists nodes, up0, dn0, s, S. split; [exact HK|]. split; [exact HVm|]. split; [exact HR|]. split; [exact L|]. split; [exact F|]. split; [exact E1|].
  unfold customize_perfect. rewrite E1. cbn [bind]. rewrite (cr_k _ _ _ _ _ _ _ _ _ _ HR). cbn [k_upu k_dnu].
  pose proof (perfect_rebuild adj order ranks nodes c HK madj up0 dn0 s k HR S L F) as R. cbn [g_w g_m] in R. rewrite R. cbn [bind].
  apply (perfect_of_ok adj order ranks nodes c HK madj up0 dn0 s k HR S L F).
Qed.

(** An edge of a basic customization remains if and only if the input graph has no strictly shorter way between its end nodes;
    it keeps its weight, and nothing else is in the reduced graphs. *)
Theorem C28_perfect_customization_keeps_exactly_the_shortest_edges :
  forall adj g order ranks c, valid_adj adj -> fits_u32 adj -> from_adjacency_lists adj = Some g -> node_order (length adj) order ranks ->
  cch_contract g order ranks = Some c ->
  forall madj k, metric_for adj c madj k ->
  exists kp, customize_perfect c k = Some kp /\
  let fw := garc (link_iter (k_fw k)) in let bw := garc (link_iter (k_bw k)) in
  let fw' := garc (link_iter (k_fw kp)) in let bw' := garc (link_iter (k_bw kp)) in
  (* nothing new *)
  (forall x y w, (fw' x y w -> fw x y w) /\ (bw' x y w -> bw x y w)) /\
  forall x y u v w, nth_error order x = Some u -> nth_error order y = Some v ->
    (* the weight of a remaining edge is the distance *)
    (fw' x y w -> exact_answer (adj_arc madj) u v (if (w <? INF)%N then Some w else None)) /\
    (bw' x y w -> exact_answer (adj_arc madj) v u (if (w <? INF)%N then Some w else None)) /\
    (* a removed edge has a strictly better detour *)
    (fw x y w -> fw' x y w \/ exists l, walk (adj_arc madj) u v l /\ (l < w)%N) /\
    (bw x y w -> bw' x y w \/ exists l, walk (adj_arc madj) v u l /\ (l < w)%N).
Proof.
  intros adj g order ranks c HV HF Hg HO E madj k Hm. destruct (perfect_exists _ _ _ _ _ _ _ HV HF Hg HO E Hm) as (nodes & up0 & dn0 & s & S & HK & HVm & HR & L & F & _ & EP).
  exists (perfect_cust adj order ranks nodes c s S). split; [exact EP|]. destruct Hm as (HT & _). set (kp := perfect_cust adj order ranks nodes c s S). cbn zeta.
  pose proof (fw_arc _ _ _ _ _ HK _ _ _ _ _ HR) as FW. pose proof (bw_arc _ _ _ _ _ HK _ _ _ _ _ HR) as BW.
  assert (LA : forall (d : bool) x y w, garc (link_iter (if d then k_fw kp else k_bw kp)) x y w <-> exists e, edge nodes e x y /\ kept (g_m d S) e = true /\ w = w0 s d e).
  { intros d x y w. rewrite garc_larc. pose proof (fun e' => kp_larc adj order ranks nodes c HK madj up0 dn0 s k HR S L F d x e' y w) as K. fold kp in K. split.
    - intros (e' & H). apply K in H. destruct H as (e & H1 & H2 & _ & H3). eauto.
    - intros (e & H1 & H2 & H3). exists (cnt (g_m d S) e). apply K. eauto 6. }
  pose proof (LA true) as LF. pose proof (LA false) as LB. cbn [g_m] in LF, LB.
  assert (UP : forall e x y, edge nodes e x y -> x < y) by (intros e x y He; apply (edge_n adj order ranks nodes c HK madj up0 dn0 s k HR S L F e x y He)).
  pose proof (walk_cwalk adj order ranks nodes c HK madj HT HVm up0 dn0 s k HR) as WC.
  pose proof (cwalk_walk adj order ranks nodes c HK madj up0 dn0 s k HR) as CW.
  assert (SM : forall x y w, carc nodes s x y w -> (w <= INF)%N) by (intros x y w H; eapply carc_small; [apply (cr_ok _ _ _ _ _ _ _ _ _ _ HR)|exact H]).
  assert (EX : forall x y u v w, nth_error order x = Some u -> nth_error order y = Some v -> tight (carc nodes s) x y w -> exact_answer (adj_arc madj) u v (if (w <? INF)%N then Some w else None)).
  { intros x y u v w Eu Ev [Ha Ht]. assert (LB' : forall l, walk (adj_arc madj) u v l -> (w <= l)%N). { intros l Hl. destruct (WC u v l x y Hl Eu Ev) as (l' & Hl' & L'). specialize (Ht _ Hl'). lia. }
    destruct (N.ltb_spec w INF) as [Lw|Lw]; cbn.
    - split; [auto|]. split; [|exact LB']. apply (CW x y w u v); auto. apply walk_1. auto.
    - intros l Hl. specialize (LB' l Hl). specialize (SM _ _ _ Ha). lia. }
  assert (RM : forall x y u v w (b : bool), nth_error order x = Some u -> nth_error order y = Some v -> carc nodes s x y w ->
    (exists l, walk (carc nodes s) x y l /\ (l < w)%N) -> exists l, walk (adj_arc madj) u v l /\ (l < w)%N).
  { intros x y u v w _ Eu Ev Ha (l & Hl & Ll). exists l. split; [|auto]. apply (CW x y l u v); auto. specialize (SM _ _ _ Ha). lia. }
  assert (DK : forall d e x y, edge nodes e x y -> kept (g_m d S) e = true \/ (wk nodes s d x y (wt d S e) /\ (wt d S e < w0 s d e)%N)).
  { intros d e x y He. destruct (kept (g_m d S) e) eqn:K; [auto|]. right.
    assert (Hx : x < length adj). { pose proof (edge_n adj order ranks nodes c HK madj up0 dn0 s k HR S L F e x y He). lia. }
    destruct (F x e y d ltac:(lia) He) as [M _]. split; [apply (mi_walk _ _ _ _ _ _ _ M)|]. pose proof (mi_le _ _ _ _ _ _ _ M).
    pose proof (kept_iff adj order ranks nodes c HK madj up0 dn0 s k HR S L F d e x y He) as KI. rewrite K in KI.
    destruct (N.eq_dec (wt d S e) (w0 s d e)) as [Q|Q]; [apply KI in Q; discriminate|lia]. }
  split.
  { intros x y w. rewrite LF, LB, FW, BW. split; intros (e & He & _ & ->); pose proof (UP _ _ _ He); (split; [auto|]); [left|right]; split; auto; exists e; auto. }
  intros x y u v w Eu Ev. rewrite LF, LB, FW, BW. split; [|split; [|split]].
  - intros (e & He & K & ->). apply (EX x y); auto.
    apply (kept_tight adj order ranks nodes c HK madj up0 dn0 s k HR S L F true e x y (w0 s true e) He); auto. left. pose proof (UP _ _ _ He). split; [auto|]. exists e. auto.
  - intros (e & He & K & ->). apply (EX y x); auto.
    apply (kept_tight adj order ranks nodes c HK madj up0 dn0 s k HR S L F false e x y (w0 s false e) He); auto. right. pose proof (UP _ _ _ He). split; [auto|]. exists e. auto.
  - intros [Lxy Ha]. pose proof Ha as Ha'. destruct Ha as [(_ & e & He & ->)|(L' & _)]; [|lia]. destruct (DK true e x y He) as [K|[W Lw]]; [left; exists e; auto|right].
    apply (RM x y u v _ true Eu Ev Ha'). exists (wt true S e). split; auto.
  - intros [Lxy Ha]. pose proof Ha as Ha'. destruct Ha as [(L' & _)|(_ & e & He & ->)]; [lia|]. destruct (DK false e x y He) as [K|[W Lw]]; [left; exists e; auto|right].
    apply (RM y x v u _ true Ev Eu Ha'). exists (wt false S e). split; auto.
Qed.
Print Assumptions C28_perfect_customization_keeps_exactly_the_shortest_edges.

(** [k] is a basic or a perfect customization for [madj] *)
Definition any_metric_for (adj : list (list (nat * N))) (c : cch) (madj : list (list (nat * N))) (k : customized) : Prop :=
  metric_for adj c madj k \/ exists k0, metric_for adj c madj k0 /\ customize_perfect c k0 = Some k.
Definition any_ops_ok (adj : list (list (nat * N))) (c : cch) (ops : list cs_op) : Prop :=
  forall op, In op ops -> match op with OpUpdate k => exists madj, any_metric_for adj c madj k | OpQuery from to _ => from < length adj /\ to < length adj end.
Lemma any_served adj g order ranks c madj k : valid_adj adj -> fits_u32 adj -> from_adjacency_lists adj = Some g -> node_order (length adj) order ranks ->
  cch_contract g order ranks = Some c -> any_metric_for adj c madj k -> served adj order ranks madj k.
Proof.
  intros HV HF Hg HO E [Hm|(k0 & Hm & EP)]. { eapply metric_served; eauto. }
  destruct (perfect_exists _ _ _ _ _ _ _ HV HF Hg HO E Hm) as (nodes & up0 & dn0 & s & S & HK & HVm & HR & L & F & _ & EP'). rewrite EP in EP'. injection EP' as ->.
  destruct Hm as (HT & _). do 3 eexists. eapply (perfect_view adj order ranks nodes c HK madj HT HVm up0 dn0 s k0 HR S L F).
Qed.
(** One server, created and updated with basic and perfect customizations in any order: every distance is exact, every path is
    a simple path of that length, however often it is asked for. *)
Theorem C28_queries_on_perfect_customizations_exact :
  forall adj g order ranks c, valid_adj adj -> fits_u32 adj -> from_adjacency_lists adj = Some g -> node_order (length adj) order ranks ->
  cch_contract g order ranks = Some c ->
  forall k0 ops, (exists madj, any_metric_for adj c madj k0) -> any_ops_ok adj c ops ->
  exists sv, cs_history (cs_new k0) ops = Some sv /\
  forall madj from to, any_metric_for adj c madj (last_update k0 ops) -> from < length adj -> to < length adj ->
  exists sv' r, cs_distance sv from to = Some (sv', r) /\ exact_answer (adj_arc madj) from to r /\
  forall d, r = Some d -> exists p, npath (adj_arc madj) from p to d /\ NoDup p /\
    forall j, exists sv1 sv2, cs_paths sv' from to j = Some sv1 /\ cs_path sv1 from to = Some (sv2, p).
Proof.
  intros adj g order ranks c HV HF Hg HO E k0 ops (madj0 & Hk) Hops.
  assert (SV : forall madj k, any_metric_for adj c madj k -> served adj order ranks madj k) by (intros; eapply any_served; eauto).
  destruct (served_history adj order ranks ops) with (sv := cs_new k0) as (sv & Eh & Kh & Sh).
  - intros op Hop. specialize (Hops op Hop). destruct op as [k|from to j]; [|exact Hops]. destruct Hops as (madj' & H). eauto.
  - exists madj0. apply SV. exact Hk.
  - eapply served_new; eauto.
  - exists sv. split; [exact Eh|]. intros madj from to Hm Hf Ht. assert (Sm : served adj order ranks madj (q_cust sv)) by (apply SV; rewrite Kh; exact Hm).
    destruct (served_distance adj order ranks madj sv from to Sm Sh Hf Ht) as (sv1 & r & E1 & _ & _ & X & P1).
    exists sv1, r. split; [exact E1|]. split; [exact X|]. intros d Hd. destruct (P1 d Hd) as (p & NP & ND & HP). exists p. split; [exact NP|]. split; [exact ND|]. intros j.
    destruct (HP j) as (sv2 & sv3 & E2 & _ & _ & E3). eauto.
Qed.
Print Assumptions C28_queries_on_perfect_customizations_exact.

(** Potentials of perfect customizations. *)
Theorem C28_potential_on_perfect_customization_exact :
  forall adj g order ranks c, valid_adj adj -> fits_u32 adj -> from_adjacency_lists adj = Some g -> node_order (length adj) order ranks ->
  cch_contract g order ranks = Some c ->
  forall madj k, any_metric_for adj c madj k ->
  forall t0 ops, pot_calls_ok adj (PotInit t0 :: ops) ->
  exists p, pot_history (pot_forward k) (PotInit t0 :: ops) = Some p /\
  forall x, x < length adj -> exists p' r t, pot_value p x = Some (p', r) /\ current_target (PotInit t0 :: ops) = Some t /\ exact_answer (adj_arc madj) x t r.
Proof.
  intros adj g order ranks c HV HF Hg HO E madj k Hm t0 ops Hops.
  destruct (any_served _ _ _ _ _ _ _ HV HF Hg HO E Hm) as (A & un & hop & HW).
  assert (Ht : t0 < length adj) by apply (Hops _ (or_introl eq_refl)).
  assert (Ho : pops_ok adj ops) by (intros o Hin; apply (Hops o (or_intror Hin))).
  destruct (forward_pot_exact _ _ _ _ _ _ _ _ HW t0 ops t0 Ht Ho Ht) as (p & _ & _ & _ & Ep & _). exists p. split; [exact Ep|].
  intros x Hx. destruct (forward_pot_exact _ _ _ _ _ _ _ _ HW t0 ops x Ht Ho Hx) as (q & p' & r & t & Eq & Ev & Et & X).
  rewrite Ep in Eq. injection Eq as <-. exists p', r, t. rewrite current_last. auto.
Qed.
Print Assumptions C28_potential_on_perfect_customization_exact.

(** the edge upwards from 0 to 1 of weight 10 is removed because the way over 2 is shorter; new ids, tails and unpacking; a
    server using both kinds *)
Definition pf_adj : list (list (nat * N)) := [[(1, 10%N); (2, 1%N)]; [(2, 4%N); (0, 3%N)]; [(1, 1%N); (3, 2%N)]; [(0, 1%N)]].
Definition pf_order : list nat := [0; 1; 2; 3].
Example C28_nonvacuous :
  (g <- from_adjacency_lists pf_adj ;; c <- cch_contract g pf_order pf_order ;; mg <- from_adjacency_lists pf_adj ;; k <- customize c mg ;; kp <- customize_perfect c k ;;
   Some (c_head c, weight (k_fw k), weight (k_bw k), (first_out (k_fw kp), head (k_fw kp), weight (k_fw kp), k_upu kp, (first_out (k_bw kp), head (k_bw kp), weight (k_bw kp), k_dnu kp, k_btail kp)))) =
    Some ([1; 2; 3; 2; 3; 3], [10; 1; INF; 4; INF; 2]%N, [3; INF; 1; 1; 11; 2]%N,
     ([0; 1; 2; 3; 3], [2; 2; 3], [1; 4; 2]%N, [no_unp; no_unp; no_unp],
      ([0; 2; 3; 4; 4], [1; 3; 2; 3], [3; 1; 1; 2]%N, [no_unp; no_unp; no_unp; (Some 1, Some 0)], [0; 0; 1; 2]))) /\
  (g <- from_adjacency_lists cx_adj ;; c <- cch_contract g cx_order cx_ranks ;; mg <- from_adjacency_lists cx_madj ;; k <- customize c mg ;; kp <- customize_perfect c k ;;
   mg0 <- from_adjacency_lists cx_adj ;; k0 <- customize c mg0 ;;
   sv <- cs_history (cs_new k0) [OpQuery 2 1 2; OpUpdate kp; OpQuery 0 3 1; OpUpdate k0; OpQuery 1 1 2; OpUpdate kp; OpQuery 1 4 0] ;;
   '(sv1, r1) <- cs_distance sv 2 1 ;; '(sv2, p1) <- cs_path sv1 2 1 ;; '(sv3, r2) <- cs_distance sv2 4 2 ;; '(_, p2) <- cs_path sv3 4 2 ;;
   Some (r1, p1, r2, p2)) = Some (Some 5%N, [2; 4; 3; 0; 1], Some 13%N, [4; 3; 0; 2]).
Proof. split; vm_compute; reflexivity. Qed.

(** ** C29: rebuilding the reduced graphs in parallel with [k] closures *)

(** a well formed adjacency array with [n] nodes, a flag and unpacking information per edge *)
Definition side_wf (n : nat) (g : fograph N) (ms : list bool) (us : list unp) : Prop :=
  length (first_out g) = n + 1 /\ nth 0 (first_out g) 0 = 0 /\ (forall i, i < n -> nth i (first_out g) 0 <= nth (i + 1) (first_out g) 0) /\
  nth n (first_out g) 0 = length (head g) /\ length (weight g) = length (head g) /\ length ms = length (head g) /\ length us = length (head g).
(** unpacking information of the edges of a node refers to edges of lower nodes *)
Definition unpacks_down (fw bw : fograph N) (g : fograph N) (us : list unp) : Prop :=
  forall i e d u, nth i (first_out g) 0 <= e < nth (i + 1) (first_out g) 0 -> nth_error us e = Some (d, u) ->
    (forall x, d = Some x -> x < nth i (first_out bw) 0) /\ (forall x, u = Some x -> x < nth i (first_out fw) 0).
(** tail of each edge *)
Definition tails_of (n : nat) (g : fograph N) (tails : list nat) : Prop :=
  length tails = length (head g) /\ forall i e, i < n -> nth i (first_out g) 0 <= e < nth (i + 1) (first_out g) 0 -> nth_error tails e = Some i.

Definition tail_at (n : nat) (g : fograph N) (e : nat) : nat := length (filter (fun i => nth (i + 1) (first_out g) 0 <=? e) (seq 0 n)).
Lemma side_wf_in n g ms us : side_wf n g ms us -> side_in n (fun i => nth i (first_out g) 0) (tail_at n g) g ms us.
Proof.
  intros (L1 & L2 & L3 & L4 & L5 & L6 & L7).
  assert (M : forall i j, i <= j -> j <= n -> nth i (first_out g) 0 <= nth j (first_out g) 0).
  { intros i j. induction 1 as [|j L IH]; intros Hj; auto. specialize (IH ltac:(lia)). pose proof (L3 j ltac:(lia)). replace (S j) with (j + 1) by lia. lia. }
  constructor; auto; try congruence.
  - intros i Hi. apply nth_error_nth_some. lia.
  - intros i e Hi He. unfold tail_at. replace n with (i + (n - i)) by lia. rewrite seq_app, filter_app, app_length.
    assert (E1 : filter (fun i => nth (i + 1) (first_out g) 0 <=? e) (seq 0 i) = seq 0 i).
    { assert (G : forall l, (forall j, In j l -> j < i) -> filter (fun i => nth (i + 1) (first_out g) 0 <=? e) l = l).
      { induction l as [|x l IH]; intros H; [reflexivity|]. cbn [filter]. pose proof (M (x + 1) i). specialize (H x (or_introl eq_refl)) as Hx. rewrite (proj2 (Nat.leb_le _ _)) by lia. f_equal. apply IH. intros j Hj. apply H. right. auto. }
      apply G. intros j Hj. apply in_seq in Hj. lia. }
    assert (E2 : filter (fun i => nth (i + 1) (first_out g) 0 <=? e) (seq (0 + i) (n - i)) = []).
    { assert (G : forall l, (forall j, In j l -> i <= j < n) -> filter (fun i => nth (i + 1) (first_out g) 0 <=? e) l = []).
      { induction l as [|x l IH]; intros H; [reflexivity|]. cbn [filter]. specialize (H x (or_introl eq_refl)) as Hx. pose proof (M (i + 1) (x + 1)). rewrite (proj2 (Nat.leb_gt _ _)) by lia. apply IH. intros j Hj. apply H. right. auto. }
      apply G. intros j Hj. apply in_seq in Hj. lia. }
    rewrite E1, E2, seq_length. cbn. lia.
Qed.
Lemma tails_of_map n g ms us tails : side_wf n g ms us -> tails_of n g tails -> tails = map (tail_at n g) (seq 0 (nth n (first_out g) 0)).
Proof.
  intros HW [T1 T2]. pose proof (side_wf_in _ _ _ _ HW) as HS. destruct HW as (L1 & L2 & L3 & L4 & _).
  apply list_ext. intros e. destruct (Nat.lt_ge_cases e (length (head g))) as [L|L].
  - assert (G : forall j, j <= n -> e < nth j (first_out g) 0 -> exists i, i < j /\ nth i (first_out g) 0 <= e < nth (i + 1) (first_out g) 0).
    { induction j as [|j IH]; intros Hj He; [lia|]. destruct (Nat.lt_ge_cases e (nth j (first_out g) 0)) as [K|K]. { destruct IH as (i & Hi & Q); [lia|auto|]. exists i. split; [lia|auto]. }
      exists j. split; [lia|]. replace (j + 1) with (S j) by lia. auto. }
    destruct (G n (le_n n) ltac:(lia)) as (i & Hi & K). rewrite (T2 i e Hi K). rewrite nth_error_map, (nth_error_nth' _ 0) by (rewrite seq_length; lia). rewrite seq_nth by lia. cbn.
    rewrite (si_tl _ _ _ _ _ _ HS i e Hi K). reflexivity.
  - transitivity (@None nat); [|symmetry]; apply nth_error_None; rewrite ?map_length, ?seq_length; lia.
Qed.

(** Any two directions (also those of directed CCHs) and any set of removed edges: the parallel rebuild returns exactly what the
    sequential one does if the number of chunks comes out right and the lowest node has a forward edge. Without these two
    conditions the claim is false, see below. *)
Theorem C29_parallel_rebuild_equals_sequential_partial :
  forall n fw bw mf mb uf ub tails k,
  side_wf n fw mf uf -> side_wf n bw mb ub -> unpacks_down fw bw fw uf -> unpacks_down fw bw bw ub -> tails_of n fw tails -> 0 < k ->
  (k - 1) * ((length (head fw) + k - 1) / k) < length (head fw) -> 0 < nth 1 (first_out fw) 0 ->
  (exists r, rebuild_seq fw bw mf mb uf ub = Some r) /\ rebuild_par k tails fw bw mf mb uf ub = rebuild_seq fw bw mf mb uf ub.
Proof.
  intros n fw bw mf mb uf ub tails k WF WB UF UB HT Hk Hc H1.
  pose proof (side_wf_in _ _ _ _ WF) as HF. pose proof (side_wf_in _ _ _ _ WB) as HB. pose proof (tails_of_map _ _ _ _ _ WF HT) as ET.
  assert (LOW : forall g us, length us = length (head g) -> (forall i, i < n -> nth i (first_out g) 0 <= nth (i + 1) (first_out g) 0) -> nth n (first_out g) 0 = length (head g) -> unpacks_down fw bw g us ->
    forall i e, i < n -> nth i (first_out g) 0 <= e < nth (i + 1) (first_out g) 0 -> low_unp (fun i => nth i (first_out fw) 0) (fun i => nth i (first_out bw) 0) i (nth e us no_unp)).
  { intros g us Lu Mo Ln U i e Hi He. assert (Le : nth (i + 1) (first_out g) 0 <= nth n (first_out g) 0).
    { assert (G : forall c, i + 1 + c <= n -> nth (i + 1) (first_out g) 0 <= nth (i + 1 + c) (first_out g) 0). { induction c as [|c IH]; intros Hc'; [rewrite Nat.add_0_r; lia|]. specialize (IH ltac:(lia)). pose proof (Mo (i + 1 + c) ltac:(lia)). replace (i + 1 + S c) with (i + 1 + c + 1) by lia. lia. }
      specialize (G (n - (i + 1)) ltac:(lia)). replace (i + 1 + (n - (i + 1))) with n in G by lia. auto. }
    destruct (nth e us no_unp) as [d u] eqn:Eu. apply (U i e d u He). rewrite <- Eu. apply nth_error_nth_some. lia. }
  destruct WF as (F1 & F2 & F3 & F4 & F5 & F6 & F7), WB as (B1 & B2 & B3 & B4 & B5 & B6 & B7).
  pose proof (LOW fw uf F7 F3 F4 UF) as LF. pose proof (LOW bw ub B7 B3 B4 UB) as LB. split.
  - eexists. apply (rebuild_seq_ok n _ _ _ _ fw bw mf mb uf ub HF HB LF LB).
  - apply (rebuild_par_ok n _ _ _ _ fw bw mf mb uf ub HF HB LF LB tails ET k Hk).
    + unfold chunk_size. rewrite F4. exact Hc.
    + rewrite F2. exact H1.
Qed.
Print Assumptions C29_parallel_rebuild_equals_sequential_partial.

Definition one_chunk_each (m k : nat) : Prop := (k - 1) * ((m + k - 1) / k) < m.
(** The conditions for the CCH of a graph; the number of edges is always right if it is larger than (k-1)^2. *)
Theorem C29_parallel_perfect_customization_partial :
  forall adj g order ranks c, valid_adj adj -> fits_u32 adj -> from_adjacency_lists adj = Some g -> node_order (length adj) order ranks ->
  cch_contract g order ranks = Some c ->
  forall madj cu k, metric_for adj c madj cu -> 0 < k -> one_chunk_each (cch_arcs c) k -> (exists y, cch_up c 0 y) ->
  customize_perfect_par k c cu = customize_perfect c cu.
Proof.
  intros adj g order ranks c HV HF Hg HO E madj cu k Hm Hk Hc (y & Hy).
  destruct (perfect_exists _ _ _ _ _ _ _ HV HF Hg HO E Hm) as (nodes & up0 & dn0 & s & S & HK & HVm & HR & L & F & EW & _).
  unfold customize_perfect_par, customize_perfect. rewrite EW. cbn [bind]. f_equal.
  pose proof (cr_k _ _ _ _ _ _ _ _ _ _ HR) as Ek. rewrite Ek. cbn [k_upu k_dnu].
  pose proof (side_ok adj order ranks nodes c HK madj up0 dn0 s cu HR S L F) as SO. pose proof (SO true) as SF. pose proof (SO false) as SB. cbn [g_m g_w] in SF, SB.
  pose proof (low adj order ranks nodes c HK madj up0 dn0 s cu HR S L F) as LO. pose proof (nodes_len _ _ _ _ _ HK) as NL.
  assert (Om : off nodes (length adj) = length (concat nodes)) by (rewrite <- NL; apply off_n).
  apply (rebuild_par_ok (length adj) (off nodes) (fun e => nth e (c_tail c) 0) (off nodes) (fun e => nth e (c_tail c) 0) _ _ _ _ _ _ SF SB (LO true) (LO false)); auto.
  - apply list_ext. intros e. rewrite Om. destruct (Nat.lt_ge_cases e (length (concat nodes))) as [Le|Le].
    + rewrite nth_error_map, (nth_error_nth' (seq 0 _) 0) by (rewrite seq_length; auto). rewrite seq_nth by auto. cbn. apply nth_error_nth_some. rewrite (co_taill _ _ _ _ _ HK). auto.
    + transitivity (@None nat); [|symmetry]; apply nth_error_None; rewrite ?map_length, ?seq_length, ?(co_taill _ _ _ _ _ HK); lia.
  - unfold one_chunk_each, cch_arcs in Hc. unfold chunk_size. rewrite Om. rewrite (co_head _ _ _ _ _ HK) in Hc. auto.
  - apply (cch_up_iff _ _ _ _ _ _ _ HK) in Hy. destruct (In_edge _ _ _ Hy) as (e & He). pose proof (edge_range _ _ _ _ He). cbn [Nat.add] in H. rewrite off_0 in *. lia.
Qed.
Print Assumptions C29_parallel_perfect_customization_partial.
Theorem C29_enough_edges : forall m k, 0 < k -> (k - 1) * (k - 1) < m -> one_chunk_each m k.
Proof.
  intros m k Hk H. unfold one_chunk_each. pose proof (Nat.div_mod (m + k - 1) k ltac:(lia)). set (q := (m + k - 1) / k) in *. pose proof (Nat.mod_upper_bound (m + k - 1) k ltac:(lia)). nia.
Qed.
Print Assumptions C29_enough_edges.

(** Otherwise it always panics, although the sequential rebuild works: for instance whenever there is no edge at all. *)
Theorem C29_parallel_rebuild_panics :
  forall adj g order ranks c, valid_adj adj -> fits_u32 adj -> from_adjacency_lists adj = Some g -> node_order (length adj) order ranks ->
  cch_contract g order ranks = Some c ->
  forall madj cu k, metric_for adj c madj cu -> 0 < k -> ~ one_chunk_each (cch_arcs c) k ->
  customize_perfect_par k c cu = None /\ exists kp, customize_perfect c cu = Some kp.
Proof.
  intros adj g order ranks c HV HF Hg HO E madj cu k Hm Hk Hc.
  destruct (perfect_exists _ _ _ _ _ _ _ HV HF Hg HO E Hm) as (nodes & up0 & dn0 & s & S & HK & HVm & HR & L & F & EW & EP). split; [|eauto].
  unfold customize_perfect_par. rewrite EW. cbn [bind].
  pose proof (cr_k _ _ _ _ _ _ _ _ _ _ HR) as Ek. rewrite Ek. cbn [k_upu k_dnu].
  pose proof (side_ok adj order ranks nodes c HK madj up0 dn0 s cu HR S L F) as SO. pose proof (SO true) as SF. pose proof (SO false) as SB. cbn [g_m g_w] in SF, SB.
  pose proof (low adj order ranks nodes c HK madj up0 dn0 s cu HR S L F) as LO. pose proof (nodes_len _ _ _ _ _ HK) as NL.
  assert (Om : off nodes (length adj) = length (concat nodes)) by (rewrite <- NL; apply off_n).
  rewrite (rebuild_par_panics (length adj) (off nodes) (fun e => nth e (c_tail c) 0) (off nodes) (fun e => nth e (c_tail c) 0) _ _ _ _ _ _ SF SB (LO true) (LO false)); auto.
  - apply list_ext. intros e. rewrite Om. destruct (Nat.lt_ge_cases e (length (concat nodes))) as [Le|Le].
    + rewrite nth_error_map, (nth_error_nth' (seq 0 _) 0) by (rewrite seq_length; auto). rewrite seq_nth by auto. cbn. apply nth_error_nth_some. rewrite (co_taill _ _ _ _ _ HK). auto.
    + transitivity (@None nat); [|symmetry]; apply nth_error_None; rewrite ?map_length, ?seq_length, ?(co_taill _ _ _ _ _ HK); lia.
  - unfold one_chunk_each, cch_arcs in Hc. unfold chunk_size. rewrite Om. rewrite (co_head _ _ _ _ _ HK) in Hc. lia.
Qed.
Print Assumptions C29_parallel_rebuild_panics.

(** Six edges and one thread (4 closures): two edges per chunk, three chunks. *)
Theorem C29_works_for_every_thread_count_refuted :
  exists adj g order ranks c madj cu, valid_adj adj /\ fits_u32 adj /\ from_adjacency_lists adj = Some g /\ node_order (length adj) order ranks /\
  cch_contract g order ranks = Some c /\ metric_for adj c madj cu /\ customize_perfect_par (4 * 1) c cu = None /\ exists kp, customize_perfect c cu = Some kp.
Proof.
  destruct (from_adjacency_lists pf_adj) as [g|] eqn:Eg; [|vm_compute in Eg; discriminate].
  destruct (cch_contract g pf_order pf_order) as [c|] eqn:Ec; [|vm_compute in Eg; injection Eg as <-; vm_compute in Ec; discriminate].
  destruct (customize c g) as [cu|] eqn:Eu; [|vm_compute in Eg; injection Eg as <-; vm_compute in Ec; injection Ec as <-; vm_compute in Eu; discriminate].
  assert (V : valid_adj pf_adj) by (apply valid_check; vm_compute; reflexivity). assert (F : fits_u32 pf_adj) by (split; vm_compute; reflexivity).
  assert (O : node_order (length pf_adj) pf_order pf_order) by (apply order_check; vm_compute; reflexivity).
  assert (M : metric_for pf_adj c pf_adj cu) by (split; [reflexivity|exists g; auto]).
  exists pf_adj, g, pf_order, pf_order, c, pf_adj, cu. split; [exact V|]. split; [exact F|]. split; [exact Eg|]. split; [exact O|]. split; [exact Ec|]. split; [exact M|].
  apply (C29_parallel_rebuild_panics pf_adj g pf_order pf_order c V F Eg O Ec pf_adj cu 4 M); [lia|].
  vm_compute in Eg. injection Eg as <-. vm_compute in Ec. injection Ec as <-. vm_compute. lia.
Qed.
Print Assumptions C29_works_for_every_thread_count_refuted.

(** The lowest node is isolated: the rebuilt adjacency array is not the one of the sequential rebuild, and a query on it panics. *)
Definition iso_adj : list (list (nat * N)) := [[]; [(2, 1%N)]; [(1, 1%N); (3, 1%N)]; [(2, 1%N); (4, 1%N)]; [(3, 1%N); (5, 1%N)]; [(4, 1%N)]].
Definition iso_order : list nat := [0; 1; 2; 3; 4; 5].
Theorem C29_works_for_every_graph_refuted :
  exists adj g order ranks c madj cu kp kq, valid_adj adj /\ fits_u32 adj /\ from_adjacency_lists adj = Some g /\ node_order (length adj) order ranks /\
  cch_contract g order ranks = Some c /\ metric_for adj c madj cu /\ one_chunk_each (cch_arcs c) (4 * 1) /\
  customize_perfect c cu = Some kp /\ customize_perfect_par (4 * 1) c cu = Some kq /\ first_out (k_fw kp) <> first_out (k_fw kq) /\
  (exists sv, cs_distance (cs_new kp) 1 5 = Some (sv, Some 4%N)) /\ cs_distance (cs_new kq) 1 5 = None.
Proof.
  destruct (from_adjacency_lists iso_adj) as [g|] eqn:Eg; [|vm_compute in Eg; discriminate].
  destruct (cch_contract g iso_order iso_order) as [c|] eqn:Ec; [|vm_compute in Eg; injection Eg as <-; vm_compute in Ec; discriminate].
  destruct (customize c g) as [cu|] eqn:Eu; [|vm_compute in Eg; injection Eg as <-; vm_compute in Ec; injection Ec as <-; vm_compute in Eu; discriminate].
  assert (V : valid_adj iso_adj) by (apply valid_check; vm_compute; reflexivity). assert (F : fits_u32 iso_adj) by (split; vm_compute; reflexivity).
  assert (O : node_order (length iso_adj) iso_order iso_order) by (apply order_check; vm_compute; reflexivity).
  assert (M : metric_for iso_adj c iso_adj cu) by (split; [reflexivity|exists g; auto]).
  destruct (customize_perfect c cu) as [kp|] eqn:Ep; [|vm_compute in Eg; injection Eg as <-; vm_compute in Ec; injection Ec as <-; vm_compute in Eu; injection Eu as <-; vm_compute in Ep; discriminate].
  destruct (customize_perfect_par 4 c cu) as [kq|] eqn:Eq; [|vm_compute in Eg; injection Eg as <-; vm_compute in Ec; injection Ec as <-; vm_compute in Eu; injection Eu as <-; vm_compute in Eq; discriminate].
  exists iso_adj, g, iso_order, iso_order, c, iso_adj, cu, kp, kq. split; [exact V|]. split; [exact F|]. split; [exact Eg|]. split; [exact O|]. split; [exact Ec|]. split; [exact M|].
  vm_compute in Eg. injection Eg as <-. vm_compute in Ec. injection Ec as <-. vm_compute in Eu. injection Eu as <-. vm_compute in Ep. injection Ep as <-. vm_compute in Eq. injection Eq as <-.
  split; [vm_compute; lia|]. split; [vm_compute; reflexivity|]. split; [vm_compute; reflexivity|]. split; [vm_compute; discriminate|].
  split; [eexists; vm_compute; reflexivity|vm_compute; reflexivity].
Qed.
Print Assumptions C29_works_for_every_graph_refuted.

(** Two directions with different edges, as in a directed CCH; node 0 has only a backward edge, which nobody removed. The
    parallel rebuild drops it. *)
Definition dir_fw : fograph N := mkFo [0; 0; 1; 2; 3; 4; 4] [2; 3; 4; 5] [1; 1; 1; 1]%N.
Definition dir_bw : fograph N := mkFo [0; 1; 1; 1; 1; 1; 1] [1] [7]%N.
Theorem C29_works_for_directed_cchs_refuted :
  side_wf 6 dir_fw [false; false; false; false] [no_unp; no_unp; no_unp; no_unp] /\ side_wf 6 dir_bw [false] [no_unp] /\
  (exists r, rebuild_seq dir_fw dir_bw [false; false; false; false] [false] [no_unp; no_unp; no_unp; no_unp] [no_unp] = Some r /\ x_head (snd r) = [1]) /\
  exists r, rebuild_par (4 * 1) [1; 2; 3; 4] dir_fw dir_bw [false; false; false; false] [false] [no_unp; no_unp; no_unp; no_unp] [no_unp] = Some r /\ x_head (snd r) = [].
Proof.
  assert (I6 : forall P : nat -> Prop, P 0 -> P 1 -> P 2 -> P 3 -> P 4 -> P 5 -> forall i, i < 6 -> P i). { intros P H0 H1 H2 H3 H4 H5 i Hi. do 6 (destruct i as [|i]; [assumption|]). lia. }
  split; [|split; [|split]].
  - split; [reflexivity|]. split; [reflexivity|]. split; [|repeat split; reflexivity]. apply I6; vm_compute; lia.
  - split; [reflexivity|]. split; [reflexivity|]. split; [|repeat split; reflexivity]. apply I6; vm_compute; lia.
  - eexists. split; vm_compute; reflexivity.
  - eexists. split; vm_compute; reflexivity.
Qed.
Print Assumptions C29_works_for_directed_cchs_refuted.

(** a case in which the conditions hold, with removed edges: 7 edges of a CCH, 4 closures *)
Definition par_adj : list (list (nat * N)) := [[(1, 10%N); (2, 1%N)]; [(2, 4%N); (0, 3%N)]; [(1, 1%N); (3, 2%N)]; [(0, 1%N); (4, 5%N)]; [(3, 1%N)]].
Definition par_order : list nat := [0; 1; 2; 3; 4].
Example C29_nonvacuous :
  one_chunk_each 7 4 /\
  (g <- from_adjacency_lists par_adj ;; c <- cch_contract g par_order par_order ;; k <- customize c g ;; kp <- customize_perfect_par 4 c k ;;
   Some (length (c_head c), c_fo c, first_out (k_fw kp), head (k_fw kp), first_out (k_bw kp), head (k_bw kp), k_dnu kp)) =
  Some (7, [0; 3; 5; 6; 7; 7], [0; 1; 2; 3; 4; 4], [2; 2; 3; 4], [0; 2; 3; 4; 5; 5], [1; 3; 2; 3; 4], [no_unp; no_unp; no_unp; (Some 1, Some 0); no_unp]).
Proof. split; [vm_compute; lia|vm_compute; reflexivity]. Qed.
