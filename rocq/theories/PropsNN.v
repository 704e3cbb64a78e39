(** Statements about nearest neighbour queries. *)
From Coq Require Import Sorting.Sorted.
From Verif Require Import Base BitVec SpecGraph SpecCCH SpecNN Graph GraphIdProof ExTab CCH CCHTheory CCHContractProof CCHBuildProof Dijkstra CCHQuery CCHViewProof CCHServerProof PropsCCH CCHPot CCHPotProof SepTree SepTreeProof PropsPerfect NN NNProof.

(** ** C50: LazyRphastNearestNeighbor::query returns the k nearest targets. *)

(** the nodes in a query exist and it asks for at least one target *)
Definition nn_ok (n : nat) (q : nat * list nat * nat) : Prop := let '(source, targets, k) := q in source < n /\ (forall t, In t targets -> t < n) /\ 1 <= k.
Lemma lr_history_ok n arc order ranks OK : otm n arc order ranks OK -> forall qs p t0, OK p t0 -> Forall (nn_ok n) qs ->
  exists p' t, lr_history p qs = Some p' /\ OK p' t.
Proof.
  intros HO. induction qs as [|[[s ts] k] qs IH]; intros p t0 HP HQ. { exists p, t0. auto. }
  inversion HQ as [|? ? HQ1 HQ2]; subst. destruct HQ1 as (H1 & H2 & H3). unfold lr_history. cbn [foldM].
  destruct (lr_query_ok _ _ _ _ _ HO p t0 s ts k HP H1 H2 H3) as (p1 & res & E & HP1 & _). rewrite E. cbn [bind]. eapply IH; eauto.
Qed.

(** On the backward potential of any basic or perfect customization, after any queries: no panic, and the result is k nearest
    targets with their distances from the source. *)
Theorem C50_nearest_neighbours :
  forall adj g order ranks c, valid_adj adj -> fits_u32 adj -> from_adjacency_lists adj = Some g -> node_order (length adj) order ranks ->
  cch_contract g order ranks = Some c ->
  forall madj k, any_metric_for adj c madj k ->
  forall qs, Forall (nn_ok (length adj)) qs ->
  exists p, lr_history (pot_backward k) qs = Some p /\
  forall source targets j, nn_ok (length adj) (source, targets, j) ->
  exists p' res, lr_query p source targets j = Some (p', res) /\ nearest (adj_arc madj) source targets j res.
Proof.
  intros adj g order ranks c HV HF Hg HO E madj k Hm qs HQ.
  destruct (served_otm_bw _ _ _ _ _ (any_served _ _ _ _ _ _ _ HV HF Hg HO E Hm)) as (OK & HOK & HP).
  destruct (lr_history_ok _ _ _ _ _ HOK qs _ _ HP HQ) as (p & t & Ep & Hp). exists p. split; auto.
  intros s ts j (H1 & H2 & H3). destruct (lr_query_ok _ _ _ _ _ HOK p t s ts j Hp H1 H2 H3) as (p' & res & E1 & _ & X). eauto.
Qed.
Print Assumptions C50_nearest_neighbours.

(** On the forward potential the distances are those from the targets to the given node. *)
Theorem C50_nearest_neighbours_backwards :
  forall adj g order ranks c, valid_adj adj -> fits_u32 adj -> from_adjacency_lists adj = Some g -> node_order (length adj) order ranks ->
  cch_contract g order ranks = Some c ->
  forall madj k, any_metric_for adj c madj k ->
  forall qs, Forall (nn_ok (length adj)) qs ->
  exists p, lr_history (pot_forward k) qs = Some p /\
  forall node targets j, nn_ok (length adj) (node, targets, j) ->
  exists p' res, lr_query p node targets j = Some (p', res) /\ nearest (flip_arc (adj_arc madj)) node targets j res.
Proof.
  intros adj g order ranks c HV HF Hg HO E madj k Hm qs HQ.
  destruct (served_otm_fw _ _ _ _ _ (any_served _ _ _ _ _ _ _ HV HF Hg HO E Hm)) as (OK & HOK & HP).
  destruct (lr_history_ok _ _ _ _ _ HOK qs _ _ HP HQ) as (p & t & Ep & Hp). exists p. split; auto.
  intros s ts j (H1 & H2 & H3). destruct (lr_query_ok _ _ _ _ _ HOK p t s ts j Hp H1 H2 H3) as (p' & res & E1 & _ & X). eauto.
Qed.
Print Assumptions C50_nearest_neighbours_backwards.

(** Asking for no target panics as soon as one can be reached. *)
Theorem C50_no_target_asked_refuted :
  exists p, (g <- from_adjacency_lists cx_adj ;; c <- cch_contract g cx_order cx_ranks ;; k <- customize c g ;; Some (pot_backward k)) = Some p /\
  lr_query p 0 [0] 0 = None.
Proof.
  destruct (g <- from_adjacency_lists cx_adj ;; c <- cch_contract g cx_order cx_ranks ;; k <- customize c g ;; Some (pot_backward k)) as [p|] eqn:E; [|vm_compute in E; discriminate].
  exists p. split; auto. vm_compute in E. injection E as <-. vm_compute. reflexivity.
Qed.
Print Assumptions C50_no_target_asked_refuted.

Example C50_nonvacuous :
  valid_adj cx_adj /\ fits_u32 cx_adj /\ node_order (length cx_adj) cx_order cx_ranks /\ Forall (nn_ok (length cx_adj)) [(3, [1; 0; 4], 2); (0, [], 1)] /\ nn_ok (length cx_adj) (2, [0; 4; 1; 1; 3], 2) /\
  (g <- from_adjacency_lists cx_adj ;; c <- cch_contract g cx_order cx_ranks ;; mg <- from_adjacency_lists cx_madj ;; k <- customize c mg ;;
   p <- lr_history (pot_backward k) [(3, [1; 0; 4], 2); (0, [], 1)] ;; '(p, r) <- lr_query p 2 [0; 4; 1; 1; 3] 2 ;; '(_, r') <- lr_query p 2 [0; 4; 1; 1; 3] 9 ;; Some (r, r'))
  = Some ([(1%N, 4); (1%N, 3)], [(5%N, 1); (5%N, 1); (5%N, 0); (1%N, 4); (1%N, 3)]).
Proof.
  split; [apply valid_check; vm_compute; reflexivity|]. split; [split; vm_compute; reflexivity|]. split; [apply order_check; vm_compute; reflexivity|].
  split. { constructor; [|constructor; [|constructor]]; (split; [cbn; lia|split; [cbn; intros; intuition lia|lia]]). } split. { split; [cbn; lia|split; [cbn; intros; intuition lia|lia]]. }
  vm_compute. reflexivity.
Qed.

(** ** C42: SeparatorBasedNearestNeighbor *)

Lemma isort_perm l : Permutation (isort l) l.
Proof.
  assert (I : forall x l, Permutation (ins x l) (x :: l)). { intros x l0. induction l0 as [|z l0 IH]; cbn [ins]; auto. destruct (x <=? z); auto. rewrite IH. apply perm_swap. }
  induction l as [|x l IH]; cbn [isort]; auto. rewrite I, IH. auto.
Qed.
Lemma sep_select_ok n order ranks : node_order n order ranks -> forall targets, (forall t, In t targets -> t < n) -> exists ts, sep_select ranks targets = Some ts /\
  Permutation (map (nd order) ts) targets /\ (forall t, In t ts -> t < n) /\ (NoDup targets -> StronglySorted lt ts).
Proof.
  intros HO targets HT. assert (H : exists l, mapM (fun t => nth_error ranks t) targets = Some l /\ map (nd order) l = targets /\ forall t, In t l -> t < n).
  { destruct HO as (L1 & L2 & H1 & H2). induction targets as [|t targets IH]. { exists []. cbn. auto. }
    destruct IH as (l & E & M & B). { intros x Hx; apply HT; right; auto. } assert (Ht : t < n) by (apply HT; left; auto). cbn [mapM].
    destruct (nth_error ranks t) as [x|] eqn:Et. 2: { apply nth_error_None in Et. lia. } pose proof (H2 t x Et) as Ex. cbn [bind]. rewrite E. cbn [bind]. exists (x :: l). split; auto. cbn [map].
    split. { rewrite M. f_equal. apply nd_some; auto. } intros y [<-|Hy]; auto. apply nth_error_Some_lt in Ex. lia. }
  destruct H as (l & E & M & B). exists (isort l). unfold sep_select. rewrite E. split; auto. split. { rewrite <- M. apply Permutation_map, isort_perm. }
  split. { intros t Hin. apply B, (proj1 (isort_In l t)), Hin. }
  intros ND. assert (NDl : NoDup (isort l)). { rewrite (isort_perm l). rewrite <- M in ND. eapply NoDup_map_inv; eauto. }
  pose proof (isort_sorted l) as HS. clear -NDl HS. induction HS as [|x l' HS IH HF]; constructor. { apply IH. inversion NDl; auto. }
  rewrite Forall_forall in *. intros y Hy. specialize (HF y Hy). assert (x <> y); [|lia]. intros ->. inversion NDl; auto.
Qed.
Lemma heads_lt adj order ranks nodes c : cch_ok adj order ranks nodes c -> forall x, In x (c_head c) -> x < length adj.
Proof.
  intros HK x Hx. rewrite (co_head _ _ _ _ _ HK) in Hx. apply in_concat in Hx. destruct Hx as (l & Hl & Hx). apply In_nth_error in Hl. destruct Hl as (r & Hr).
  apply (ch_up _ _ (co_chordal _ _ _ _ _ HK) r x). unfold nbh. rewrite (nth_error_nth _ _ _ Hr). auto.
Qed.
Lemma mapM_nodes order n h : (forall d t, In (d, t) h -> t < length order) -> n = length order ->
  mapM (fun '(d, t) => node <- nth_error order t ;; Some (d, node)) h = Some (map (fun '(d, t) => (d, nd order t)) h : list (N * nat)).
Proof.
  intros H _. induction h as [|[d t] h IH]; auto. cbn [mapM]. destruct (nth_error order t) as [u|] eqn:E. 2: { apply nth_error_None in E. specialize (H d t ltac:(left; auto)). lia. }
  cbn [bind]. rewrite IH by (intros; eapply H; right; eauto). cbn [bind map]. rewrite (nd_some order t u E). auto.
Qed.
Lemma sep_query_ok_sound n arc order ranks OK bs sort c tree p t0 targets ts s k p' res : otm n arc order ranks OK -> node_order n order ranks -> c_order c = order -> (forall x, In x (c_head c) -> x < n) ->
  OK p t0 -> s < n -> Permutation (map (nd order) ts) targets -> (forall t, In t ts -> t < n) -> sep_query bs sort c tree p ts s k = Some (p', res) ->
  OK p' (Some s) /\ forall d t, In (d, t) res -> In t targets /\ exact_answer arc s t (Some d).
Proof.
  intros HOK HO EO HC HP Hs PT HT E. unfold sep_query in E. destruct (sep_query_ranks bs sort c tree p ts s k) as [[p1 h]|] eqn:E1; cbn [bind] in E; [|discriminate].
  destruct (sep_query_sound _ _ _ _ _ HOK HO _ _ _ _ _ _ _ _ _ _ _ HP Hs HT HC E1) as [HP1 HS].
  rewrite EO in E. rewrite (mapM_nodes order (length order)) in E; auto. 2: { intros d t Hin. destruct (HS d t Hin) as [Ht _]. apply HT in Ht. destruct HO as (-> & _). auto. }
  cbn [bind] in E. injection E as <- <-. split; auto. intros d t Hin. apply in_map_iff in Hin. destruct Hin as ([d' t'] & Ei & Hin). injection Ei as -> <-. destruct (HS _ _ Hin) as [Ht X]. split; auto.
  rewrite <- PT. apply in_map; auto.
Qed.
Lemma sep_history_sound n arc order ranks OK bs sort c tree : otm n arc order ranks OK -> node_order n order ranks -> c_order c = order -> c_ranks c = ranks -> (forall x, In x (c_head c) -> x < n) ->
  forall qs p t0 p', OK p t0 -> (forall s ts k, In (s, ts, k) qs -> s < n /\ forall t, In t ts -> t < n) -> sep_history bs sort c tree p qs = Some p' -> exists t, OK p' t.
Proof.
  intros HOK HO EO ER HC. induction qs as [|[[s targets] k] qs IH]; intros p t0 p' HP HQ E. { injection E as <-. eauto. }
  unfold sep_history in E. cbn [foldM] in E. destruct (HQ s targets k ltac:(left; auto)) as (H1 & H2). destruct (sep_select_ok _ _ _ HO targets H2) as (ts & Es & PT & HT & _).
  rewrite ER, Es in E. cbn [bind] in E. destruct (sep_query bs sort c tree p ts s k) as [[p1 res]|] eqn:E1; cbn [bind] in E; [|discriminate].
  destruct (sep_query_ok_sound _ _ _ _ _ _ _ _ _ _ _ _ _ _ _ _ _ HOK HO EO HC HP H1 PT HT E1) as [HP1 _].
  eapply IH; [exact HP1| |]. { intros; apply (HQ s0 ts0 k0); right; auto. } unfold sep_history. rewrite ER. exact E.
Qed.

(** Whatever a query returns, after any queries, are targets with their exact distances from the source. The full claim, that
    these are the k nearest, is wrong (below). *)
Theorem C42_returned_targets_have_their_distance_partial :
  forall adj g order ranks c, valid_adj adj -> fits_u32 adj -> from_adjacency_lists adj = Some g -> node_order (length adj) order ranks ->
  cch_contract g order ranks = Some c ->
  forall madj k, any_metric_for adj c madj k ->
  forall bs sort tree qs p, (forall s ts j, In (s, ts, j) qs -> s < length adj /\ forall t, In t ts -> t < length adj) ->
  sep_history bs sort c tree (pot_backward k) qs = Some p ->
  forall source targets ts j p' res, source < length adj -> (forall t, In t targets -> t < length adj) ->
  sep_select ranks targets = Some ts -> sep_query bs sort c tree p ts source j = Some (p', res) ->
  forall d t, In (d, t) res -> In t targets /\ exact_answer (adj_arc madj) source t (Some d).
Proof.
  intros adj g order ranks c HV HF Hg HO E madj k Hm bs sort tree qs p HQ EH source targets ts j p' res Hs HT Es Eq.
  destruct (served_otm_bw _ _ _ _ _ (any_served _ _ _ _ _ _ _ HV HF Hg HO E Hm)) as (OK & HOK & HP). destruct (cch_contract_ok _ _ _ _ _ HV HF Hg HO E) as (nodes & HK).
  destruct (sep_history_sound _ _ _ _ _ bs sort c tree HOK HO (co_ord _ _ _ _ _ HK) (co_rks _ _ _ _ _ HK) (heads_lt _ _ _ _ _ HK) qs _ _ _ HP HQ EH) as (t1 & HP1).
  destruct (sep_select_ok _ _ _ HO targets HT) as (ts' & Es' & PT & HT' & _). rewrite Es in Es'. injection Es' as <-.
  apply (sep_query_ok_sound _ _ _ _ _ _ _ _ _ _ _ _ _ _ _ _ _ HOK HO (co_ord _ _ _ _ _ HK) (heads_lt _ _ _ _ _ HK) HP1 Hs PT HT' Eq).
Qed.
Print Assumptions C42_returned_targets_have_their_distance_partial.

(** With fewer than eight targets, or at most as many as asked for, the result is right. [bs_contract] is the contract of
    binary_search. *)
Theorem C42_few_targets_partial :
  forall adj g order ranks c, valid_adj adj -> fits_u32 adj -> from_adjacency_lists adj = Some g -> node_order (length adj) order ranks ->
  cch_contract g order ranks = Some c ->
  forall madj k, any_metric_for adj c madj k ->
  forall bs sort tree qs p, bs_contract bs -> sep_new (c_elim c) = Some tree ->
  (forall s ts j, In (s, ts, j) qs -> s < length adj /\ forall t, In t ts -> t < length adj) ->
  sep_history bs sort c tree (pot_backward k) qs = Some p ->
  forall source targets j, nn_ok (length adj) (source, targets, j) -> NoDup targets -> length targets <= j \/ length targets < 8 ->
  exists ts p' res, sep_select ranks targets = Some ts /\ sep_query bs sort c tree p ts source j = Some (p', res) /\ nearest (adj_arc madj) source targets j res.
Proof.
  intros adj g order ranks c HV HF Hg HO E madj k Hm bs sort tree qs p HB ET HQ EH source targets j (Hs & HT & Hj) ND HL.
  destruct (served_otm_bw _ _ _ _ _ (any_served _ _ _ _ _ _ _ HV HF Hg HO E Hm)) as (OK & HOK & HP). destruct (cch_contract_ok _ _ _ _ _ HV HF Hg HO E) as (nodes & HK).
  destruct (sep_history_sound _ _ _ _ _ bs sort c tree HOK HO (co_ord _ _ _ _ _ HK) (co_rks _ _ _ _ _ HK) (heads_lt _ _ _ _ _ HK) qs _ _ _ HP HQ EH) as (t1 & HP1).
  destruct (sep_select_ok _ _ _ HO targets HT) as (ts & Es & PT & HT' & HS). specialize (HS ND). assert (LT : length ts = length targets) by (rewrite <- (Permutation_length PT), map_length; auto).
  assert (TR : exists subs, tree = Sep sn_new subs (length adj)).
  { unfold sep_new in ET. destruct (child_lists (c_elim c)) as [[ch roots]|]; cbn [bind] in ET; [|discriminate]. destruct (mapM _ roots) as [subs|]; cbn [bind] in ET; [|discriminate].
    unfold guard in ET. destruct (Nat.eqb_spec (total subs) (length (c_elim c))) as [EE|]; cbn [bind] in ET; [|discriminate]. injection ET as <-. exists subs. rewrite EE, (co_eliml _ _ _ _ _ HK). auto. }
  destruct TR as (subs & ->).
  destruct (sep_few _ _ _ _ _ HOK HO bs sort c p t1 ts source j subs HP1 Hs HT' HB HS Hj ltac:(lia)) as (p' & h & ans & rest & E1 & _ & HF2 & P & L & B).
  assert (HB' : forall d t, In (d, t) h -> t < length order).
  { intros d t Hin. assert (Hr : In (d, t) (reached ts ans)) by (apply (Permutation_in _ (Permutation_sym P)), in_or_app; auto). apply reached_In in Hr. apply in_combine_l, HT' in Hr. destruct HO as (-> & _). auto. }
  exists ts, p', (map (fun '(d, t) => (d, nd order t)) h). split; auto. split. { unfold sep_query. rewrite E1. cbn [bind]. rewrite (co_ord _ _ _ _ _ HK), (mapM_nodes order (length order)); auto. }
  eapply nearest_perm; [exact PT|reflexivity|]. exists ans, (map (fun '(d, t) => (d, nd order t)) rest). pose proof (reached_map order ts ans (F2_length _ _ _ HF2)) as RM.
  split. { clear -HF2. induction HF2; constructor; auto. } rewrite RM. split. { rewrite <- map_app. apply Permutation_map. auto. } split. { rewrite !map_length. auto. }
  intros x y Hx Hy. apply in_map_iff in Hx, Hy. destruct Hx as ([d1 t1'] & <- & Hx). destruct Hy as ([d2 t2'] & <- & Hy). apply (B _ _ Hx Hy).
Qed.
Print Assumptions C42_few_targets_partial.

(** A source 0 and a target 1 next to it, both in a cell below the separator node 2, which is a target ten away; six more targets
    are far away on the other side. The cell of the source gets the distance to its boundary, 10, as lower bound, and is skipped
    as soon as the separator node has been found: asked for the nearest target, the code answers node 2 at distance 10, although
    node 1 is at distance 1. *)
Definition nx_adj : list (list (nat * N)) :=
  [[(1, 1%N); (2, 10%N)]; [(0, 1%N)]; [(0, 10%N); (3, 100%N); (4, 100%N); (5, 100%N); (6, 100%N); (7, 100%N); (8, 100%N)]; [(2, 100%N)]; [(2, 100%N)]; [(2, 100%N)]; [(2, 100%N)]; [(2, 100%N)]; [(2, 100%N)]].
Definition nx_order : list nat := [1; 0; 3; 4; 5; 6; 7; 8; 2].
Definition nx_ranks : list nat := [1; 0; 8; 2; 3; 4; 5; 6; 7].
Definition nx_targets : list nat := [1; 2; 3; 4; 5; 6; 7; 8].
(** descending by key *)
Fixpoint kins (x : N * septree) (l : list (N * septree)) : list (N * septree) :=
  match l with [] => [x] | y :: r => if (fst y <=? fst x)%N then x :: l else y :: kins x r end.
Definition ksort (l : list (N * septree)) : list (N * septree) := fold_right kins [] l.
Lemma ksort_ok l : Permutation (ksort l) l /\ StronglySorted (fun a b => (fst b <= fst a)%N) (ksort l).
Proof.
  assert (P : forall x l, Permutation (kins x l) (x :: l)). { intros x l0. induction l0 as [|y l0 IH]; cbn [kins]; auto. destruct (fst y <=? fst x)%N; auto. rewrite IH. apply perm_swap. }
  induction l as [|x l [IHP IHS]]; cbn. { split; constructor. } split. { rewrite P. constructor. exact IHP. }
  fold (ksort l). generalize dependent (ksort l). intros l' _ HS. induction HS as [|y l' HS IH HF]; cbn [kins]. { repeat constructor. }
  rewrite Forall_forall in HF. destruct (N.leb_spec (fst y) (fst x)).
  - constructor. { constructor; auto. apply Forall_forall; auto. } apply Forall_forall. intros z [<-|Hz]; auto. specialize (HF z Hz). lia.
  - constructor; auto. apply Forall_forall. intros z Hz. apply (Permutation_in _ (P _ _)) in Hz. destruct Hz as [<-|Hz]; auto. lia.
Qed.
Theorem C42_nearest_target_missed_refuted :
  exists g c k tree ts p' res, valid_adj nx_adj /\ fits_u32 nx_adj /\ from_adjacency_lists nx_adj = Some g /\ node_order (length nx_adj) nx_order nx_ranks /\
  cch_contract g nx_order nx_ranks = Some c /\ customize c g = Some k /\ sep_new (c_elim c) = Some tree /\ validate tree = Some tt /\
  sep_select nx_ranks nx_targets = Some ts /\ sep_query binary_search ksort c tree (pot_backward k) ts 0 1 = Some (p', res) /\
  res = [(10%N, 2)] /\ In 1 nx_targets /\ walk (adj_arc nx_adj) 0 1 1 /\ ~ nearest (adj_arc nx_adj) 0 nx_targets 1 res.
Proof.
  destruct (g <- from_adjacency_lists nx_adj ;; c <- cch_contract g nx_order nx_ranks ;; k <- customize c g ;; tree <- sep_new (c_elim c) ;; _ <- validate tree ;; ts <- sep_select nx_ranks nx_targets ;;
    '(p', res) <- sep_query binary_search ksort c tree (pot_backward k) ts 0 1 ;; Some res) as [res0|] eqn:E; [|vm_compute in E; discriminate].
  assert (Er : Some res0 = Some [(10%N, 2)]) by (rewrite <- E; vm_compute; reflexivity). injection Er as ->.
  destruct (from_adjacency_lists nx_adj) as [g|] eqn:Eg; cbn [bind] in E; [|discriminate]. destruct (cch_contract g nx_order nx_ranks) as [c|] eqn:Ec; cbn [bind] in E; [|discriminate].
  destruct (customize c g) as [k|] eqn:Ek; cbn [bind] in E; [|discriminate]. destruct (sep_new (c_elim c)) as [tree|] eqn:Et; cbn [bind] in E; [|discriminate].
  destruct (validate tree) as [[]|] eqn:Ev; cbn [bind] in E; [|discriminate]. destruct (sep_select nx_ranks nx_targets) as [ts|] eqn:Es; cbn [bind] in E; [|discriminate].
  destruct (sep_query binary_search ksort c tree (pot_backward k) ts 0 1) as [[p' res]|] eqn:Eq; cbn [bind] in E; [|discriminate]. injection E as ->.
  exists g, c, k, tree, ts, p', [(10%N, 2)]. split; [apply valid_check; vm_compute; reflexivity|]. split; [split; vm_compute; reflexivity|]. split; [auto|]. split; [apply order_check; vm_compute; reflexivity|].
  split; [auto|]. split; [auto|]. split; [auto|]. split; [auto|]. split; [auto|]. split; [auto|]. split; [auto|].
  split; [left; auto|]. assert (W : walk (adj_arc nx_adj) 0 1 1). { change 1%N with (1 + 0)%N. econstructor; [|constructor]. cbn. auto. } split; [exact W|].
  intros (ans & rest & HF & P & _ & B). inversion HF as [|? r1 ? ? H1 HF1]; subst. destruct r1 as [d|].
  - destruct H1 as (_ & _ & H1). assert (d <= 1)%N by (apply H1; auto). assert (In (d, 1) ([(10%N, 2)] ++ rest)). { apply (Permutation_in _ P). cbn. left. auto. }
    destruct H0 as [H0|H0]; [injection H0 as <-; lia|]. specialize (B (10%N, 2) (d, 1) ltac:(left; auto) H0). cbn in B. lia.
  - specialize (H1 _ W). unfold INF in H1. lia.
Qed.
Print Assumptions C42_nearest_target_missed_refuted.

Example C42_nonvacuous :
  NoDup [1; 8; 2; 5; 0] /\
  (g <- from_adjacency_lists nx_adj ;; c <- cch_contract g nx_order nx_ranks ;; k <- customize c g ;; tree <- sep_new (c_elim c) ;;
   p <- sep_history binary_search ksort c tree (pot_backward k) [(3, nx_targets, 3); (0, [4; 2], 2)] ;;
   ts <- sep_select nx_ranks [1; 8; 2; 5; 0] ;; '(_, r) <- sep_query binary_search ksort c tree p ts 8 3 ;; ts' <- sep_select nx_ranks nx_targets ;; '(_, r') <- sep_query binary_search ksort c tree p ts' 8 3 ;; Some (ts, r, r'))
  = Some ([0; 1; 4; 7; 8], [(110%N, 0); (100%N, 2); (0%N, 8)], [(111%N, 1); (100%N, 2); (0%N, 8)]).
Proof. split; [repeat constructor; cbn; intuition lia|]. vm_compute. reflexivity. Qed.
