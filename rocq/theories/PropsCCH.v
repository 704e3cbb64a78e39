(** Statements about customizable contraction hierarchies. *)
From Verif Require Import Base SpecGraph SpecCCH BitVec Graph ExTab CCH CCHTheory CCHContractProof CCHBuildProof CCHCustProof CCHMetricProof
  Dijkstra CCHQuery CCHQueryProof CCHPathTheory CCHPathProof CCHViewProof CCHServerProof.

(** ** C23: preprocessing. Ranks are the node numbers of the CCH; [order] lists the nodes by rank. *)

(** edge [e] of the CCH leads from [x] up to [y], as the public accessors (first_out, head) report it *)
Definition cch_edge (c : cch) (e x y : nat) : Prop :=
  exists a b, cch_range c x = Some (a, b) /\ a <= e < b /\ nth_error (c_head c) e = Some y.
Definition cch_up (c : cch) (x y : nat) : Prop := exists e, cch_edge c e x y.

Lemma cch_edge_iff adj order ranks nodes c e x y : cch_ok adj order ranks nodes c -> (cch_edge c e x y <-> edge nodes e x y).
Proof.
  intros H. split.
  - intros (a & b & Hr & He & Hh). pose proof (ch_len _ _ (co_chordal _ _ _ _ _ H)) as Ln.
    assert (Hx : x < length adj).
    { unfold cch_range in Hr. destruct (nth_error (c_fo c) (x + 1)) eqn:E. 2: { destruct (nth_error (c_fo c) x); discriminate. }
      apply nth_error_Some_lt in E. rewrite (co_fol _ _ _ _ _ H) in E. lia. }
    unfold cch_range in Hr. rewrite !(co_fo _ _ _ _ _ H) in Hr by lia. cbn in Hr. injection Hr as <- <-.
    destruct (range_edge nodes x e) as (y' & He'); [rewrite Ln; auto|lia|].
    rewrite (co_head _ _ _ _ _ H), (edge_head _ _ _ _ He') in Hh. injection Hh as <-. auto.
  - intros He. pose proof (edge_tail_lt _ _ _ _ He) as Hx. rewrite (ch_len _ _ (co_chordal _ _ _ _ _ H)) in Hx.
    exists (off nodes x), (off nodes (x + 1)). split.
    { unfold cch_range. rewrite !(co_fo _ _ _ _ _ H) by lia. reflexivity. }
    split. { eapply edge_range; eauto. } rewrite (co_head _ _ _ _ _ H). eapply edge_head; eauto.
Qed.
Lemma cch_up_iff adj order ranks nodes c x y : cch_ok adj order ranks nodes c -> (cch_up c x y <-> In y (nbh nodes x)).
Proof.
  intros H. split.
  - intros (e & He). apply (cch_edge_iff _ _ _ _ _ _ _ _ H) in He. eapply edge_In; eauto.
  - intros Hy. destruct (In_edge _ _ _ Hy) as (e & He). exists e. apply (cch_edge_iff _ _ _ _ _ _ _ _ H). auto.
Qed.

Theorem C23_cch_is_chordal_supergraph :
  forall adj g order ranks c, valid_adj adj -> fits_u32 adj -> from_adjacency_lists adj = Some g -> node_order (length adj) order ranks ->
  cch_contract g order ranks = Some c ->
  cch_nodes c = length adj /\
  (forall x y, cch_up c x y -> x < y /\ y < length adj) /\
  (* adjacency lists strictly ascending *)
  (forall x, x < length adj -> exists a b hs, cch_range c x = Some (a, b) /\ slice (c_head c) a b = Some hs /\ ascending_list hs) /\
  (* supergraph of the input, closed under lower triangles, and exactly as large as the low paths require *)
  (forall x y, touching adj order x y -> x <> y -> cch_up c x y \/ cch_up c y x) /\
  (forall z x y, cch_up c z x -> cch_up c z y -> x < y -> cch_up c x y) /\
  (forall x y, x < y -> (cch_up c x y <-> low_path (touching adj order) x x y)).
Proof.
  intros adj g order ranks c HV HF Hg HO E. destruct (cch_contract_ok _ _ _ _ _ HV HF Hg HO E) as (nodes & H).
  pose proof (co_chordal _ _ _ _ _ H) as HC.
  split. { unfold cch_nodes. rewrite (co_fol _ _ _ _ _ H). lia. }
  split. { intros x y Hu. apply (cch_up_iff _ _ _ _ _ _ _ H) in Hu. apply (ch_up _ _ HC) in Hu. auto. }
  split. { intros x Hx. exists (off nodes x), (off nodes (x + 1)), (nbh nodes x). split. { unfold cch_range. rewrite !(co_fo _ _ _ _ _ H) by lia. reflexivity. }
    split. { rewrite (co_head _ _ _ _ _ H). apply nbh_slice. rewrite (ch_len _ _ HC). auto. } apply HC. }
  split. { intros x y T Ne. rewrite !(cch_up_iff _ _ _ _ _ _ _ H). apply (co_sup _ _ _ _ _ H); auto. }
  split. { intros z x y. rewrite !(cch_up_iff _ _ _ _ _ _ _ H). apply HC. }
  intros x y L. rewrite (cch_up_iff _ _ _ _ _ _ _ H). split. { apply (co_low _ _ _ _ _ H). }
  intros HP. destruct (chordal_low _ _ (touching adj order) x y HC (co_sup _ _ _ _ _ H)) as [K|K]; auto; [lia|rewrite Nat.min_l by lia; auto|].
  apply (ch_up _ _ HC) in K. lia.
Qed.
Print Assumptions C23_cch_is_chordal_supergraph.

(** The elimination tree: the parent of a node is its lowest upward neighbour, and all upward neighbours are ancestors. *)
Theorem C23_elimination_tree :
  forall adj g order ranks c, valid_adj adj -> fits_u32 adj -> from_adjacency_lists adj = Some g -> node_order (length adj) order ranks ->
  cch_contract g order ranks = Some c ->
  length (c_elim c) = length adj /\
  (forall x p, nth_error (c_elim c) x = Some (Some p) -> cch_up c x p /\ forall y, cch_up c x y -> p <= y) /\
  (forall x, nth_error (c_elim c) x = Some None -> forall y, ~ cch_up c x y) /\
  (forall x y, cch_up c x y -> ancestor (c_elim c) x y).
Proof.
  intros adj g order ranks c HV HF Hg HO E. destruct (cch_contract_ok _ _ _ _ _ HV HF Hg HO E) as (nodes & H).
  pose proof (co_chordal _ _ _ _ _ H) as HC. pose proof (co_eliml _ _ _ _ _ H) as Le.
  split; auto. split.
  { intros x p Hp. pose proof (nth_error_Some_lt _ _ _ Hp) as Hx. rewrite Le in Hx. rewrite (co_elim _ _ _ _ _ H x Hx) in Hp. injection Hp as Hp.
    pose proof (ch_asc _ _ HC x) as Ha. rewrite (cch_up_iff _ _ _ _ _ _ _ H). split. { destruct (nbh nodes x); [discriminate|injection Hp as ->; left; auto]. }
    intros y Hy. rewrite (cch_up_iff _ _ _ _ _ _ _ H) in Hy. destruct (nbh nodes x) as [|q l]; [discriminate|]. injection Hp as ->.
    destruct Hy as [->|Hy]; auto. apply ss_inv in Ha. apply Nat.lt_le_incl, Ha; auto. }
  split.
  { intros x Hp y Hy. pose proof (nth_error_Some_lt _ _ _ Hp) as Hx. rewrite Le in Hx. rewrite (co_elim _ _ _ _ _ H x Hx) in Hp. injection Hp as Hp.
    rewrite (cch_up_iff _ _ _ _ _ _ _ H) in Hy. destruct (nbh nodes x); [destruct Hy|discriminate]. }
  intros x y Hy. rewrite (cch_up_iff _ _ _ _ _ _ _ H) in Hy. eapply nbh_ancestor; eauto. apply (co_elim _ _ _ _ _ H).
Qed.
Print Assumptions C23_elimination_tree.

(** Edge tails and the original arcs recorded for each CCH edge, in both directions. *)
Theorem C23_edges_know_their_arcs :
  forall adj g order ranks c, valid_adj adj -> fits_u32 adj -> from_adjacency_lists adj = Some g -> node_order (length adj) order ranks ->
  cch_contract g order ranks = Some c ->
  c_order c = order /\ c_ranks c = ranks /\
  forall e x y, cch_edge c e x y -> nth_error (c_tail c) e = Some x /\
    exists u v fw bw, nth_error order x = Some u /\ nth_error order y = Some v /\
      nth_error (c_fw_orig c) e = Some fw /\ nth_error (c_bw_orig c) e = Some bw /\
      (forall i, In i fw <-> exists w, adj_edge adj u i v w) /\
      (forall i, In i bw <-> exists w, adj_edge adj v i u w).
Proof.
  intros adj g order ranks c HV HF Hg HO E. destruct (cch_contract_ok _ _ _ _ _ HV HF Hg HO E) as (nodes & H).
  split. { apply (co_ord _ _ _ _ _ H). } split. { apply (co_rks _ _ _ _ _ H). }
  intros e x y He. apply (cch_edge_iff _ _ _ _ _ _ _ _ H) in He. split. { apply (co_tail _ _ _ _ _ H _ _ _ He). }
  destruct (co_fw _ _ _ _ _ H _ _ _ He) as (u & v & fw & Eu & Ev & Ef & Hf). destruct (co_bw _ _ _ _ _ H _ _ _ He) as (u' & v' & bw & Eu' & Ev' & Eb & Hb).
  rewrite Eu in Eu'. rewrite Ev in Ev'. injection Eu' as <-. injection Ev' as <-. exists u, v, fw, bw. auto 7.
Qed.
Print Assumptions C23_edges_know_their_arcs.

(** Preprocessing succeeds unless the number of edges it has to create exceeds the 32 bit ids. *)
Theorem C23_preprocessing_total :
  forall adj g order ranks (pairs : list (nat * nat)), valid_adj adj -> fits_u32 adj -> from_adjacency_lists adj = Some g -> node_order (length adj) order ranks ->
  (forall x y, x < y -> low_path (touching adj order) x x y -> In (x, y) pairs) -> (N.of_nat (length pairs) < U32MAX)%N ->
  exists c, cch_contract g order ranks = Some c.
Proof.
  intros adj g order ranks pairs HV HF Hg HO HP Hl.
  destruct (cch_contract_total _ _ _ _ HV HF Hg HO) as (nodes & HC & _ & HL & T). destruct T as (c & E & _); eauto.
  assert (K : length (concat nodes) <= length pairs). { eapply edges_le; eauto. intros x y Hy. apply HP; auto. apply (ch_up _ _ HC) in Hy. tauto. } lia.
Qed.
Print Assumptions C23_preprocessing_total.

(** A graph with a loop, parallel arcs, a one way street and fill-in edges. *)
Definition cx_adj : list (list (nat * N)) := [[(1, 3%N); (2, 7%N); (0, 1%N)]; [(3, 2%N); (3, 5%N)]; [(4, 1%N)]; [(0, 4%N)]; [(3, 9%N); (2, 0%N)]].
Definition cx_order : list nat := [0; 3; 1; 4; 2].
Definition cx_ranks : list nat := [0; 2; 4; 1; 3].
Lemma order_check n order ranks :
  (length order =? n) && (length ranks =? n) &&
  forallb (fun r => match nth_error order r with Some u => match nth_error ranks u with Some r' => r' =? r | None => false end | None => false end) (seq 0 n) &&
  forallb (fun u => match nth_error ranks u with Some r => match nth_error order r with Some u' => u' =? u | None => false end | None => false end) (seq 0 n) = true ->
  node_order n order ranks.
Proof.
  rewrite !Bool.andb_true_iff, !Nat.eqb_eq, !forallb_forall. intros [[[L1 L2] H1] H2]. split; auto. split; auto. split.
  - intros r u E. specialize (H1 r). rewrite E in H1. destruct (nth_error ranks u) as [r'|]. 2: { discriminate H1. apply in_seq. apply nth_error_Some_lt in E. lia. }
    f_equal. apply Nat.eqb_eq, H1. apply in_seq. apply nth_error_Some_lt in E. lia.
  - intros r u E. specialize (H2 r). rewrite E in H2. destruct (nth_error order u) as [r'|]. 2: { discriminate H2. apply in_seq. apply nth_error_Some_lt in E. lia. }
    f_equal. apply Nat.eqb_eq, H2. apply in_seq. apply nth_error_Some_lt in E. lia.
Qed.
Lemma valid_check adj : forallb (forallb (fun a : nat * N => fst a <? length adj)) adj = true -> valid_adj adj.
Proof. intros H l v w Hl Hv. rewrite forallb_forall in H. specialize (H l Hl). rewrite forallb_forall in H. specialize (H _ Hv). apply Nat.ltb_lt in H. auto. Qed.
Example C23_nonvacuous :
  valid_adj cx_adj /\ fits_u32 cx_adj /\ node_order (length cx_adj) cx_order cx_ranks /\
  (g <- from_adjacency_lists cx_adj ;; c <- cch_contract g cx_order cx_ranks ;; Some (c_fo c, c_head c, c_tail c, c_elim c)) =
    Some ([0; 3; 6; 8; 9; 9], [1; 2; 4; 2; 3; 4; 3; 4; 4], [0; 0; 0; 1; 1; 1; 2; 2; 3], [Some 1; Some 2; Some 3; Some 4; None]).
Proof.
  split; [apply valid_check; vm_compute; reflexivity|]. split; [split; vm_compute; reflexivity|]. split; [apply order_check; vm_compute; reflexivity|].
  vm_compute. reflexivity.
Qed.

(** ** C24: customization. [madj] is any other weighting of the same graph (the metric), weights at most [INF]. *)

(** [k_fw] holds the weights of the edges upwards, [k_bw] those of the edges walked downwards (stored as upward arcs). *)
Theorem C24_customized_weights :
  forall adj g order ranks c madj metric, valid_adj adj -> fits_u32 adj -> from_adjacency_lists adj = Some g -> node_order (length adj) order ranks ->
  cch_contract g order ranks = Some c -> same_topology adj madj -> weights_ok madj -> from_adjacency_lists madj = Some metric ->
  exists k, customize c metric = Some k /\
  let fw := garc (link_iter (k_fw k)) in let bw := garc (link_iter (k_bw k)) in
  (* the customized graphs have the edges of the CCH, each with one weight *)
  (forall x y, ((exists w, fw x y w) <-> cch_up c x y) /\ ((exists w, bw x y w) <-> cch_up c x y)) /\
  (forall x y w w', (fw x y w -> fw x y w' -> w = w') /\ (bw x y w -> bw x y w' -> w = w')) /\
  (* at most the weight of every original arc they represent *)
  (forall x y u v w w', nth_error order x = Some u -> nth_error order y = Some v -> adj_arc madj u v w ->
     (fw x y w' -> (w' <= w)%N) /\ (bw y x w' -> (w' <= w)%N)) /\
  (* lower triangle inequality: from x down to z and up to y *)
  (forall z x y w1 w2 w, bw z x w1 -> fw z y w2 -> (fw x y w -> (w <= w1 + w2)%N) /\ (bw y x w -> (w <= w1 + w2)%N)) /\
  (* the length of a real walk, or infinite *)
  (forall x y u v w, nth_error order x = Some u -> nth_error order y = Some v ->
     (fw x y w -> (w <= INF)%N /\ ((w < INF)%N -> walk (adj_arc madj) u v w)) /\
     (bw x y w -> (w <= INF)%N /\ ((w < INF)%N -> walk (adj_arc madj) v u w))).
Proof.
  intros adj g order ranks c madj metric HV HF Hg HO E HT HW Hm. destruct (cch_contract_ok _ _ _ _ _ HV HF Hg HO E) as (nodes & HK).
  destruct (customize_ok adj order ranks nodes c HK madj metric HT (topo_valid _ _ HT HV) (topo_fits _ _ HT HF) Hm) as (up0 & dn0 & s & k & Ek & HR).
  exists k. split; [exact Ek|]. pose proof (cr_ok _ _ _ _ _ _ _ _ _ _ HR) as HS. pose proof (ch_up _ _ (co_chordal _ _ _ _ _ HK)) as HU.
  pose proof (fw_arc _ _ _ _ _ HK _ _ _ _ _ HR) as FW. pose proof (bw_arc _ _ _ _ _ HK _ _ _ _ _ HR) as BW. cbn zeta.
  split. { intros x y. rewrite !(cch_up_iff _ _ _ _ _ _ _ HK). split; (split; [intros (w & H)|intros H]).
    - apply FW in H. destruct H as [L H]. destruct (proj1 (carc_cadj _ _ _ _ _ HK s x y) (ex_intro _ w H)) as [K|K]; auto. apply HU in K. lia.
    - destruct (proj2 (carc_cadj _ _ _ _ _ HK s x y) (or_introl H)) as (w & Hw). exists w. apply FW. split; auto. apply HU in H. lia.
    - apply BW in H. destruct H as [L H]. destruct (proj1 (carc_cadj _ _ _ _ _ HK s y x) (ex_intro _ w H)) as [K|K]; auto. apply HU in K. lia.
    - destruct (proj2 (carc_cadj _ _ _ _ _ HK s y x) (or_intror H)) as (w & Hw). exists w. apply BW. split; auto. apply HU in H. lia. }
  split. { intros x y w w'. rewrite !FW, !BW. split; intros [_ H] [_ H']; eapply carc_fun; eauto. }
  split. { intros x y u v w w' Eu Ev Ha. rewrite FW, BW. split; intros [L H];
    (destruct (cr_le _ _ _ _ _ _ _ _ _ _ HR x y u v w ltac:(lia) Eu Ev Ha) as (w0 & Hi & L0)); pose proof (carc_init _ _ _ _ _ HK _ _ _ HS _ _ _ _ H Hi); lia. }
  split. { intros z x y w1 w2 w. rewrite !FW, !BW. intros [L1 H1] [L2 H2]. split; intros [L H];
    (destruct (proj2 (carc_tri _ _ _ _ _ HK _ _ _ HS) x z y w1 w2) as (w' & H' & L'); try assumption; try lia); rewrite (carc_fun _ _ _ _ _ HK _ _ _ _ _ H H'); auto. }
  intros x y u v w Eu Ev. rewrite FW, BW. split; intros [L H]; (split; [eapply carc_small; eauto|]); intros Hw.
  - apply (carc_walk _ _ _ _ _ HK _ _ _ _ _ HR (S (Nat.min x y)) x y); try assumption; lia.
  - apply (carc_walk _ _ _ _ _ HK _ _ _ _ _ HR (S (Nat.min x y)) y x); try assumption; lia.
Qed.
Print Assumptions C24_customized_weights.

(** The best way up in one graph and up in the other has exactly the distance of the input graph. *)
Definition best_meet (fw bw : nat -> nat -> N -> Prop) (x y : nat) (r : option N) : Prop :=
  match r with
  | Some d => (d < INF)%N /\ meets fw bw x y d /\ forall l, meets fw bw x y l -> (d <= l)%N
  | None => forall l, meets fw bw x y l -> (INF <= l)%N
  end.
Theorem C24_customization_preserves_distances :
  forall adj g order ranks c madj metric k, valid_adj adj -> fits_u32 adj -> from_adjacency_lists adj = Some g -> node_order (length adj) order ranks ->
  cch_contract g order ranks = Some c -> same_topology adj madj -> weights_ok madj -> from_adjacency_lists madj = Some metric ->
  customize c metric = Some k ->
  forall x y u v r, nth_error order x = Some u -> nth_error order y = Some v ->
  (best_meet (garc (link_iter (k_fw k))) (garc (link_iter (k_bw k))) x y r <-> exact_answer (adj_arc madj) u v r).
Proof.
  intros adj g order ranks c madj metric k HV HF Hg HO E HT HW Hm Ek x y u v r Eu Ev. destruct (cch_contract_ok _ _ _ _ _ HV HF Hg HO E) as (nodes & HK).
  destruct (customize_ok adj order ranks nodes c HK madj metric HT (topo_valid _ _ HT HV) (topo_fits _ _ HT HF) Hm) as (up0 & dn0 & s & k' & Ek' & HR).
  rewrite Ek in Ek'. injection Ek' as <-.
  pose proof (fun l => walk_meets _ _ _ _ _ HK _ HT (topo_valid _ _ HT HV) _ _ _ _ HR u v l x y Eu Ev) as WM.
  pose proof (fun l => meets_walk _ _ _ _ _ HK _ _ _ _ _ HR u v l x y Eu Ev) as MW.
  destruct r as [d|]; cbn.
  - split.
    + intros (L & Hd & Hm'). split; auto. split; [auto|]. intros l Hl. destruct (WM l Hl) as (l' & H' & L'). specialize (Hm' _ H'). lia.
    + intros (L & Hd & Hm'). destruct (WM d Hd) as (l' & H' & L'). assert (Hl' : (l' < INF)%N) by lia. pose proof (Hm' _ (MW _ H' Hl')).
      assert (l' = d) by lia. subst l'. split; auto. split; auto. intros l Hl. destruct (N.lt_ge_cases l INF); [|lia]. apply Hm'. auto.
  - split.
    + intros H l Hl. destruct (WM l Hl) as (l' & H' & L'). specialize (H _ H'). lia.
    + intros H l Hl. destruct (N.lt_ge_cases l INF); auto.
Qed.
Print Assumptions C24_customization_preserves_distances.

(** another metric for [cx_adj], with a forbidden (infinite) arc and zero weights *)
Definition cx_madj : list (list (nat * N)) := [[(1, 0%N); (2, 9%N); (0, 1%N)]; [(3, 4%N); (3, 2%N)]; [(4, 1%N)]; [(0, 4%N)]; [(3, 0%N); (2, INF)]].
Lemma weights_check adj : forallb (forallb (fun a : nat * N => (snd a <=? INF)%N)) adj = true -> weights_ok adj.
Proof.
  intros H u v w Hin. unfold adj_arc in Hin. destruct (Nat.lt_ge_cases u (length adj)) as [Hu|Hu]; [|rewrite nth_overflow in Hin by auto; destruct Hin].
  rewrite forallb_forall in H. specialize (H _ (nth_In _ [] Hu)). rewrite forallb_forall in H. specialize (H _ Hin). apply N.leb_le in H. auto.
Qed.
Example C24_nonvacuous :
  same_topology cx_adj cx_madj /\ weights_ok cx_madj /\
  (g <- from_adjacency_lists cx_adj ;; c <- cch_contract g cx_order cx_ranks ;; mg <- from_adjacency_lists cx_madj ;; k <- customize c mg ;;
   Some (weight (k_fw k), weight (k_bw k), k_upu k)) =
    Some ([INF; 0; 9; 4; INF; 13; INF; 15; 13]%N, [4; INF; INF; 2; 0; INF; 4; INF; 1]%N,
     [no_unp; no_unp; no_unp; (Some 0, Some 1); no_unp; (Some 0, Some 2); no_unp; (Some 3, Some 5); (Some 4, Some 5)]).
Proof.
  split; [vm_compute; reflexivity|]. split; [apply weights_check; vm_compute; reflexivity|]. vm_compute. reflexivity.
Qed.


(** ** C25, C26: queries and paths after any history of one server. *)

(** [k] is what customization returns for the weights of [madj] *)
Definition metric_for (adj : list (list (nat * N))) (c : cch) (madj : list (list (nat * N))) (k : customized) : Prop :=
  same_topology adj madj /\ exists mg, from_adjacency_lists madj = Some mg /\ customize c mg = Some k.
Definition ops_ok (adj : list (list (nat * N))) (c : cch) (ops : list cs_op) : Prop :=
  forall op, In op ops -> match op with OpUpdate k => exists madj, metric_for adj c madj k | OpQuery from to _ => from < length adj /\ to < length adj end.
Lemma metric_result adj g order ranks c nodes madj k : valid_adj adj -> fits_u32 adj -> from_adjacency_lists adj = Some g -> node_order (length adj) order ranks ->
  cch_ok adj order ranks nodes c -> metric_for adj c madj k -> exists up0 dn0 s, valid_adj madj /\ cust_result adj order ranks nodes c madj up0 dn0 s k.
Proof.
  intros HV HF Hg HO HK (HT & mg & Hm & Ek).
  destruct (customize_ok adj order ranks nodes c HK madj mg HT (topo_valid _ _ HT HV) (topo_fits _ _ HT HF) Hm) as (up0 & dn0 & s & k' & Ek' & HR).
  rewrite Ek in Ek'. injection Ek' as <-. exists up0, dn0, s. split; [apply (topo_valid _ _ HT HV)|exact HR].
Qed.
Lemma metric_served adj g order ranks c madj k : valid_adj adj -> fits_u32 adj -> from_adjacency_lists adj = Some g -> node_order (length adj) order ranks ->
  cch_contract g order ranks = Some c -> metric_for adj c madj k -> served adj order ranks madj k.
Proof.
  intros HV HF Hg HO E Hm. destruct (cch_contract_ok _ _ _ _ _ HV HF Hg HO E) as (nodes & HK).
  destruct (metric_result _ _ _ _ _ _ _ _ HV HF Hg HO HK Hm) as (up0 & dn0 & s & HVm & HR). destruct Hm as (HT & _). do 3 eexists. eapply basic_view; eauto.
Qed.
Lemma history_ok adj g order ranks c : valid_adj adj -> fits_u32 adj -> from_adjacency_lists adj = Some g -> node_order (length adj) order ranks ->
  cch_contract g order ranks = Some c ->
  forall ops, ops_ok adj c ops -> forall k0, (exists madj, metric_for adj c madj k0) ->
  exists sv', cs_history (cs_new k0) ops = Some sv' /\ q_cust sv' = last_update k0 ops /\ sv_ok adj sv'.
Proof.
  intros HV HF Hg HO E ops Hops k0 (madj & Hk). pose proof (metric_served _ _ _ _ _ _ _ HV HF Hg HO E Hk) as Sk.
  apply (served_history adj order ranks ops) with (sv := cs_new k0).
  - intros op Hop. specialize (Hops op Hop). destruct op as [k|from to j]; [|exact Hops]. destruct Hops as (madj' & H). exists madj'. eapply metric_served; eauto.
  - exists madj. exact Sk.
  - eapply served_new; eauto.
Qed.

Theorem C25_query_exact_after_any_history :
  forall adj g order ranks c, valid_adj adj -> fits_u32 adj -> from_adjacency_lists adj = Some g -> node_order (length adj) order ranks ->
  cch_contract g order ranks = Some c ->
  forall k0 ops, (exists madj, metric_for adj c madj k0) -> ops_ok adj c ops ->
  exists sv, cs_history (cs_new k0) ops = Some sv /\
  forall madj from to, metric_for adj c madj (last_update k0 ops) -> from < length adj -> to < length adj ->
  exists sv' r, cs_distance sv from to = Some (sv', r) /\ exact_answer (adj_arc madj) from to r.
Proof.
  intros adj g order ranks c HV HF Hg HO E k0 ops Hk Hops. destruct (history_ok _ _ _ _ _ HV HF Hg HO E ops Hops k0 Hk) as (sv & Eh & Kh & Sh). exists sv. split; [exact Eh|].
  intros madj from to Hm Hf Ht. rewrite <- Kh in Hm. pose proof (metric_served _ _ _ _ _ _ _ HV HF Hg HO E Hm) as Sm.
  destruct (served_distance adj order ranks madj sv from to Sm Sh Hf Ht) as (sv1 & r & E1 & _ & _ & X & _). eauto.
Qed.
Print Assumptions C25_query_exact_after_any_history.

(** The path of a found distance: simple, made of arcs of the metric that sum up to the distance, and the same path however
    often it is asked for. *)
Theorem C26_path_matches_distance :
  forall adj g order ranks c, valid_adj adj -> fits_u32 adj -> from_adjacency_lists adj = Some g -> node_order (length adj) order ranks ->
  cch_contract g order ranks = Some c ->
  forall k0 ops, (exists madj, metric_for adj c madj k0) -> ops_ok adj c ops ->
  exists sv, cs_history (cs_new k0) ops = Some sv /\
  forall madj from to, metric_for adj c madj (last_update k0 ops) -> from < length adj -> to < length adj ->
  exists sv' r, cs_distance sv from to = Some (sv', r) /\
  forall d, r = Some d -> exists p, npath (adj_arc madj) from p to d /\ NoDup p /\
    forall j, exists sv1 sv2, cs_paths sv' from to j = Some sv1 /\ cs_path sv1 from to = Some (sv2, p).
Proof.
  intros adj g order ranks c HV HF Hg HO E k0 ops Hk Hops. destruct (history_ok _ _ _ _ _ HV HF Hg HO E ops Hops k0 Hk) as (sv & Eh & Kh & Sh). exists sv. split; [exact Eh|].
  intros madj from to Hm Hf Ht. rewrite <- Kh in Hm. pose proof (metric_served _ _ _ _ _ _ _ HV HF Hg HO E Hm) as Sm.
  destruct (served_distance adj order ranks madj sv from to Sm Sh Hf Ht) as (sv1 & r & E1 & _ & _ & _ & P1).
  exists sv1, r. split; [exact E1|]. intros d Hd. destruct (P1 d Hd) as (p & NP & ND & HP). exists p. split; [exact NP|]. split; [exact ND|]. intros j.
  destruct (HP j) as (sv2 & sv3 & E2 & _ & _ & E3). eauto.
Qed.
Print Assumptions C26_path_matches_distance.

(** a server that answers queries and paths for one metric, is updated, and answers again; first an unreachable pair *)
Example C25_C26_nonvacuous :
  (g <- from_adjacency_lists cx_adj ;; c <- cch_contract g cx_order cx_ranks ;; mg <- from_adjacency_lists cx_madj ;; k <- customize c mg ;;
   mg0 <- from_adjacency_lists cx_adj ;; k0 <- customize c mg0 ;;
   sv <- cs_history (cs_new k0) [OpQuery 2 1 2; OpQuery 0 3 1; OpUpdate k; OpQuery 1 4 0] ;;
   '(sv1, r1) <- cs_distance sv 2 1 ;; '(sv2, p1) <- cs_path sv1 2 1 ;; '(sv3, r2) <- cs_distance sv2 4 2 ;; '(_, p2) <- cs_path sv3 4 2 ;;
   Some (r1, p1, r2, p2)) = Some (Some 5%N, [2; 4; 3; 0; 1], Some 13%N, [4; 3; 0; 2]).
Proof. vm_compute. reflexivity. Qed.
