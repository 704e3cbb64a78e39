(** Properties C21, C45, C48: bidirectional searches. A server works on the link iterators [fwl] of a graph and [bwl]
    of its reversed graph. [bd_history .. qs = Some sv]: [sv] is a server after any sequence [qs] of earlier queries
    (source, target, cap), started from a fresh one. *)
From Verif Require Import Base SpecGraph Graph GraphSpecProof Dijkstra DijServer DijServerProof DijHistProof Bidir BidirProof BidirServerProof BidirPotProof ExTab PropsGraph PropsDijkstra.

(** [bwl] has exactly the arcs of [fwl], reversed. *)
Definition reverse_links (fwl bwl : nat -> option (list (nat * N))) : Prop := forall u v w, garc bwl v u w <-> garc fwl u v w.
Definition q_in (n : nat) (q : nat * nat * N) : Prop := fst (fst q) < n /\ snd (fst q) < n.

(** C21: no potential, both strategies *)
Theorem C21_bidirectional_dijkstra_is_exact :
  forall n fwl bwl qs sv s t, wf_links n fwl -> wf_links n bwl -> reverse_links fwl bwl -> Forall (q_in n) qs ->
  bd_history n fwl bwl zero_bipot min_key_dir (bs_new n tt) qs = Some sv -> s < n -> t < n ->
  exists sv' r, bd_distance n fwl bwl zero_bipot min_key_dir sv s t = Some (sv', r) /\ exact_answer (garc fwl) s t r /\
    forall x, r = Some x -> exists p, bd_node_path sv' s t = Some p /\ npath (garc fwl) s p t x /\ bd_edge_path sv' s t = Some (length p - 1).
Proof. intros n fwl bwl qs sv s t W1 W2 R Hq Eh Hs Ht. exact (bd_exact n fwl bwl _ _ _ _ _ _ _ (zero_min_key n fwl bwl W1 W2 R) tt qs sv s t I Hq Eh (conj Hs Ht)). Qed.
Print Assumptions C21_bidirectional_dijkstra_is_exact.
Theorem C21_alternating_bidirectional_dijkstra_is_exact :
  forall n fwl bwl qs sv s t, wf_links n fwl -> wf_links n bwl -> reverse_links fwl bwl -> Forall (q_in n) qs ->
  bd_history n fwl bwl zero_bipot alternating_dirs (bs_new n tt) qs = Some sv -> s < n -> t < n ->
  exists sv' r, bd_distance n fwl bwl zero_bipot alternating_dirs sv s t = Some (sv', r) /\ exact_answer (garc fwl) s t r /\
    forall x, r = Some x -> exists p, bd_node_path sv' s t = Some p /\ npath (garc fwl) s p t x /\ bd_edge_path sv' s t = Some (length p - 1).
Proof. intros n fwl bwl qs sv s t W1 W2 R Hq Eh Hs Ht. exact (bd_exact n fwl bwl _ _ _ _ _ _ _ (zero_alternating n fwl bwl W1 W2 R) tt qs sv s t I Hq Eh (conj Hs Ht)). Qed.
Print Assumptions C21_alternating_bidirectional_dijkstra_is_exact.
(** queries with a cap on the distance *)
Theorem C21_capped_query :
  forall n fwl bwl qs sv s t c, wf_links n fwl -> wf_links n bwl -> reverse_links fwl bwl -> Forall (q_in n) qs ->
  bd_history n fwl bwl zero_bipot min_key_dir (bs_new n tt) qs = Some sv -> s < n -> t < n ->
  exists sv' r, bd_distance_cap n fwl bwl zero_bipot min_key_dir sv s t c = Some (sv', r) /\ capped_answer (garc fwl) s t c r.
Proof. intros n fwl bwl qs sv s t c W1 W2 R Hq Eh Hs Ht. exact (bd_capped n fwl bwl _ _ _ _ _ _ _ (zero_min_key n fwl bwl W1 W2 R) tt qs sv s t c I Hq Eh (conj Hs Ht)). Qed.
Print Assumptions C21_capped_query.
(** no query of a history fails *)
Theorem C21_histories_never_fail :
  forall n fwl bwl qs, wf_links n fwl -> wf_links n bwl -> reverse_links fwl bwl -> Forall (q_in n) qs ->
  (exists sv, bd_history n fwl bwl zero_bipot min_key_dir (bs_new n tt) qs = Some sv) /\
  (exists sv, bd_history n fwl bwl zero_bipot alternating_dirs (bs_new n tt) qs = Some sv).
Proof.
  intros n fwl bwl qs W1 W2 R Hq. split.
  - destruct (bd_history_ok n fwl bwl zero_bipot min_key_dir _ _ _ _ _ (zero_min_key n fwl bwl W1 W2 R) tt qs I Hq) as (sv & E & _). eauto.
  - destruct (bd_history_ok n fwl bwl zero_bipot alternating_dirs _ _ _ _ _ (zero_alternating n fwl bwl W1 W2 R) tt qs I Hq) as (sv & E & _). eauto.
Qed.
Print Assumptions C21_histories_never_fail.

(** Server::new on an adjacency array: the backward graph is computed with [reversed] *)
Lemma rev_wf adj g g' : valid_adj adj -> fits_u32 adj -> (forall l v w, In l adj -> In (v, w) l -> (w <= INF)%N) -> from_adjacency_lists adj = Some g ->
  reversed 0%N (num_nodes g) (num_arcs g) (link_iter g) = Some g' -> wf_links (length adj) (link_iter g') /\ reverse_links (link_iter g) (link_iter g').
Proof.
  intros HV HF HW Eg Er. destruct (adj_wf_links adj g HV HF HW Eg) as [WF HA].
  pose proof (reversed_arcs 0%N adj g g' HV HF Eg Er) as RA. split; auto.
  intros u Hu. destruct (reversed_spec 0%N adj HV HF) as (g1 & g1' & E1 & E2 & N1 & _ & L1). rewrite Eg in E1. injection E1 as <-. rewrite Er in E2. injection E2 as <-.
  exists (incoming adj u). split; auto. intros v w Hin.
  assert (G : garc (link_iter g') u v w). { exists (incoming adj u). split; auto. }
  apply RA in G. pose proof G as G'. apply HA in G'. unfold adj_arc in G'.
  assert (Hv : v < length adj). { destruct (Nat.lt_ge_cases v (length adj)) as [H|H]; auto. rewrite nth_overflow in G' by auto. destruct G'. }
  split; auto. destruct (WF v Hv) as (ls & El & Hl). apply (HW (nth v adj []) u w); auto. apply nth_In; auto.
Qed.
Theorem C21_server_on_adjacency_array :
  forall adj g s t, valid_adj adj -> fits_u32 adj -> (forall l v w, In l adj -> In (v, w) l -> (w <= INF)%N) -> from_adjacency_lists adj = Some g -> s < length adj -> t < length adj ->
  exists g' sv' r, reversed 0%N (num_nodes g) (num_arcs g) (link_iter g) = Some g' /\
    bd_distance (num_nodes g) (link_iter g) (link_iter g') zero_bipot min_key_dir (bs_new (num_nodes g) tt) s t = Some (sv', r) /\ exact_answer (adj_arc adj) s t r.
Proof.
  intros adj g s t HV HF HW Eg Hs Ht. destruct (adj_wf_links adj g HV HF HW Eg) as [WF HA].
  destruct (reversed_spec 0%N adj HV HF) as (g1 & g' & E1 & Er & _). rewrite Eg in E1. injection E1 as <-.
  destruct (rev_wf adj g g' HV HF HW Eg Er) as [WF' RV].
  assert (Hn : num_nodes g = length adj). { destruct (adj_graph adj HV HF) as (h & E & _ & Nn & _). rewrite Eg in E. injection E as <-. auto. } rewrite Hn in *.
  destruct (C21_bidirectional_dijkstra_is_exact (length adj) (link_iter g) (link_iter g') [] (bs_new (length adj) tt) s t WF WF' RV (Forall_nil _) eq_refl Hs Ht) as (sv' & r & E & X & _).
  exists g', sv', r. split; auto. split; auto.
  assert (W : forall a b l, walk (garc (link_iter g)) a b l <-> walk (adj_arc adj) a b l) by (intros; split; apply walk_mono; intros; apply HA; auto).
  destruct r as [x|]; cbn in *.
  - destruct X as (X1 & X2 & X3). split; auto. split. { apply W; auto. } intros l Hl. apply X3, W; auto.
  - intros l Hl. apply X, W; auto.
Qed.
Print Assumptions C21_server_on_adjacency_array.

(** zero weight arc, parallel arcs, a loop, an INFINITY arc, an unreachable node *)
Definition ex_badj : list (list (nat * N)) := [[(1, 7%N); (2, 1%N); (1, 6%N); (0, 0%N)]; [(3, 2%N); (5, INF)]; [(1, 3%N); (4, 0%N)]; []; [(2, 0%N); (3, 9%N)]; []].
Example C21_nonvacuous :
  wf_links 6 (tab ex_badj) /\ wf_links 6 (tab (rev_tab ex_badj)) /\ reverse_links (tab ex_badj) (tab (rev_tab ex_badj)) /\
  (sv <- bd_history 6 (tab ex_badj) (tab (rev_tab ex_badj)) zero_bipot min_key_dir (bs_new 6 tt) [(4, 1, 2%N); (0, 5, INF); (3, 3, INF)] ;;
   '(sv1, a) <- bd_distance 6 (tab ex_badj) (tab (rev_tab ex_badj)) zero_bipot min_key_dir sv 0 3 ;; p <- bd_node_path sv1 0 3 ;;
   '(_, b) <- bd_distance 6 (tab ex_badj) (tab (rev_tab ex_badj)) zero_bipot alternating_dirs sv1 0 3 ;;
   '(_, c) <- bd_distance 6 (tab ex_badj) (tab (rev_tab ex_badj)) zero_bipot alternating_dirs sv1 0 5 ;;
   '(_, d) <- bd_distance 6 (tab ex_badj) (tab (rev_tab ex_badj)) zero_bipot alternating_dirs sv1 2 2 ;; Some (a, p, b, c, d))
  = Some (Some 6%N, [0; 2; 1; 3], Some 6%N, None, Some 0%N).
Proof.
  split; [apply wf_check_ok; vm_compute; reflexivity|]. split; [apply wf_check_ok; vm_compute; reflexivity|].
  split; [unfold reverse_links; apply rev_check_ok; vm_compute; reflexivity|]. vm_compute. reflexivity.
Qed.

(** C48: SymmetricBiDirPotential. [hf t v] / [hb s v]: value of the forward / backward potential for [v] after init. *)
Definition pq_in (n : nat) (TF TB : nat -> Prop) (q : nat * nat * N) : Prop := pair_T n TF TB (fst (fst q)) (snd (fst q)).
(** Lower bounds suffice without improved pruning; nothing overflows. *)
Theorem C48_symmetric_min_key_is_exact :
  forall (EF EB : Type) n fwl bwl (fi : EF -> nat -> option EF) fg (bi : EB -> nat -> option EB) bg TF TB EIf ETf hf EIb ETb hb f0 b0 qs sv s t,
  wf_links n fwl -> wf_links n bwl -> reverse_links fwl bwl -> pot_contract n TF fi fg EIf ETf hf -> pot_contract n TB bi bg EIb ETb hb ->
  (forall t, TF t -> t < n -> lower_bound_pot (garc fwl) t (hf t) /\ small_pot (hf t)) ->
  (forall s, TB s -> s < n -> lower_bound_pot (garc bwl) s (hb s) /\ small_pot (hb s)) ->
  EIf f0 -> EIb b0 -> Forall (pq_in n TF TB) qs ->
  bd_history n fwl bwl (sym_bipot fi fg bi bg cadd false) min_key_dir (bs_new n (f0, b0)) qs = Some sv -> s < n -> t < n -> TF t -> TB s ->
  exists sv' r, bd_distance n fwl bwl (sym_bipot fi fg bi bg cadd false) min_key_dir sv s t = Some (sv', r) /\ exact_answer (garc fwl) s t r /\
    forall x, r = Some x -> exists p, bd_node_path sv' s t = Some p /\ npath (garc fwl) s p t x /\ bd_edge_path sv' s t = Some (length p - 1).
Proof.
  intros EF EB n fwl bwl fi fg bi bg TF TB EIf ETf hf EIb ETb hb f0 b0 qs sv s t W1 W2 RV PF PB HF HB If Ib Hq Eh Hs Ht Tt Ts.
  assert (BC : bipot_contract n fwl bwl (sym_bipot fi fg bi bg cadd false) min_key_dir (pair_T n TF TB) (fun e => EIf (fst e) /\ EIb (snd e))
    (fun s t e => ETf t (fst e) /\ ETb s (snd e)) (fun s t => hf t) (fun s t => hb s)).
  { apply sym_contract; auto; try discriminate. split; auto. discriminate. }
  exact (bd_exact n fwl bwl _ _ _ _ _ _ _ BC (f0, b0) qs sv s t (conj If Ib) Hq Eh (conj Hs (conj Ht (conj Tt Ts)))).
Qed.
Print Assumptions C48_symmetric_min_key_is_exact.
(** With improved pruning the potentials must be feasible; release build (additions wrap around). *)
Theorem C48_symmetric_improved_pruning_is_exact :
  forall (EF EB : Type) n fwl bwl (fi : EF -> nat -> option EF) fg (bi : EB -> nat -> option EB) bg TF TB EIf ETf hf EIb ETb hb f0 b0 qs sv s t,
  wf_links n fwl -> wf_links n bwl -> reverse_links fwl bwl -> pot_contract n TF fi fg EIf ETf hf -> pot_contract n TB bi bg EIb ETb hb ->
  (forall t, TF t -> t < n -> feasible_pot (garc fwl) t (hf t) /\ small_pot (hf t)) ->
  (forall s, TB s -> s < n -> feasible_pot (garc bwl) s (hb s) /\ small_pot (hb s)) ->
  EIf f0 -> EIb b0 -> Forall (pq_in n TF TB) qs ->
  bd_history n fwl bwl (sym_bipot fi fg bi bg radd true) min_key_dir (bs_new n (f0, b0)) qs = Some sv -> s < n -> t < n -> TF t -> TB s ->
  exists sv' r, bd_distance n fwl bwl (sym_bipot fi fg bi bg radd true) min_key_dir sv s t = Some (sv', r) /\ exact_answer (garc fwl) s t r /\
    forall x, r = Some x -> exists p, bd_node_path sv' s t = Some p /\ npath (garc fwl) s p t x /\ bd_edge_path sv' s t = Some (length p - 1).
Proof.
  intros EF EB n fwl bwl fi fg bi bg TF TB EIf ETf hf EIb ETb hb f0 b0 qs sv s t W1 W2 RV PF PB HF HB If Ib Hq Eh Hs Ht Tt Ts.
  assert (BC : bipot_contract n fwl bwl (sym_bipot fi fg bi bg radd true) min_key_dir (pair_T n TF TB) (fun e => EIf (fst e) /\ EIb (snd e))
    (fun s t e => ETf t (fst e) /\ ETb s (snd e)) (fun s t => hf t) (fun s t => hb s)).
  { apply sym_contract.
    - split; auto. intros _. apply radd_under.
    - intros t' T' L'. destruct (HF t' T' L'). split; auto. apply feasible_lower_bound; auto.
    - intros s' T' L'. destruct (HB s' T' L'). split; auto. apply feasible_lower_bound; auto.
    - intros _ t' T' L'. apply HF; auto.
    - intros _ s' T' L'. apply HB; auto. }
  exact (bd_exact n fwl bwl _ _ _ _ _ _ _ BC (f0, b0) qs sv s t (conj If Ib) Hq Eh (conj Hs (conj Ht (conj Tt Ts)))).
Qed.
Print Assumptions C48_symmetric_improved_pruning_is_exact.
(** Debug build: an answer (no overflow panic) is exact. *)
Theorem C48_symmetric_improved_pruning_checked_answers_are_exact :
  forall (EF EB : Type) n fwl bwl (fi : EF -> nat -> option EF) fg (bi : EB -> nat -> option EB) bg TF TB EIf ETf hf EIb ETb hb f0 b0 qs sv s t sv' r,
  wf_links n fwl -> wf_links n bwl -> reverse_links fwl bwl -> pot_contract n TF fi fg EIf ETf hf -> pot_contract n TB bi bg EIb ETb hb ->
  (forall t, TF t -> t < n -> feasible_pot (garc fwl) t (hf t) /\ small_pot (hf t)) ->
  (forall s, TB s -> s < n -> feasible_pot (garc bwl) s (hb s) /\ small_pot (hb s)) ->
  EIf f0 -> EIb b0 -> Forall (pq_in n TF TB) qs ->
  bd_history n fwl bwl (sym_bipot fi fg bi bg cadd true) min_key_dir (bs_new n (f0, b0)) qs = Some sv -> s < n -> t < n -> TF t -> TB s ->
  bd_distance n fwl bwl (sym_bipot fi fg bi bg cadd true) min_key_dir sv s t = Some (sv', r) -> exact_answer (garc fwl) s t r.
Proof.
  intros EF EB n fwl bwl fi fg bi bg TF TB EIf ETf hf EIb ETb hb f0 b0 qs sv s t sv' r W1 W2 RV PF PB HF HB If Ib Hq Eh Hs Ht Tt Ts Ed.
  pose proof (sym_le fi fg bi bg cadd radd true cadd_radd) as LE.
  pose proof (bd_history_le n fwl bwl _ _ min_key_dir _ _ LE _ Eh) as Eh'. pose proof (bd_cap_le n fwl bwl _ _ min_key_dir _ _ _ _ LE _ Ed) as Ed'.
  destruct (C48_symmetric_improved_pruning_is_exact EF EB n fwl bwl fi fg bi bg TF TB EIf ETf hf EIb ETb hb f0 b0 qs sv s t W1 W2 RV PF PB HF HB If Ib Hq Eh' Hs Ht Tt Ts) as (sv1 & r1 & E1 & X & _).
  unfold bd_distance in E1. rewrite Ed' in E1. injection E1 as <- <-. auto.
Qed.
Print Assumptions C48_symmetric_improved_pruning_checked_answers_are_exact.
(** a graph with a detour, exact potentials in both directions *)
Definition sy_adj : list (list (nat * N)) := [[(1, 10%N); (2, 1%N)]; [(0, 1%N)]; [(3, 1%N)]; [(4, 1%N)]; [(1, 1%N)]].
Definition sy_f : list (option N) := map Some [4; 0; 3; 2; 1]%N.
Definition sy_b : list (option N) := map Some [0; 4; 1; 2; 3]%N.
Example C48_nonvacuous :
  wf_links 5 (tab sy_adj) /\ wf_links 5 (tab (rev_tab sy_adj)) /\ reverse_links (tab sy_adj) (tab (rev_tab sy_adj)) /\
  feasible_pot (garc (tab sy_adj)) 1 (htab sy_f) /\ feasible_pot (garc (tab (rev_tab sy_adj))) 0 (htab sy_b) /\ small_pot (htab sy_f) /\ small_pot (htab sy_b) /\
  pot_contract 5 (fun t => t = 1) tab_init (tab_get sy_f) (fun _ => True) (fun _ _ => True) (fun _ => htab sy_f) /\
  (sv <- bd_history 5 (tab sy_adj) (tab (rev_tab sy_adj)) (sym_bipot tab_init (tab_get sy_f) tab_init (tab_get sy_b) radd true) min_key_dir (bs_new 5 (tt, tt)) [(0, 1, 3%N); (0, 1, INF)] ;;
   '(sv1, a) <- bd_distance 5 (tab sy_adj) (tab (rev_tab sy_adj)) (sym_bipot tab_init (tab_get sy_f) tab_init (tab_get sy_b) radd true) min_key_dir sv 0 1 ;; p <- bd_node_path sv1 0 1 ;; Some (a, p))
  = Some (Some 4%N, [0; 2; 3; 4; 1]).
Proof.
  split; [apply wf_check_ok; vm_compute; reflexivity|]. split; [apply wf_check_ok; vm_compute; reflexivity|].
  split; [unfold reverse_links; apply rev_check_ok; vm_compute; reflexivity|]. split; [apply feas_check_ok; vm_compute; reflexivity|]. split; [apply feas_check_ok; vm_compute; reflexivity|].
  split; [apply (max_small 10); [unfold INF; lia|vm_compute; reflexivity]|]. split; [apply (max_small 10); [unfold INF; lia|vm_compute; reflexivity]|].
  split; [apply tab_contract|]. vm_compute. reflexivity.
Qed.

(** The same potential with AlternatingDirs (the combination used by the CH potential experiments) is wrong: feasible
    potentials, a walk of length 4, answer 10; with and without improved pruning. *)
Definition alt_adj : list (list (nat * N)) :=
  [[(1, 10%N); (2, 1%N)]; []; [(3, 1%N)]; [(4, 1%N)]; [(1, 1%N)]; [(1, 1%N)]; [(5, 1%N)]; [(6, 1%N)]].
Definition alt_f : list (option N) := map Some [4; 0; 3; 2; 1; 1; 2; 3]%N.
Definition alt_b : list (option N) := map Some [0; 0; 0; 0; 0; 0; 0; 0]%N.
Theorem C48_symmetric_alternating_refuted :
  exists n adj hf hb s t d, wf_links n (tab adj) /\ wf_links n (tab (rev_tab adj)) /\ reverse_links (tab adj) (tab (rev_tab adj)) /\ s < n /\ t < n /\
    feasible_pot (garc (tab adj)) t (htab hf) /\ feasible_pot (garc (tab (rev_tab adj))) s (htab hb) /\ small_pot (htab hf) /\ small_pot (htab hb) /\
    walk (garc (tab adj)) s t d /\ forall ip, exists x,
    ('(_, r) <- bd_distance n (tab adj) (tab (rev_tab adj)) (sym_bipot tab_init (tab_get hf) tab_init (tab_get hb) cadd ip) alternating_dirs (bs_new n (tt, tt)) s t ;; Some r) = Some (Some x) /\ (d < x)%N.
Proof.
  exists 8, alt_adj, alt_f, alt_b, 0, 1, 4%N.
  split; [apply wf_check_ok; vm_compute; reflexivity|]. split; [apply wf_check_ok; vm_compute; reflexivity|].
  split; [unfold reverse_links; apply rev_check_ok; vm_compute; reflexivity|]. split; [lia|]. split; [lia|].
  split; [apply feas_check_ok; vm_compute; reflexivity|]. split; [apply feas_check_ok; vm_compute; reflexivity|].
  split; [apply (max_small 10); [unfold INF; lia|vm_compute; reflexivity]|]. split; [apply (max_small 10); [unfold INF; lia|vm_compute; reflexivity]|].
  split.
  - apply (walk_step_tab alt_adj 0 2 1 1%N 3%N); [vm_compute; tauto|]. apply (walk_step_tab alt_adj 2 3 1 1%N 2%N); [vm_compute; tauto|].
    apply (walk_step_tab alt_adj 3 4 1 1%N 1%N); [vm_compute; tauto|]. apply (walk_step_tab alt_adj 4 1 1 1%N 0%N); [vm_compute; tauto|constructor].
  - intros ip. exists 10%N. split; [|lia]. destruct ip; vm_compute; reflexivity.
Qed.
Print Assumptions C48_symmetric_alternating_refuted.

(** C45: AveragePotential. Integer halving keeps both directions consistent along every arc, for all feasible pairs. *)
Theorem C45_average_is_consistent :
  forall (EF EB : Type) n fwl bwl (fi : EF -> nat -> option EF) fg (bi : EB -> nat -> option EB) bg TF TB EIf ETf hf EIb ETb hb (a : avg EF EB) s t u v w,
  wf_links n fwl -> wf_links n bwl -> reverse_links fwl bwl -> pot_contract n TF fi fg EIf ETf hf -> pot_contract n TB bi bg EIb ETb hb ->
  (forall t, TF t -> t < n -> feasible_pot (garc fwl) t (hf t) /\ (forall v p, hf t v = Some p -> (p <= INF)%N)) ->
  (forall s, TB s -> s < n -> feasible_pot (garc bwl) s (hb s) /\ (forall v p, hb s v = Some p -> (p <= INF)%N)) ->
  EIf (av_f a) -> EIb (av_b a) -> s < n -> t < n -> TF t -> TB s -> u < n -> garc fwl u v w ->
  exists a1, av_init fi fg bi bg a s t = Some a1 /\
    exists a2 a3 a4 a5 fu fv bu bv, av_fw fg bg a1 u = Some (a2, fu) /\ av_fw fg bg a1 v = Some (a3, fv) /\ av_bw fg bg a1 u = Some (a4, bu) /\ av_bw fg bg a1 v = Some (a5, bv) /\
      (forall x y, fu = Some x -> fv = Some y -> (x <= w + y)%N) /\ (forall x y, bu = Some x -> bv = Some y -> (y <= w + x)%N).
Proof.
  intros EF EB n fwl bwl fi fg bi bg TF TB EIf ETf hf EIb ETb hb a s t u v w W1 W2 RV PF PB HF HB If Ib Hs Ht Tt Ts Hu Ha.
  eapply (avg_consistent n fwl bwl fi fg bi bg TF TB EIf ETf hf EIb ETb hb); eauto.
  - split; auto. discriminate.
  - repeat split; auto.
Qed.
Print Assumptions C45_average_is_consistent.

Lemma avg_pair_contract {EF EB : Type} n fwl bwl (fi : EF -> nat -> option EF) fg (bi : EB -> nat -> option EB) bg TF TB EIf ETf hf EIb ETb hb ip :
  wf_links n fwl -> wf_links n bwl -> reverse_links fwl bwl -> pot_contract n TF fi fg EIf ETf hf -> pot_contract n TB bi bg EIb ETb hb ->
  (forall t, TF t -> t < n -> feasible_pot (garc fwl) t (hf t) /\ (forall v p, hf t v = Some p -> (p <= INF)%N)) ->
  (forall s, TB s -> s < n -> feasible_pot (garc bwl) s (hb s) /\ (forall v p, hb s v = Some p -> (p <= INF)%N)) ->
  bipot_contract n fwl bwl (avg_bipot fi fg bi bg iadd ip) min_key_dir (avg_T n fwl TF TB hf hb) (fun e => EIf (av_f e) /\ EIb (av_b e))
    (avg_ET ETf hf ETb hb) (fun s t => apf (hf t) (hb s) s t) (fun s t => apb (hf t) (hb s) s t).
Proof.
  intros W1 W2 RV PF PB HF HB. eapply avg_contract; eauto. split; eauto. intros _. apply iadd_under.
Qed.

(** Full statement: for every pair of feasible potentials the query with AveragePotential is exact (false, see below).
    Proved: it holds for queries on whose shortest walks the averaged values are not cut off at 0 ([unclamped]), if no
    addition overflows: [cadd] is the debug build, which panics on overflow; the release build answers the same.
    Missing: that additions never overflow (they can, for distances close to INFINITY). *)
Theorem C45_average_unclamped_is_exact_partial :
  forall (EF EB : Type) n fwl bwl (fi : EF -> nat -> option EF) fg (bi : EB -> nat -> option EB) bg TF TB EIf ETf hf EIb ETb hb ip f0 b0 qs sv s t sv' r,
  wf_links n fwl -> wf_links n bwl -> reverse_links fwl bwl -> pot_contract n TF fi fg EIf ETf hf -> pot_contract n TB bi bg EIb ETb hb ->
  (forall t, TF t -> t < n -> feasible_pot (garc fwl) t (hf t) /\ (forall v p, hf t v = Some p -> (p <= INF)%N)) ->
  (forall s, TB s -> s < n -> feasible_pot (garc bwl) s (hb s) /\ (forall v p, hb s v = Some p -> (p <= INF)%N)) ->
  EIf f0 -> EIb b0 -> Forall (fun q => pq_in n TF TB q /\ unclamped (garc fwl) (hf (snd (fst q))) (hb (fst (fst q))) (fst (fst q)) (snd (fst q))) qs ->
  bd_history n fwl bwl (avg_bipot fi fg bi bg cadd ip) min_key_dir (bs_new n (av_new f0 b0)) qs = Some sv ->
  s < n -> t < n -> TF t -> TB s -> unclamped (garc fwl) (hf t) (hb s) s t ->
  bd_distance n fwl bwl (avg_bipot fi fg bi bg cadd ip) min_key_dir sv s t = Some (sv', r) ->
  exact_answer (garc fwl) s t r /\ bd_distance n fwl bwl (avg_bipot fi fg bi bg radd ip) min_key_dir sv s t = Some (sv', r) /\
  forall x, r = Some x -> exists p, bd_node_path sv' s t = Some p /\ npath (garc fwl) s p t x.
Proof.
  intros EF EB n fwl bwl fi fg bi bg TF TB EIf ETf hf EIb ETb hb ip f0 b0 qs sv s t sv' r W1 W2 RV PF PB HF HB If Ib Hq Eh Hs Ht Tt Ts UC Ed.
  pose proof (avg_pair_contract n fwl bwl fi fg bi bg TF TB EIf ETf hf EIb ETb hb ip W1 W2 RV PF PB HF HB) as BC.
  pose proof (bd_history_le n fwl bwl _ _ min_key_dir _ _ (avg_le fi fg bi bg cadd iadd ip cadd_iadd) _ Eh) as Eh'.
  pose proof (bd_cap_le n fwl bwl _ _ min_key_dir _ _ _ _ (avg_le fi fg bi bg cadd iadd ip cadd_iadd) _ Ed) as Ed'.
  destruct (bd_exact n fwl bwl _ _ _ _ _ _ _ BC (av_new f0 b0) qs sv s t (conj If Ib) Hq Eh' (conj (conj Hs (conj Ht (conj Tt Ts))) UC)) as (sv1 & r1 & E1 & X & P).
  unfold bd_distance in E1. rewrite Ed' in E1. injection E1 as <- <-. split; [exact X|]. split.
  - unfold bd_distance. exact (bd_cap_le n fwl bwl _ _ min_key_dir _ _ _ _ (avg_le fi fg bi bg cadd radd ip cadd_radd) _ Ed).
  - intros x Hx. destruct (P x Hx) as (p & P1 & P2 & _). eauto.
Qed.
Print Assumptions C45_average_unclamped_is_exact_partial.
(** Exact distances as potentials (BaselinePotential) are never cut off. *)
Theorem C45_exact_potentials_are_unclamped :
  forall arc s t (hf hb : nat -> option N), (forall v, exact_answer arc v t (hf v)) -> (forall v, exact_answer arc s v (hb v)) -> unclamped arc hf hb s t.
Proof. exact exact_unclamped. Qed.
Print Assumptions C45_exact_potentials_are_unclamped.
Example C45_nonvacuous :
  (forall v p, htab sy_f v = Some p -> (p <= INF)%N) /\ (forall v p, htab sy_b v = Some p -> (p <= INF)%N) /\
  unclamped (garc (tab sy_adj)) (htab sy_f) (htab sy_b) 0 1 /\
  (sv <- bd_history 5 (tab sy_adj) (tab (rev_tab sy_adj)) (avg_bipot tab_init (tab_get sy_f) tab_init (tab_get sy_b) cadd true) min_key_dir (bs_new 5 (av_new tt tt)) [(0, 1, 3%N); (0, 1, INF)] ;;
   '(sv1, a) <- bd_distance 5 (tab sy_adj) (tab (rev_tab sy_adj)) (avg_bipot tab_init (tab_get sy_f) tab_init (tab_get sy_b) cadd true) min_key_dir sv 0 1 ;; p <- bd_node_path sv1 0 1 ;; Some (a, p))
  = Some (Some 4%N, [0; 2; 3; 4; 1]).
Proof.
  split; [apply (max_check_ok INF); vm_compute; reflexivity|]. split; [apply (max_check_ok INF); vm_compute; reflexivity|]. split; [|vm_compute; reflexivity].
  intros v l1 l2 _ _ _ _ a b c d. cbn [htab sy_f sy_b nth map]. intros Ha Hb [= <-] [= <-].
  unfold htab in *. do 5 (destruct v as [|v]; [cbn in Ha, Hb; injection Ha as <-; injection Hb as <-; lia|]). cbn in Ha. destruct v; discriminate.
Qed.

(** In general the answer is wrong: feasible potentials, a walk of length 102, answer 110. *)
Definition av_adj : list (list (nat * N)) := [[(1, 100%N); (3, 110%N)]; [(2, 1%N)]; [(3, 1%N)]; []].
Definition av_ft : list (option N) := map Some [0; 2; 1; 0]%N.
Definition av_bs : list (option N) := map Some [0; 100; 101; 0]%N.
Theorem C45_average_refuted :
  exists n adj hf hb s t d, wf_links n (tab adj) /\ wf_links n (tab (rev_tab adj)) /\ reverse_links (tab adj) (tab (rev_tab adj)) /\ s < n /\ t < n /\
    feasible_pot (garc (tab adj)) t (htab hf) /\ feasible_pot (garc (tab (rev_tab adj))) s (htab hb) /\ small_pot (htab hf) /\ small_pot (htab hb) /\
    walk (garc (tab adj)) s t d /\ forall ip, exists x,
    ('(_, r) <- bd_distance n (tab adj) (tab (rev_tab adj)) (avg_bipot tab_init (tab_get hf) tab_init (tab_get hb) cadd ip) min_key_dir (bs_new n (av_new tt tt)) s t ;; Some r) = Some (Some x) /\ (d < x)%N.
Proof.
  exists 4, av_adj, av_ft, av_bs, 0, 3, 102%N.
  split; [apply wf_check_ok; vm_compute; reflexivity|]. split; [apply wf_check_ok; vm_compute; reflexivity|].
  split; [unfold reverse_links; apply rev_check_ok; vm_compute; reflexivity|]. split; [lia|]. split; [lia|].
  split; [apply feas_check_ok; vm_compute; reflexivity|]. split; [apply feas_check_ok; vm_compute; reflexivity|].
  split; [apply (max_small 200); [unfold INF; lia|vm_compute; reflexivity]|]. split; [apply (max_small 200); [unfold INF; lia|vm_compute; reflexivity]|].
  split.
  - apply (walk_step_tab av_adj 0 1 3 100%N 2%N); [vm_compute; tauto|]. apply (walk_step_tab av_adj 1 2 3 1%N 1%N); [vm_compute; tauto|].
    apply (walk_step_tab av_adj 2 3 3 1%N 0%N); [vm_compute; tauto|constructor].
  - intros ip. exists 110%N. split; [|lia]. destruct ip; vm_compute; reflexivity.
Qed.
Print Assumptions C45_average_refuted.
