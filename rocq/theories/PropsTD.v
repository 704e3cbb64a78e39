(** Properties of time-dependent graphs, live traffic and time-dependent queries: C37, C38, C49. *)
From Verif Require Import Base SpecBits BitVec SpecPQ SpecGraph IndexHeap TsVec Graph GraphProof Dijkstra DijkstraProof DijServer DijServerProof SpecTTF PLF PLFProof PLFRange PLFAverage PropsTTF TDGraph TDGraphProof TDQueryProof.

(** ** C37 *)

(** [TDGraph::new] on any arrays in CSR layout whose functions are usable raw data ([raw_ttf]): it succeeds, keeps
    all arcs, and every function of the result is the completion of the raw one and a valid function. *)
Theorem C37_new_builds_valid_functions P (radj : td_adj) :
  (0 < P)%N -> (forall u e v r, arc_at radj u e v r -> raw_ttf P r) ->
  let raw := td_of radj in
  exists adj, td_new P (td_first_out raw) (td_head raw) (td_first_ipp raw) (td_dt raw) (td_tt raw) = Some (td_of adj) /\
    Forall2 (Forall2 (fun a b => fst b = fst a /\ completes P (snd a) (snd b))) radj adj /\
    forall u e v f, arc_at adj u e v f -> valid_ttf P f.
Proof.
  intros HP HR raw.
  assert (forall l a, In l radj -> In a l -> raw_ttf P (snd a)) as RA.
  { intros l (v, r) Hl Ha. apply In_nth_error in Hl, Ha. destruct Hl as (u & Hu), Ha as (k & Hk).
    apply (HR u (length (concat (firstn u radj)) + k) v r). exists k. split; auto. rewrite (nth_error_nth _ _ _ Hu). auto. }
  set (c := fun a : nat * ttf => (fst a, comp P (snd a))). exists (map (map c) radj). split; [|split].
  - unfold raw, td_of. cbn [td_first_out td_head td_first_ipp td_dt td_tt].
    rewrite td_new_ok.
    + assert (map (length (A:=nat * ttf)) (map (map c) radj) = map (length (A:=nat * ttf)) radj) as E1 by (rewrite map_map; apply map_ext; intros; apply map_length).
      assert (map fst (concat (map (map c) radj)) = map fst (concat radj)) as E2 by (rewrite <- concat_map, map_map; reflexivity).
      assert (map snd (concat (map (map c) radj)) = map (comp P) (map snd (concat radj))) as E3 by (rewrite <- concat_map, !map_map; reflexivity).
      f_equal. f_equal; [f_equal; symmetry; exact E1|symmetry; exact E2| | |]; (rewrite <- E3 || (do 2 f_equal; symmetry; exact E3)); reflexivity.
    + rewrite !map_length. auto.
    + intros r Hr. apply in_map_iff in Hr. destruct Hr as (a & <- & Ha). apply in_concat in Ha. destruct Ha as (l & Hl & Ha). apply (rt_ne _ _ (RA l a Hl Ha)).
  - assert (forall l, In l radj -> Forall2 (fun a b : nat * ttf => fst b = fst a /\ completes P (snd a) (snd b)) l (map c l)) as F.
    { intros l Hl. assert (forall a, In a l -> raw_ttf P (snd a)) as RL by (intros; eapply RA; eauto). clear - RL.
      induction l as [|a l IH]; cbn [map]; constructor.
      - split; auto. cbn [c snd]. apply comp_completes. apply (rt_ne P). apply RL. left; auto.
      - apply IH. intros b Hb. apply RL. right; auto. }
    clear - F. induction radj as [|l L IH]; cbn [map]; constructor; [apply F; left; auto|]. apply IH. intros; apply F; right; auto.
  - intros u e v f (k & Hk & _). destruct (Nat.lt_ge_cases u (length radj)) as [Hu|Hu].
    + rewrite nth_indep with (d' := map c []) in Hk by (rewrite map_length; auto). rewrite map_nth in Hk.
      rewrite nth_error_map in Hk. destruct (nth_error (nth u radj []) k) as [a|] eqn:Ea; [|discriminate]. cbn in Hk. inversion Hk; subst.
      pose proof (RA _ a (nth_In radj [] Hu) (nth_error_In _ _ Ea)) as R.
      eapply completes_valid; eauto. apply comp_completes. apply (rt_ne _ _ R).
    + rewrite nth_overflow in Hk by (rewrite map_length; auto). destruct k; discriminate.
Qed.
Print Assumptions C37_new_builds_valid_functions.

(** [travel_time_function(e).eval(t)] is the value of the function of arc [e]. *)
Theorem C37_graph_eval bs P debug adj u e v f t :
  nbs_contract bs -> (0 < P)%N -> wf_td P INF adj -> arc_at adj u e v f ->
  exists w, td_eval bs P debug (td_of adj) e t = Some w /\ ttf_value P f t w.
Proof.
  intros HB HP HW H. exists (the_pred bs P adj e t). pose proof (the_pred_ok bs P adj HB HP HW) as HPr.
  split; [apply (td_eval_ok bs P debug adj HB HP HW _ HPr _ _ _ _ _ H)|]. apply (HPr _ _ _ _ H).
Qed.
Print Assumptions C37_graph_eval.

(** [LiveTDGraph::eval] is the live value until [soon] and then approaches the prediction with slope 1. *)
Theorem C37_live_eval bs P debug adj pred soon live u e v f o t :
  nbs_contract bs -> (0 < P)%N -> wf_td P INF adj -> td_pred P adj pred -> arc_at adj u e v f ->
  nth_error live e = Some o -> (forall lv, o = Some lv -> lv <= INF)%N -> (soon <= INF)%N -> (t < INF)%N ->
  live_eval bs P debug (td_of adj) soon live e t = Some (overlay (pred e) o soon t).
Proof. intros HB HP HW HPr H. apply (live_eval_ok bs P debug adj HB HP HW pred HPr _ _ _ _ _ _ _ _ H). Qed.
Print Assumptions C37_live_eval.

(** It is FIFO. *)
Theorem C37_live_fifo bs P debug adj soon live u e v f o t t' :
  nbs_contract bs -> (0 < P)%N -> wf_td P INF adj -> arc_at adj u e v f ->
  nth_error live e = Some o -> (forall lv, o = Some lv -> lv <= INF)%N -> (soon <= INF)%N -> (t <= t' < INF)%N ->
  exists w w', live_eval bs P debug (td_of adj) soon live e t = Some w /\ live_eval bs P debug (td_of adj) soon live e t' = Some w' /\
    (t + w <= t' + w')%N.
Proof.
  intros HB HP HW H Ho Hlv Hs T. pose proof (the_pred_ok bs P adj HB HP HW) as HPr. set (pred := the_pred bs P adj) in *.
  eexists _, _. split; [|split].
  - apply (live_eval_ok bs P debug adj HB HP HW pred HPr soon live u e v f t o); auto; lia.
  - apply (live_eval_ok bs P debug adj HB HP HW pred HPr soon live u e v f t' o); auto; lia.
  - apply overlay_fifo; [|lia]. apply (pred_fifo bs P debug adj HB HP HW pred HPr _ _ _ _ H).
Qed.
Print Assumptions C37_live_fifo.

(** [PessimisticLiveTDGraph::eval] for every time: the specified combination, FIFO, and the prediction once the
    report has expired. *)
Theorem C37_pess_eval bs P debug adj pred live u e v f o t :
  nbs_contract bs -> (0 < P)%N -> wf_td P INF adj -> td_pred P adj pred -> arc_at adj u e v f ->
  nth_error live e = Some o -> (forall lv s, o = Some (lv, s) -> lv <= INF)%N ->
  pess_eval bs P debug (td_of adj) live e t = Some (pess (pred e) o t).
Proof. intros HB HP HW HPr H. apply (pess_eval_ok bs P debug adj HB HP HW pred HPr _ _ _ _ _ _ _ H). Qed.
Print Assumptions C37_pess_eval.

Theorem C37_pess_fifo bs P debug adj live u e v f o t t' :
  nbs_contract bs -> (0 < P)%N -> wf_td P INF adj -> arc_at adj u e v f ->
  nth_error live e = Some o -> (forall lv s, o = Some (lv, s) -> lv <= INF)%N -> (t <= t')%N ->
  exists w w', pess_eval bs P debug (td_of adj) live e t = Some w /\ pess_eval bs P debug (td_of adj) live e t' = Some w' /\
    (t + w <= t' + w')%N.
Proof.
  intros HB HP HW H Ho Hlv T. pose proof (the_pred_ok bs P adj HB HP HW) as HPr. set (pred := the_pred bs P adj) in *.
  eexists _, _. split; [|split].
  - apply (pess_eval_ok bs P debug adj HB HP HW pred HPr live u e v f t o); auto.
  - apply (pess_eval_ok bs P debug adj HB HP HW pred HPr live u e v f t' o); auto.
  - apply pess_fifo; auto. apply (pred_fifo bs P debug adj HB HP HW pred HPr _ _ _ _ H).
Qed.
Print Assumptions C37_pess_fifo.

Theorem C37_pess_expired bs P debug adj live u e v f o t :
  nbs_contract bs -> (0 < P)%N -> wf_td P INF adj -> arc_at adj u e v f ->
  nth_error live e = Some o -> (forall lv s, o = Some (lv, s) -> lv <= INF /\ s <= t)%N ->
  exists w, pess_eval bs P debug (td_of adj) live e t = Some w /\ td_eval bs P debug (td_of adj) e t = Some w.
Proof.
  intros HB HP HW H Ho Hlv. pose proof (the_pred_ok bs P adj HB HP HW) as HPr. set (pred := the_pred bs P adj) in *.
  exists (pred e t). split; [|apply (td_eval_ok bs P debug adj HB HP HW pred HPr _ _ _ _ _ H)].
  rewrite (pess_eval_ok bs P debug adj HB HP HW pred HPr live u e v f t o) by (auto; intros lv s Es; apply (Hlv lv s Es)). f_equal. unfold pess.
  destruct o as [(lv, s)|]; auto. destruct (Hlv lv s eq_refl) as (_ & L). destruct (s <=? t)%N eqn:E; auto. lia.
Qed.
Print Assumptions C37_pess_expired.

(** [upper_bound(e, now)] bounds the travel time of every later departure. *)
Theorem C37_upper_bound bs P debug adj live u e v f o now :
  nbs_contract bs -> (0 < P)%N -> wf_td P INF adj -> arc_at adj u e v f ->
  nth_error live e = Some o -> (forall lv s, o = Some (lv, s) -> lv <= INF)%N ->
  exists ub, pess_upper_bound bs P debug (td_of adj) live e now = Some ub /\
    forall t w, (now <= t)%N -> pess_eval bs P debug (td_of adj) live e t = Some w -> (w <= ub)%N.
Proof.
  intros HB HP HW H Ho Hlv. pose proof (the_pred_ok bs P adj HB HP HW) as HPr. set (pred := the_pred bs P adj) in *.
  destruct (upper_bound_ok bs P debug adj HB HP HW pred HPr live u e v f now o H Ho Hlv) as (ub & E & U). exists ub. split; auto.
  intros t w T Ew. rewrite (pess_eval_ok bs P debug adj HB HP HW pred HPr live u e v f t o H Ho Hlv) in Ew. inversion Ew; subst. auto.
Qed.
Print Assumptions C37_upper_bound.

(** [live_starts_switching_at(e)]: before that time the live value counts in full. *)
Theorem C37_switching bs P debug adj live u e v f lv soon :
  nbs_contract bs -> (0 < P)%N -> wf_td P INF adj -> arc_at adj u e v f ->
  nth_error live e = Some (Some (lv, soon)) -> (lv <= INF)%N ->
  exists x, pess_switching bs P debug (td_of adj) live e = Some (Some x) /\ (x <= soon)%N /\
    forall t w p, (t < x)%N -> pess_eval bs P debug (td_of adj) live e t = Some w -> td_eval bs P debug (td_of adj) e t = Some p -> w = N.max p lv.
Proof.
  intros HB HP HW H Ho Hlv. pose proof (the_pred_ok bs P adj HB HP HW) as HPr. set (pred := the_pred bs P adj) in *.
  destruct (switching_ok bs P debug adj HB HP HW pred HPr live u e v f lv soon H Ho) as (x & E & L & X). exists x. split; auto. split; auto.
  intros t w p T Ew Ep. rewrite (pess_eval_ok bs P debug adj HB HP HW pred HPr live u e v f t (Some (lv, soon)) H Ho) in Ew by (intros ? ? [= <- <-]; auto).
  rewrite (td_eval_ok bs P debug adj HB HP HW pred HPr _ _ _ _ _ H) in Ep. inversion Ew; inversion Ep; subst. apply X; auto.
Qed.
Print Assumptions C37_switching.

(** ** C49 *)

(** [live_lower_bound(e, now, until)], for ranges within the first two periods and an expiry time other than [until]:
    without live value or if that expires after [until] the result is a lower bound on [now, until]; if the live value
    expires before [until] only the minimum of the result and the live value is. *)
Theorem C49_live_lower_bound_partial bs P debug adj live u e v f o now until :
  nbs_contract bs -> (0 < P)%N -> wf_td P INF adj -> arc_at adj u e v f ->
  nth_error live e = Some o -> (forall lv s, o = Some (lv, s) -> lv <= INF /\ s <> until)%N -> (now < until < 2 * P)%N ->
  exists lb, pess_live_lower_bound bs P debug (td_of adj) live e now until = Some lb /\
    forall t w, (now <= t <= until)%N -> pess_eval bs P debug (td_of adj) live e t = Some w ->
      (match o with Some (lv, s) => if (s <? until)%N then N.min lv lb else lb | None => lb end <= w)%N.
Proof.
  intros HB HP HW H Ho Hlv R. pose proof (the_pred_ok bs P adj HB HP HW) as HPr. set (pred := the_pred bs P adj) in *.
  assert (forall lv s, o = Some (lv, s) -> lv <= INF)%N as H1 by (intros lv s Es; apply (Hlv lv s Es)).
  destruct (live_lower_ok bs P debug adj HB HP HW pred HPr live u e v f now until o H Ho H1 R) as (lb & E & L). { intros lv s Es. apply (Hlv lv s Es). }
  exists lb. split; auto. intros t w T Ew. rewrite (pess_eval_ok bs P debug adj HB HP HW pred HPr live u e v f t o H Ho H1) in Ew. inversion Ew; subst. auto.
Qed.
Print Assumptions C49_live_lower_bound_partial.

(** A graph: 0 -> 1 with [ex_ttf], 0 -> 2 with a constant 25, 2 -> 1 with 3, 1 -> 3 with [ex_ttf]. *)
Definition ex_adj : td_adj := [[(1, ex_ttf); (2, [(0, 25)%N])]; [(3, ex_ttf)]; [(1, [(0, 3)%N])]; []].
Lemma const_valid w : valid_ttf 100 [(0, w)%N].
Proof.
  split; [eexists; reflexivity| |intros p q H; destruct (consec_1 _ _ _ H)|intros p q H; destruct (consec_1 _ _ _ H)].
  exists (0, w)%N, (0, w)%N. cbn. auto.
Qed.
Lemma ex_arc u e v f : arc_at ex_adj u e v f -> In (v, f) (concat ex_adj).
Proof.
  intros (k & Hk & _). apply nth_error_In in Hk. apply in_concat. exists (nth u ex_adj []). split; auto.
  destruct (Nat.lt_ge_cases u 4) as [L|L]; [apply nth_In; auto|]. rewrite nth_overflow in Hk by auto. destruct Hk.
Qed.
Lemma ex_wf : wf_td 100 INF ex_adj.
Proof.
  intros u e v f H. apply ex_arc in H. cbn in H.
  destruct H as [H|[H|[H|[H|[]]]]]; inversion H; subst; (split; [cbn; lia|split]);
    try apply ex_valid; try apply const_valid; try exact ex_small; intros p [<-|[]]; reflexivity.
Qed.

(** The claim fails: with [now] before the expiry and [until] after it, the live value is ignored; with [until] equal
    to the expiry the result is INFINITY. *)
Theorem C49_live_lower_bound_refuted :
  exists adj live, wf_td 100 INF adj /\
    (exists lb w, pess_live_lower_bound lin_search 100 true (td_of adj) live 0 0 45 = Some lb /\
       pess_eval lin_search 100 true (td_of adj) live 0 5 = Some w /\ (w < lb)%N) /\
    (exists w, pess_live_lower_bound lin_search 100 true (td_of adj) live 0 0 40 = Some INF /\
       pess_eval lin_search 100 true (td_of adj) live 0 5 = Some w /\ (w < INF)%N).
Proof.
  exists ex_adj, [Some (22, 40)%N; None; None; None]. split; [apply ex_wf|]. split.
  - eexists _, _. split; [vm_compute; reflexivity|]. split; [vm_compute; reflexivity|]. reflexivity.
  - eexists. split; [vm_compute; reflexivity|]. split; [vm_compute; reflexivity|]. reflexivity.
Qed.
Print Assumptions C49_live_lower_bound_refuted.

Example C49_nonvacuous :
  wf_td 100 INF ex_adj /\ (exists f, arc_at ex_adj 0 0 1 f) /\
  pess_live_lower_bound lin_search 100 true (td_of ex_adj) [Some (22, 40)%N; None; None; None] 0 10 30 = Some 22%N.
Proof. split; [apply ex_wf|]. split; [exists ex_ttf, 0; auto|]. vm_compute. reflexivity. Qed.

(** raw data without points at 0 and at the period, its completion, and the graph built from it *)
Example C37_nonvacuous :
  raw_ttf 100 [(10, 20); (40, 50); (90, 10)]%N /\ wf_td 100 INF ex_adj /\
  (let r := td_of [[(1, [(10, 20); (40, 50); (90, 10)]%N); (2, [(5, 25)%N])]; [(3, [(10, 20); (40, 50); (90, 10)]%N)]; [(1, [(0, 3)%N])]; []] in
   td_new 100 (td_first_out r) (td_head r) (td_first_ipp r) (td_dt r) (td_tt r)) = Some (td_of ex_adj) /\
  map (td_eval lin_search 100 true (td_of ex_adj) 0) [0; 25; 65; 130]%N = [Some 20; Some 35; Some 30; Some 40]%N /\
  map (live_eval lin_search 100 true (td_of ex_adj) 20 [Some 60; None; None; None]%N 0) [0; 19; 25; 65; 130]%N = [Some 60; Some 60; Some 55; Some 30; Some 40]%N /\
  map (pess_eval lin_search 100 true (td_of ex_adj) [Some (60, 20); None; None; None]%N 0) [0; 19; 25]%N = [Some 50; Some 31; Some 35]%N /\
  pess_upper_bound lin_search 100 true (td_of ex_adj) [Some (60, 20); None; None; None]%N 0 0 = Some 50%N /\
  pess_switching lin_search 100 true (td_of ex_adj) [Some (35, 20); None; None; None]%N 0 = Some (Some 15%N).
Proof.
  split. { split; [discriminate| | |].
    - intros p q H. destruct H as (i & A & B). do 3 (destruct i as [|i]; [cbn in *; try discriminate; inversion A; inversion B; subst; cbn; lia|]). destruct i; discriminate.
    - intros p q H. destruct H as (i & A & B). do 3 (destruct i as [|i]; [cbn in *; try discriminate; inversion A; inversion B; subst; cbn; lia|]). destruct i; discriminate.
    - cbn. intros p q [= <-] [= <-] _. cbn. lia. }
  split; [apply ex_wf|]. vm_compute. repeat split.
Qed.

(** ** C38 *)

Definition td_ok_query (adj : td_adj) (q : nat * nat * N) : Prop := fst (fst q) < length adj /\ snd (fst q) < length adj /\ (snd q < INF)%N.

(** Time-dependent Dijkstra on a [TDGraph]: after any history of queries, the answer to a query is the earliest arrival
    over all walks, and the node path is one that arrives at that time. *)
Theorem C38_td_dijkstra bs P debug adj p0 qs s t dep :
  nbs_contract bs -> (0 < P)%N -> wf_td P INF adj ->
  (forall q, In q (qs ++ [(s, t, dep)]) -> td_ok_query adj q) ->
  let g := td_of adj in
  exists sv1 sv2 r,
    td_history zero_init zero_pot g (td_eval bs P debug g) (sv_new (length adj) p0 tt) qs = Some sv1 /\
    td_query zero_init zero_pot g (td_eval bs P debug g) sv1 s t dep = Some (sv2, r) /\
    earliest (td_step P adj) s dep t r /\
    forall x, r = Some x -> exists p, sv_node_path sv2 s t = Some p /\ NoDup p /\
      exists q, reach_path nat (fun u d e v d' => exists f w, arc_at adj u e v f /\ ttf_value P f d w /\ d' = (d + w)%N) s dep t x p q.
Proof.
  intros HB HP HW Hq g. pose proof (the_pred_ok bs P adj HB HP HW) as HPr. set (pred := the_pred bs P adj) in *.
  destruct (@td_after_history unit adj (td_eval bs P debug g) pred) with (pinit := zero_init) (pget := zero_pot)
    (T := fun _ : nat => True) (EI := fun _ : unit => True) (ET := fun (_ : nat) (_ : unit) => True) (h := fun _ _ : nat => Some 0%N)
    (qs := qs) (sv := sv_new (length adj) p0 tt) (s := s) (t := t) (dep := dep) as (sv1 & sv2 & r & E1 & E2 & X & PP).
  - intros u e v f H. apply (HW _ _ _ _ H).
  - intros u e v f t' H _. apply (td_eval_ok bs P debug adj HB HP HW pred HPr _ _ _ _ _ H).
  - intros u e v f t' H. pose proof (pred_lt bs P debug adj HB HP HW pred HPr _ _ _ _ t' H). lia.
  - intros u e v f H. apply (pred_fifo bs P debug adj HB HP HW pred HPr _ _ _ _ H).
  - apply zero_contract.
  - intros _ _ p [= <-]. unfold INF, U32. lia.
  - intros t' y dy d _ R D. exists 0%N. split; auto. intros q [= <-]. apply tt_reach_ge in R. lia.
  - apply sv_new_ok. auto.
  - intros q Q. destruct (Hq q Q) as (A & B & C). auto.
  - exists sv1, sv2, r. split; auto. split; auto. split.
    + eapply earliest_iff; [|exact X]. apply (step_pred bs P adj HB HP HW pred HPr).
    + intros x Hx. destruct (PP x Hx) as (p & Ep & ND & q & RP). exists p. split; auto. split; auto. exists q.
      clear - RP HPr. induction RP as [|v d l y d' p q RP IH (f & Ha & ->)]; [constructor|]. econstructor; [exact IH|]. exists f, (pred l d). split; auto. split; auto. apply (HPr _ _ _ _ Ha).
Qed.
Print Assumptions C38_td_dijkstra.

(** The same with a potential that never exceeds the remaining travel time at any later departure. *)
Theorem C38_td_astar {E} bs P debug adj p0 (e0 : E) pinit pget (T : nat -> Prop) EI ET h qs s t dep :
  nbs_contract bs -> (0 < P)%N -> wf_td P INF adj ->
  pot_contract (length adj) T pinit pget EI ET h -> EI e0 ->
  (forall t v p, h t v = Some p -> p + INF <= U32)%N ->
  (forall t y dy d, T t -> reach (td_step P adj) y dy t d -> (d < INF)%N ->
     exists p, h t y = Some p /\ forall q, h t t = Some q -> (dy + p <= d + q)%N) ->
  (forall q, In q (qs ++ [(s, t, dep)]) -> td_ok_query adj q /\ T (snd (fst q))) ->
  let g := td_of adj in
  exists sv1 sv2 r,
    td_history pinit pget g (td_eval bs P debug g) (sv_new (length adj) p0 e0) qs = Some sv1 /\
    td_query pinit pget g (td_eval bs P debug g) sv1 s t dep = Some (sv2, r) /\
    earliest (td_step P adj) s dep t r.
Proof.
  intros HB HP HW HC HE0 Hsm Hadm Hq g. pose proof (the_pred_ok bs P adj HB HP HW) as HPr. set (pred := the_pred bs P adj) in *.
  destruct (@td_after_history E adj (td_eval bs P debug g) pred) with (pinit := pinit) (pget := pget)
    (T := T) (EI := EI) (ET := ET) (h := h)
    (qs := qs) (sv := sv_new (length adj) p0 e0 : server unit E) (s := s) (t := t) (dep := dep) as (sv1 & sv2 & r & E1 & E2 & X & PP).
  - intros u e v f H. apply (HW _ _ _ _ H).
  - intros u e v f t' H _. apply (td_eval_ok bs P debug adj HB HP HW pred HPr _ _ _ _ _ H).
  - intros u e v f t' H. pose proof (pred_lt bs P debug adj HB HP HW pred HPr _ _ _ _ t' H). lia.
  - intros u e v f H. apply (pred_fifo bs P debug adj HB HP HW pred HPr _ _ _ _ H).
  - auto.
  - auto.
  - intros t' y dy d HT R D. apply Hadm; auto. eapply reach_iff; [|exact R]. apply (step_pred bs P adj HB HP HW pred HPr).
  - apply sv_new_ok. auto.
  - intros q Q. destruct (Hq q Q) as ((A & B & C) & D). auto.
  - exists sv1, sv2, r. split; auto. split; auto. eapply earliest_iff; [|exact X]. apply (step_pred bs P adj HB HP HW pred HPr).
Qed.
Print Assumptions C38_td_astar.

(** On a [LiveTDGraph]. *)
Theorem C38_live_dijkstra bs P debug adj pred p0 soon live qs s t dep :
  nbs_contract bs -> (0 < P)%N -> wf_td P INF adj -> td_pred P adj pred ->
  length live = length (concat adj) -> (forall lv, In (Some lv) live -> lv <= INF)%N -> (soon <= INF)%N ->
  (forall q, In q (qs ++ [(s, t, dep)]) -> td_ok_query adj q) ->
  let g := td_of adj in
  exists sv1 sv2 r,
    td_history zero_init zero_pot g (live_eval bs P debug g soon live) (sv_new (length adj) p0 tt) qs = Some sv1 /\
    td_query zero_init zero_pot g (live_eval bs P debug g soon live) sv1 s t dep = Some (sv2, r) /\
    earliest (tt_step adj (fun e => overlay (pred e) (nth e live None) soon)) s dep t r.
Proof.
  intros HB HP HW HPr HL Hlv Hs Hq g. set (ov := fun e => overlay (pred e) (nth e live None) soon).
  assert (forall u e v f, arc_at adj u e v f -> nth_error live e = Some (nth e live None)) as EL.
  { intros u e v f H. apply nth_error_nth'. rewrite HL. destruct (arc_lt bs P debug adj HB HP HW _ _ _ _ H) as (_ & En). apply nth_error_Some_lt in En. auto. }
  assert (forall u e v f lv, arc_at adj u e v f -> nth e live None = Some lv -> lv <= INF)%N as LV.
  { intros u e v f lv H En. apply Hlv. rewrite <- En. apply nth_In. pose proof (EL _ _ _ _ H) as EE. apply nth_error_Some_lt in EE. auto. }
  destruct (@td_after_history unit adj (live_eval bs P debug g soon live) ov) with (pinit := zero_init) (pget := zero_pot)
    (T := fun _ : nat => True) (EI := fun _ : unit => True) (ET := fun (_ : nat) (_ : unit) => True) (h := fun _ _ : nat => Some 0%N)
    (qs := qs) (sv := sv_new (length adj) p0 tt) (s := s) (t := t) (dep := dep) as (sv1 & sv2 & r & E1 & E2 & X & PP).
  - intros u e v f H. apply (HW _ _ _ _ H).
  - intros u e v f t' H Ht. apply (live_eval_ok bs P debug adj HB HP HW pred HPr soon live u e v f t' (nth e live None)); eauto.
  - intros u e v f t' H. pose proof (pred_lt bs P debug adj HB HP HW pred HPr _ _ _ _ t' H). unfold ov, overlay.
    destruct (nth e live None) as [lv|] eqn:En; [|lia]. pose proof (LV _ _ _ _ lv H En). destruct (t' <? soon)%N eqn:Et; auto.
    destruct (pred e soon <? lv)%N; lia.
  - intros u e v f H. apply overlay_fifo. apply (pred_fifo bs P debug adj HB HP HW pred HPr _ _ _ _ H).
  - apply zero_contract.
  - intros _ _ p [= <-]. unfold INF, U32. lia.
  - intros t' y dy d _ R D. exists 0%N. split; auto. intros q [= <-]. apply tt_reach_ge in R. lia.
  - apply sv_new_ok. auto.
  - intros q Q. destruct (Hq q Q) as (A & B & C). auto.
  - exists sv1, sv2, r. auto.
Qed.
Print Assumptions C38_live_dijkstra.

(** On a [PessimisticLiveTDGraph]. *)
Theorem C38_pess_dijkstra bs P debug adj pred p0 live qs s t dep :
  nbs_contract bs -> (0 < P)%N -> wf_td P INF adj -> td_pred P adj pred ->
  length live = length (concat adj) -> (forall lv x, In (Some (lv, x)) live -> lv <= INF)%N ->
  (forall q, In q (qs ++ [(s, t, dep)]) -> td_ok_query adj q) ->
  let g := td_of adj in
  exists sv1 sv2 r,
    td_history zero_init zero_pot g (pess_eval bs P debug g live) (sv_new (length adj) p0 tt) qs = Some sv1 /\
    td_query zero_init zero_pot g (pess_eval bs P debug g live) sv1 s t dep = Some (sv2, r) /\
    earliest (tt_step adj (fun e => pess (pred e) (nth e live None))) s dep t r.
Proof.
  intros HB HP HW HPr HL Hlv Hq g. set (ov := fun e => pess (pred e) (nth e live None)).
  assert (forall u e v f, arc_at adj u e v f -> nth_error live e = Some (nth e live None)) as EL.
  { intros u e v f H. apply nth_error_nth'. rewrite HL. destruct (arc_lt bs P debug adj HB HP HW _ _ _ _ H) as (_ & En). apply nth_error_Some_lt in En. auto. }
  assert (forall u e v f lv x, arc_at adj u e v f -> nth e live None = Some (lv, x) -> lv <= INF)%N as LV.
  { intros u e v f lv x H En. apply (Hlv lv x). rewrite <- En. apply nth_In. pose proof (EL _ _ _ _ H) as EE. apply nth_error_Some_lt in EE. auto. }
  destruct (@td_after_history unit adj (pess_eval bs P debug g live) ov) with (pinit := zero_init) (pget := zero_pot)
    (T := fun _ : nat => True) (EI := fun _ : unit => True) (ET := fun (_ : nat) (_ : unit) => True) (h := fun _ _ : nat => Some 0%N)
    (qs := qs) (sv := sv_new (length adj) p0 tt) (s := s) (t := t) (dep := dep) as (sv1 & sv2 & r & E1 & E2 & X & PP).
  - intros u e v f H. apply (HW _ _ _ _ H).
  - intros u e v f t' H Ht. apply (pess_eval_ok bs P debug adj HB HP HW pred HPr live u e v f t' (nth e live None)); eauto.
  - intros u e v f t' H. pose proof (pred_lt bs P debug adj HB HP HW pred HPr _ _ _ _ t' H). unfold ov, pess.
    destruct (nth e live None) as [(lv, x)|] eqn:En; [|lia]. pose proof (LV _ _ _ _ lv x H En). destruct (x <=? t')%N eqn:Et; lia.
  - intros u e v f H. apply pess_fifo. apply (pred_fifo bs P debug adj HB HP HW pred HPr _ _ _ _ H).
  - apply zero_contract.
  - intros _ _ p [= <-]. unfold INF, U32. lia.
  - intros t' y dy d _ R D. exists 0%N. split; auto. intros q [= <-]. apply tt_reach_ge in R. lia.
  - apply sv_new_ok. auto.
  - intros q Q. destruct (Hq q Q) as (A & B & C). auto.
  - exists sv1, sv2, r. auto.
Qed.
Print Assumptions C38_pess_dijkstra.

(** Leaving node 0 at 25 the direct arc takes 35 and the detour 28; at 70 the direct arc is faster. *)
Example C38_nonvacuous :
  wf_td 100 INF ex_adj /\
  (let g := td_of ex_adj in
   let q ev := sv <- td_history zero_init zero_pot g ev (sv_new 4 tt tt) [(0, 3, 70%N); (2, 0, 5%N)] ;;
     '(sv, r) <- td_query zero_init zero_pot g ev sv 0 3 25 ;; p <- sv_node_path sv 0 3 ;;
     '(_, r') <- td_query zero_init zero_pot g ev sv 3 0 25 ;; Some (r, p, r') in
   q (td_eval lin_search 100 true g) = Some (Some 92%N, [0; 2; 1; 3], None) /\
   q (live_eval lin_search 100 true g 60 [Some 5; None; None; None]%N) = Some (Some 70%N, [0; 1; 3], None) /\
   q (pess_eval lin_search 100 true g [None; None; None; Some (33, 60)]%N) = Some (Some 94%N, [0; 1; 3], None)).
Proof. split; [apply ex_wf|]. vm_compute. repeat split. Qed.
