(** C39: the shortcut for disconnected targets. *)
From Verif Require Import Base SpecBits SpecGraph SpecReach BitVec FastClearProof Graph GraphProof GraphRevProof GraphSpecProof IndexHeap TsVec Dijkstra DijServer DisTarget DisTargetProof.

Definition checks (c : cdt) (qs : list (nat * nat)) : option cdt :=
  foldM (fun c '(s, t) => '(c, _) <- check_target c s t ;; Some c) qs c.

(** For every graph and after any history of checks: [check_target(s, t)] terminates (with at most 201 nested calls), it
    is true whenever [t] can be reached from [s]; if it is true although [t] cannot be reached, at least 201 nodes can
    reach [t]. So up to that size the answer is exact. *)
Theorem C39_check_target {W} (adj : list (list (nat * W))) qs s t :
  valid_adj adj -> fits_u32 adj -> (forall q, In q (qs ++ [(s, t)]) -> snd q < length adj) ->
  exists g c0 c c' b, from_adjacency_lists adj = Some g /\ cd_new (num_nodes g) (num_arcs g) (link_iter g) = Some c0 /\
    checks c0 qs = Some c /\ check_target c s t = Some (c', b) /\
    (leads_to adj s t -> b = true) /\ (b = true -> leads_to adj s t \/ reached_from_many adj t 201).
Proof.
  intros HV HF Hq. destruct (adj_graph adj HV HF) as (g & Hg & _). destruct (cd_new_ok adj g HV HF Hg) as (c0 & E0 & C0).
  assert (forall qs c, cd_ok adj c -> (forall q, In q qs -> snd q < length adj) -> exists c', checks c qs = Some c' /\ cd_ok adj c') as CH.
  { clear - HV HF Hg. unfold checks. induction qs as [|(s, t) qs IH]; intros c HC Hq; cbn [foldM]; [eauto|].
    destruct (check_ok adj g HV HF Hg c s t HC (Hq _ (or_introl eq_refl))) as (c' & b & E & C & _). rewrite E. cbn [bind]. apply IH; auto. intros; apply Hq; right; auto. }
  destruct (CH qs c0 C0) as (c & Ec & Cc). { intros; apply Hq; apply in_or_app; auto. }
  destruct (check_ok adj g HV HF Hg c s t Cc) as (c' & b & E & _ & X). { apply (Hq (s, t)). apply in_or_app; right; left; auto. }
  exists g, c0, c, c', b. auto.
Qed.
Print Assumptions C39_check_target.

(** Wrapping any server that answers distance queries exactly: every answer of the wrapped server is exact, after any
    history of queries. [I] is the invariant of the inner server. *)
Theorem C39_wrapped_server_exact {S} (adj : list (list (nat * N))) (inner : S -> nat * nat -> option (S * option N)) (I : S -> Prop) sv0 qs q :
  valid_adj adj -> fits_u32 adj -> I sv0 ->
  let arc u v w := In (v, w) (nth u adj []) in
  (forall sv q, I sv -> fst q < length adj -> snd q < length adj -> exists sv' r, inner sv q = Some (sv', r) /\ I sv' /\ exact_answer arc (fst q) (snd q) r) ->
  (forall q', In q' (qs ++ [q]) -> fst q' < length adj /\ snd q' < length adj) ->
  exists g c0 st st' r, from_adjacency_lists adj = Some g /\ cd_new (num_nodes g) (num_arcs g) (link_iter g) = Some c0 /\
    cd_history inner fst snd (c0, sv0) qs = Some st /\ cd_query inner fst snd st q = Some (st', r) /\ exact_answer arc (fst q) (snd q) r.
Proof.
  intros HV HF H0 arc Hin Hq. destruct (adj_graph adj HV HF) as (g & Hg & _). destruct (cd_new_ok adj g HV HF Hg) as (c0 & E0 & C0).
  set (good := fun q : nat * nat => fst q < length adj /\ snd q < length adj). set (ans := fun (q : nat * nat) r => exact_answer arc (fst q) (snd q) r).
  assert (forall q, good q -> snd q < length adj) as A1 by (intros ? []; auto).
  assert (forall sv q, I sv -> good q -> exists sv' r, inner sv q = Some (sv', r) /\ I sv' /\ ans q r) as A2 by (intros sv q' Hi []; apply Hin; auto).
  assert (forall q, good q -> ~ leads_to adj (fst q) (snd q) -> ans q None) as A3.
  { intros q' _ HN. unfold ans. cbn. intros l Hl. destruct HN. apply (walk_leads adj arc _ _ l); auto. intros u v w Ha. exists w. auto. }
  destruct (wrap_history adj g HV HF Hg inner fst snd I good ans A1 A2 A3 qs c0 sv0 C0 H0) as ((c, sv) & E & C1 & I1). { intros; apply Hq; apply in_or_app; auto. }
  destruct (wrap_ok adj g HV HF Hg inner fst snd I good ans A1 A2 A3 c sv q C1 I1) as (st' & r & E2 & _ & _ & X). { apply Hq. apply in_or_app; right; left; auto. }
  exists g, c0, (c, sv), st', r. auto.
Qed.
Print Assumptions C39_wrapped_server_exact.

(** Two components: {0,1,2} and {3,4}; plus a star of 250 nodes into node 5. *)
Definition ex_dis : list (list (nat * N)) :=
  [[(1, 5%N)]; [(2, 7%N)]; []; [(4, 1%N)]; []; []] ++ repeat [(5, 1%N)] 250.
Example C39_nonvacuous :
  (g <- from_adjacency_lists ex_dis ;; c <- cd_new (num_nodes g) (num_arcs g) (link_iter g) ;;
   c <- checks c [(0, 2); (4, 5)] ;;
   '(c, b1) <- check_target c 0 2 ;; '(c, b2) <- check_target c 3 2 ;; '(c, b3) <- check_target c 2 0 ;;
   '(c, b4) <- check_target c 0 5 ;;
   let inner sv q := plain_dist 256 (link_iter g) sv (fst q) (snd q) 0%N in
   '(st, r1) <- cd_query inner fst snd (c, sv_new 256 tt tt) (0, 2) ;;
   '(st, r2) <- cd_query inner fst snd st (3, 2) ;;
   Some (b1, b2, b3, b4, r1, r2)) = Some (true, false, false, true, Some 12%N, None).
Proof. vm_compute. reflexivity. Qed.
