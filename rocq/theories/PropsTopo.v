(** C56: queries that walk through low degree nodes without queueing them. *)
From Verif Require Import Base SpecGraph SpecBits IndexHeap TsVec Graph Dijkstra DijServer DijServerProof DijHistProof PLF TopoDij SpecTopo TopoDijProof TopoServerProof.

(** C56 (exactness, paths, histories): any graph with a usable degree report, any potential object reporting lower
    bounds, any of the four compile time switches, any earlier operations, any cap *)
Theorem C56_degree_skipping_queries_answer_up_to_the_cap :
  forall E n links sdeg skip2 skip3 (pinit : E -> nat -> option E) pget EI ET h,
  wf_links n links -> pot_contract n (fun t => t < n) pinit pget EI ET h ->
  (forall t, t < n -> lower_bounds (garc links) t (h t)) -> degree_report n links sdeg ->
  forall e ops, EI e -> Forall (sk_ok n) ops ->
  exists sv, sk_history n links sdeg skip2 skip3 pinit pget e ops = Some sv /\
  forall s t cap, s < n -> t < n ->
  exists sv' r, sk_distance n links sdeg skip2 skip3 pinit pget sv s t cap = Some (sv', r) /\
    capped_answer (garc links) cap s t r /\
    forall x, r = Some x -> exists p y, sv_node_path sv' s t = Some p /\ npath (garc links) s p t y /\ (y <= x)%N /\ NoDup p.
Proof.
  intros E n links sdeg skip2 skip3 pinit pget EI ET h WF HP HL HD e ops He Hops.
  destruct (sk_hist_ok n links sdeg skip2 skip3 pinit pget EI ET h WF HP HL HD e ops He Hops) as (sv & E1 & OK).
  exists sv. split; auto. intros s t cap Hs Ht.
  destruct (sk_distance_ok n links sdeg skip2 skip3 pinit pget EI ET h WF HP HL HD sv s t cap OK Hs Ht) as (sv' & r & E2 & _ & X). eauto.
Qed.
Print Assumptions C56_degree_skipping_queries_answer_up_to_the_cap.

(** C56: without a cap (cap [INF], the [query] method) answers are exact and the reported path is a shortest one *)
Theorem C56_degree_skipping_queries_are_exact :
  forall E n links sdeg skip2 skip3 (pinit : E -> nat -> option E) pget EI ET h,
  wf_links n links -> pot_contract n (fun t => t < n) pinit pget EI ET h ->
  (forall t, t < n -> lower_bounds (garc links) t (h t)) -> degree_report n links sdeg ->
  forall e ops, EI e -> Forall (sk_ok n) ops ->
  exists sv, sk_history n links sdeg skip2 skip3 pinit pget e ops = Some sv /\
  forall s t, s < n -> t < n ->
  exists sv' r, sk_distance n links sdeg skip2 skip3 pinit pget sv s t INF = Some (sv', r) /\
    exact_answer (garc links) s t r /\
    forall x, r = Some x -> exists p, sv_node_path sv' s t = Some p /\ npath (garc links) s p t x /\ NoDup p.
Proof.
  intros E n links sdeg skip2 skip3 pinit pget EI ET h WF HP HL HD e ops He Hops.
  destruct (C56_degree_skipping_queries_answer_up_to_the_cap E n links sdeg skip2 skip3 pinit pget EI ET h WF HP HL HD e ops He Hops) as (sv & E1 & X).
  exists sv. split; auto. intros s t Hs Ht. destruct (X s t INF Hs Ht) as (sv' & r & E2 & C & Y).
  pose proof (capped_exact _ _ _ _ C) as EX. exists sv', r. split; auto. split; auto.
  intros x Ex. destruct (Y x Ex) as (p & y & P1 & P2 & P3 & P4). exists p. split; auto. split; auto.
  subst r. destruct EX as (_ & _ & M). specialize (M y (npath_walk _ _ _ _ _ P2)). assert (y = x) by lia. subst; auto.
Qed.
Print Assumptions C56_degree_skipping_queries_are_exact.

(** C56: one_to_all labels every node with its exact distance *)
Theorem C56_degree_skipping_one_to_all_is_exact :
  forall E n links sdeg skip2 skip3 (pinit : E -> nat -> option E) pget EI ET h,
  wf_links n links -> pot_contract n (fun t => t < n) pinit pget EI ET h ->
  (forall t, t < n -> lower_bounds (garc links) t (h t)) -> degree_report n links sdeg ->
  forall e ops, EI e -> Forall (sk_ok n) ops ->
  exists sv, sk_history n links sdeg skip2 skip3 pinit pget e ops = Some sv /\
  forall s, s < n -> exists sv', sk_all n links sdeg skip2 skip3 sv s = Some sv' /\
  forall v, v < n -> exists x, sv_dist_of sv' v = Some x /\ exact_answer (garc links) s v (if (x <? INF)%N then Some x else None) /\
    ((x < INF)%N -> exists p, sv_node_path sv' s v = Some p /\ npath (garc links) s p v x /\ NoDup p).
Proof.
  intros E n links sdeg skip2 skip3 pinit pget EI ET h WF HP HL HD e ops He Hops.
  destruct (sk_hist_ok n links sdeg skip2 skip3 pinit pget EI ET h WF HP HL HD e ops He Hops) as (sv & E1 & OK).
  exists sv. split; auto. intros s Hs.
  destruct (sk_all_ok n links sdeg skip2 skip3 pinit pget EI ET h WF HP HL HD sv s OK Hs) as (sv' & E2 & _ & X). eauto.
Qed.
Print Assumptions C56_degree_skipping_one_to_all_is_exact.

(** a graph with chains, two nodes of degree three and one of degree five (node 4); all arcs in both directions *)
Definition tp_edges : list (nat * nat * N) :=
  [(0, 1, 2%N); (1, 2, 3%N); (2, 3, 4%N); (3, 4, 1%N); (4, 5, 7%N); (5, 6, 1%N); (6, 4, 3%N); (4, 7, 2%N); (2, 7, 9%N); (7, 8, 5%N); (4, 9, 1%N)].
Definition tp_links (u : nat) : option (list (nat * N)) :=
  if u <? 10 then Some (flat_map (fun '(a, b, w) => if a =? u then [(b, w)] else if b =? u then [(a, w)] else []) tp_edges) else None.
Definition tp_deg (u : nat) : option symdeg :=
  match tp_links u with
  | Some ls => Some (if length ls <? 3 then LessEqTwo else if length ls =? 3 then Three else GreaterEqFour)
  | None => None
  end.
Definition tp_check_wf : bool := forallb (fun u => match tp_links u with Some ls => forallb (fun a => (fst a <? 10) && (snd a <=? INF)%N) ls | None => false end) (seq 0 10).
Definition tp_check_deg : bool := forallb (fun u => match tp_links u with
  | Some ls => forallb (fun a => match tp_deg (fst a) with
     | Some LessEqTwo => length (out_other tp_links u (fst a)) <=? 1 | Some Three => length (out_other tp_links u (fst a)) <=? 2 | _ => true end) ls
  | None => false end) (seq 0 10).
Example C56_report_nonvacuous : wf_links 10 tp_links /\ degree_report 10 tp_links tp_deg.
Proof.
  assert (C1 : tp_check_wf = true) by (vm_compute; reflexivity). assert (C2 : tp_check_deg = true) by (vm_compute; reflexivity).
  unfold tp_check_wf, tp_check_deg in *. rewrite forallb_forall in C1, C2.
  split. { intros u Hu. assert (Iu : In u (seq 0 10)) by (apply in_seq; lia). specialize (C1 u Iu). destruct (tp_links u) as [ls|]; [|discriminate].
    exists ls. split; auto. intros v w Hi. rewrite forallb_forall in C1. specialize (C1 (v, w) Hi). cbn [fst snd] in C1. apply andb_true_iff in C1. destruct C1 as [A B].
    apply Nat.ltb_lt in A. apply N.leb_le in B. auto. }
  split. { intros v Hv. assert (Iv : In v (seq 0 10)) by (apply in_seq; lia). specialize (C1 v Iv). unfold tp_deg. destruct (tp_links v); discriminate. }
  intros u v w Hu (ls & Els & Hi). assert (Iu : In u (seq 0 10)) by (apply in_seq; lia). specialize (C2 u Iu). rewrite Els in C2. rewrite forallb_forall in C2.
  specialize (C2 (v, w) Hi). cbn [fst] in C2. split; intros Hd; rewrite Hd in C2; apply Nat.leb_le in C2; auto.
Qed.
Example C56_run_nonvacuous :
  (sv <- sk_history 10 tp_links tp_deg true true zero_init zero_pot tt [SkQuery 9 0 5; SkAll 6; SkQuery 3 3 0] ;;
   '(sv1, a) <- sk_distance 10 tp_links tp_deg true true zero_init zero_pot sv 0 8 INF ;;
   p <- sv_node_path sv1 0 8 ;;
   '(sv2, b) <- sk_distance 10 tp_links tp_deg true true zero_init zero_pot sv1 6 0 INF ;;
   q <- sv_node_path sv2 6 0 ;;
   '(sv3, c) <- sk_distance 10 tp_links tp_deg true true zero_init zero_pot sv2 6 0 4 ;;
   Some (a, p, b, q, c))
  = Some (Some 17%N, [0; 1; 2; 3; 4; 7; 8], Some 13%N, [6; 4; 3; 2; 1; 0], Some 13%N).
Proof. vm_compute. reflexivity. Qed.

(** C56 is sharp in the degree report: a node of degree three reported as having degree at most two loses answers *)
Theorem C56_wrong_degree_report_loses_paths_refuted :
  exists n links sdeg, wf_links n links /\ (forall v, v < n -> sdeg v <> None) /\
  exists sv sv', sk_history n links sdeg true true zero_init zero_pot tt [] = Some sv /\
    sk_distance n links sdeg true true zero_init zero_pot sv 0 2 INF = Some (sv', None) /\ walk (garc links) 0 2 2.
Proof.
  set (links := fun u => nth_error [[(1, 1%N)]; [(2, 1%N); (3, 1%N)]; []; []] u).
  exists 4, links, (fun _ => Some LessEqTwo). split.
  { intros u Hu. do 4 (destruct u as [|u]; [eexists; split; [reflexivity|]; cbn; intros v w H; repeat destruct H as [[= <- <-]|H]; try tauto; unfold INF; split; lia|]). lia. }
  split; [discriminate|].
  eexists; eexists. split; [vm_compute; reflexivity|]. split; [vm_compute; reflexivity|].
  replace 2%N with (1 + (1 + 0))%N by reflexivity. econstructor. { exists [(1, 1%N)]. split; [reflexivity|left; reflexivity]. }
  econstructor. { exists [(2, 1%N); (3, 1%N)]. split; [reflexivity|left; reflexivity]. } constructor.
Qed.
Print Assumptions C56_wrong_degree_report_loses_paths_refuted.
