(** C57, C58: the virtual topocore and the CH potential servers on it. *)
From Verif Require Import Base SpecPQ SpecGraph SpecBits Graph GraphProof GraphRevProof GraphOpsProof GraphSpecProof NodeOrder NodeOrderProof SepTree CCH IndexHeap TsVec TsVecProof Dijkstra DijkstraProof DijServer DijServerProof DijHistProof PLF TopoDij TopoDijProof SpecTopo TopoServerProof VTopo VTopoProof BicProof VCompProof VTBuildProof VTServerProof SpecVT VTPhaseProof VTCoreProof PropsTopo.
From Coq Require Import Permutation.

Lemma split_deg n (nb : nat -> list (nat * N)) vt : vt_good n nb vt -> split_ok n vt -> vt_deg2 vt <= vt_core vt.
Proof.
  intros HV [[r H]|H]; [|pose proof (v_d23 _ _ _ HV); lia].
  unfold node_type in H. destruct (Nat.ltb_spec r (vt_deg3 vt)); [discriminate|]. destruct (Nat.ltb_spec r (vt_deg2 vt)); [discriminate|]. destruct (Nat.ltb_spec r (vt_core vt)); [lia|].
  destruct (nth_error _ _); discriminate.
Qed.

Lemma linked_adj (adj : list (list (nat * N))) u v : u < length adj -> v < length adj ->
  linked adj u v <-> VTBuildProof.adj (length adj) (fun u => nth u adj []) u v.
Proof.
  intros Hu Hv. unfold linked, VTBuildProof.adj. rewrite ins_spec. unfold outs_of. split.
  - intros (w & [H|H]); [right|left; split; auto]; apply in_map_iff; eexists; split; eauto; auto.
  - intros [[_ H]|H]; apply in_map_iff in H; destruct H as ([x w] & <- & H); exists w; auto.
Qed.

(** C57 (construction, separation): the topocore of every nonempty graph is built; every chain of neighbours from a node
    outside the core into the core passes the node's bridge *)
Theorem C57_the_core_is_entered_through_the_bridge :
  forall debug dsort (adj : list (list (nat * N))), key_sort dsort -> valid_adj adj -> fits_u32 adj -> adj <> [] ->
  exists g vt, from_adjacency_lists adj = Some g /\ virtual_topocore debug dsort (num_nodes g) (num_arcs g) (link_iter g) = Some vt /\
    node_order (length adj) (no_order (vt_order vt)) (no_ranks (vt_order vt)) /\
    (split_ok (length adj) vt ->
      (forall u b, bridge_of vt u b -> ~ core_node vt u /\ core_node vt b) /\
      (forall u p v, u < length adj -> chain adj u p v -> ~ core_node vt u -> core_node vt v -> exists b, bridge_of vt u b /\ In b p)).
Proof.
  intros debug dsort adj HS HA HF HNE. destruct (adj_graph adj HA HF) as (g & Eg & Wf & Nn & Na & En & El). destruct HF as [F1 F2].
  assert (Hpos : 0 < length adj). { destruct adj; [congruence|cbn; lia]. }
  destruct (topocore_ok debug dsort HS (length adj) (num_arcs g) (link_iter g) _ En ltac:(congruence) F1 ltac:(rewrite Na; exact F2) Hpos) as (vt & Ev & HV).
  exists g, vt. rewrite Nn. split; auto. split; auto. pose proof (v_order _ _ _ HV) as NO. split; auto. intros Hsp. apply (split_deg _ _ _ HV) in Hsp.
  pose proof NO as (L1 & L2 & L3 & L4).
  assert (Rk : forall u, u < length adj -> exists r, no_rank (vt_order vt) u = Some r /\ nth_error (no_order (vt_order vt)) r = Some u).
  { intros u Hu. destruct (nth_error_lt (no_ranks (vt_order vt)) u) as [r E]; [lia|]. exists r. split; [exact E|]. apply L4; exact E. }
  assert (CN : forall u r, nth_error (no_order (vt_order vt)) r = Some u -> core_node vt u <-> r < vt_core vt).
  { intros u r Hr. destruct (core_ty _ _ vt HV Hsp r u Hr) as (ty & E1 & E2). split.
    - intros (r' & ty' & H1 & H2 & H3). apply L4 in H1. apply L3 in H1. apply L3 in Hr. assert (r' = r) by congruence. subst r'. assert (ty' = ty) by congruence. subst ty'. rewrite E2 in H3. apply Nat.ltb_lt in H3. auto.
    - intros H. exists r, ty. split. { apply L3; auto. } split; auto. rewrite E2. apply Nat.ltb_lt. auto. }
  split.
  - intros u b (r & rb & H1 & H2 & H3). apply L4 in H1. destruct (bridge_spec _ _ vt HV Hsp r u H1) as (ob & B1 & B2 & B3 & _). rewrite H2 in B1. injection B1 as <-.
    split. { rewrite (CN u r H1). intros Hc. apply B2 in Hc. discriminate. } rewrite (CN b rb H3). auto.
  - intros u p v Hu HC. revert Hu. induction HC as [u|u x p v Hl HC IH]; intros Hu N1 C1. { tauto. }
    assert (Hx : x < length adj). { destruct Hl as (w & [Hl|Hl]). { apply (HA _ _ _ (nth_In adj [] Hu) Hl). } destruct (Nat.lt_ge_cases x (length adj)); auto. rewrite nth_overflow in Hl by auto. destruct Hl. }
    destruct (Rk u Hu) as (r & Er & Hr). destruct (Rk x Hx) as (rx & Erx & Hrx).
    destruct (bridge_spec _ _ vt HV Hsp r u Hr) as (ob & B1 & B2 & B3 & B4). rewrite (CN u r Hr) in N1. specialize (B4 ltac:(lia) rx x Hrx (proj1 (linked_adj adj u x Hu Hx) Hl)). destruct B4 as [B4 B5].
    destruct (Nat.lt_ge_cases rx (vt_core vt)) as [A|A].
    + rewrite (B4 A) in B1. exists x. split. { exists r, rx. auto. } right. inversion HC; subst; left; auto.
    + destruct (IH Hx) as (b & (r' & rb & H1 & H2 & H3) & Hb); auto. { rewrite (CN x rx Hrx). lia. }
      exists b. split; [|right; auto]. assert (r' = rx) by congruence. subst r'. rewrite (B5 A) in H2. exists r, rb. split; auto. split; auto. congruence.
Qed.
Print Assumptions C57_the_core_is_entered_through_the_bridge.

Lemma arcs_at_len (adj : list (list (nat * N))) u : arcs_at adj u = length (outs_of (fun u => nth u adj []) u) + length (ins_of (length adj) (fun u => nth u adj []) u).
Proof.
  unfold arcs_at, outs_of, ins_of. rewrite map_length. f_equal.
  rewrite <- (map_nth_seq [] adj) at 1. generalize (seq 0 (length adj)). intros l. induction l as [|x l IH]; auto.
  cbn [map concat flat_map]. rewrite filter_app, !app_length, map_length, IH. auto.
Qed.

(** C57 (queries): the server without core phase answers exactly, after any earlier queries *)
Theorem C57_topocore_server_is_exact :
  forall E debug dsort lsort skip2 skip3 (pinit : E -> nat -> option E) pget EI ET h (adj : list (list (nat * N))),
  key_sort dsort -> sort_contract lsort -> server_input 256 adj ->
  pot_contract (length adj) (fun t => t < length adj) pinit pget EI ET h ->
  exists g, from_adjacency_lists adj = Some g /\
  ((forall t, t < length adj -> lower_bounds (garc (link_iter g)) t (h t)) ->
  forall e, EI e -> exists S0, vs_new false debug dsort lsort g e = Some S0 /\
  (split_ok (length adj) (vs_vt S0) ->
  forall qs, Forall (fun q => fst q < length adj /\ snd q < length adj) qs ->
  exists S, vs_history false skip2 skip3 pinit pget S0 qs = Some S /\
  forall s t, s < length adj -> t < length adj ->
  exists S' r, vs_distance false skip2 skip3 pinit pget S s t = Some (S', r) /\ exact_answer (garc (link_iter g)) s t r /\
    forall x, r = Some x -> exists q, vs_node_path S' s t = Some q /\ npath (garc (link_iter g)) s q t x /\ NoDup q)).
Proof.
  intros E debug dsort lsort skip2 skip3 pinit pget EI ET h adj HS HL (HA & HF & HNE & HW & HD) HP.
  destruct (adj_graph adj HA HF) as (g & Eg & Wf & Nn & Na & En & El). destruct HF as [F1 F2].
  assert (Hpos : 0 < length adj). { destruct adj; [congruence|cbn; lia]. }
  exists g. split; auto. intros HLB e He. unfold vs_new.
  rewrite <- Nn in *.
  assert (Hm : num_arcs g = length (all_arcs (num_nodes g) (fun u => nth u adj []))) by (rewrite <- El; auto).
  destruct (topocore_ok debug dsort HS (num_nodes g) (num_arcs g) (link_iter g) _ En Hm F1 ltac:(rewrite Na; exact F2) Hpos) as (vt & Ev & HV). rewrite Ev. cbn [bind].
  assert (HW' : forall u v w, u < num_nodes g -> In (v, w) (nth u adj []) -> (w <= INF)%N) by eauto.
  destruct (filtered_ok g _ En Hm F1 ltac:(rewrite Na; exact F2) HW' lsort HL vt HV (fun _ _ => true)) as (main & E1 & _ & N1 & _).
  destruct (filtered_ok g _ En Hm F1 ltac:(rewrite Na; exact F2) HW' lsort HL vt HV (fun _ _ => false)) as (comp & E2 & _). rewrite E1. cbn [bind]. rewrite E2. cbn [bind].
  eexists. split; [reflexivity|]. cbn [vs_vt]. intros Hsp qs Hqs. apply (split_deg _ _ _ HV) in Hsp.
  assert (HD' : forall u, u < num_nodes g -> length (outs_of (fun u => nth u adj []) u) + length (ins_of (num_nodes g) (fun u => nth u adj []) u) < 256).
  { intros u Hu. specialize (HD u Hu). rewrite arcs_at_len, <- Nn in HD. exact HD. }
  destruct (plain_history_ok g _ En Hm F1 ltac:(rewrite Na; exact F2) HW' lsort HL vt HV HD' Hsp skip2 skip3 pinit pget EI ET h HP HLB main comp E1 _ qs
    ltac:(rewrite <- N1; apply (sv_new_ok (num_nodes main) EI tt e He)) Hqs) as (sv & Eh & OK).
  exists (S_of vt main comp sv). split; [exact Eh|]. intros s t Hs Ht.
  destruct (plain_distance_ok g _ En Hm F1 ltac:(rewrite Na; exact F2) HW' lsort HL vt HV HD' Hsp skip2 skip3 pinit pget EI ET h HP HLB main comp E1 sv s t OK Hs Ht) as (sv' & r & Q1 & _ & Q2 & Q3). eauto.
Qed.
Print Assumptions C57_topocore_server_is_exact.

(** ** a concrete sort, concrete inputs *)
Fixpoint vins {A} (key : A -> nat) (a : A) (l : list A) : list A := match l with [] => [a] | b :: l' => if key a <=? key b then a :: b :: l' else b :: vins key a l' end.
Definition vsort {A} (key : A -> nat) (l : list A) : list A := fold_right (vins key) [] l.
Lemma vins_in {A} (key : A -> nat) a l x : In x (vins key a l) -> x = a \/ In x l.
Proof. induction l as [|b l IH]; cbn [vins]. { cbn; intuition. } destruct (key a <=? key b); cbn; intuition. Qed.
Lemma vsort_ok {A} (key : A -> nat) l : Permutation (vsort key l) l /\ forall i j a b, i <= j -> nth_error (vsort key l) i = Some a -> nth_error (vsort key l) j = Some b -> key a <= key b.
Proof.
  assert (P1 : forall a s, Permutation (vins key a s) (a :: s)). { intros a s. induction s as [|b s IH]; cbn [vins]; auto. destruct (key a <=? key b); auto. rewrite IH. constructor. }
  assert (S1 : forall s, (fix so l := match l with [] => True | x :: l' => (forall y, In y l' -> key x <= key y) /\ so l' end) (vsort key s)).
  { intros s. induction s as [|a s IH]; cbn [vsort fold_right]; auto. fold (vsort key s). revert IH. induction (vsort key s) as [|b l0 IHl]; cbn [vins]. { intros _. split; auto. intros y []. }
    intros [H1 H2]. destruct (Nat.leb_spec (key a) (key b)). { split; auto. intros y [<-|Hy]; auto. specialize (H1 y Hy). lia. }
    split; [|exact (IHl H2)]. intros y Hy. apply vins_in in Hy. destruct Hy as [->|Hy]; [lia|auto]. }
  split. { induction l as [|a l IH]; cbn [vsort fold_right]; auto. fold (vsort key l). rewrite P1. auto. }
  specialize (S1 l). revert S1. induction (vsort key l) as [|x s IH]; intros HS i j a b Hij Ha Hb. { destruct i; discriminate. }
  destruct HS as [H1 H2]. destruct i as [|i], j as [|j]; cbn [nth_error] in *; try lia. { injection Ha as <-. injection Hb as <-. lia. }
  - injection Ha as <-. apply H1. eapply nth_error_In; eauto.
  - eapply (IH H2 i j); eauto. lia.
Qed.
Example vsort_key_sort : key_sort vsort.
Proof. intros key l. apply vsort_ok. Qed.
Example vsort_contract : sort_contract (W := N) vsort.
Proof. intros key l. apply vsort_ok. Qed.

(** undirected graph from an edge list *)
Definition vt_adj (n : nat) (es : list (nat * nat * N)) : list (list (nat * N)) :=
  map (fun u => flat_map (fun '(a, b, w) => if a =? u then [(b, w)] else if b =? u then [(a, w)] else []) es) (seq 0 n).
Definition input_check (k : nat) (adj : list (list (nat * N))) : bool :=
  let n := length adj in
  forallb (fun l => forallb (fun a => (fst a <? n) && (snd a <=? INF)%N) l) adj && (N.of_nat n + 1 <? 4294967295)%N && (N.of_nat (length (concat adj)) <? 4294967295)%N && negb (n =? 0) &&
  forallb (fun u => arcs_at adj u <? k) (seq 0 n).
Lemma input_check_ok k adj : input_check k adj = true -> server_input k adj.
Proof.
  unfold input_check. rewrite !andb_true_iff, !forallb_forall, !N.ltb_lt. intros ((((H1 & H2) & H3) & H4) & H5). apply negb_true_iff, Nat.eqb_neq in H4.
  assert (HA : forall l v w, In l adj -> In (v, w) l -> v < length adj /\ (w <= INF)%N).
  { intros l v w Hl Hi. specialize (H1 l Hl). rewrite forallb_forall in H1. specialize (H1 _ Hi). cbn [fst snd] in H1. rewrite andb_true_iff, Nat.ltb_lt, N.leb_le in H1. auto. }
  split; [|split; [|split; [|split]]].
  - intros l v w Hl Hi. eapply HA; eauto.
  - split; auto.
  - destruct adj; auto. discriminate.
  - intros u v w Hi. destruct (Nat.lt_ge_cases u (length adj)) as [C|C]; [|rewrite nth_overflow in Hi by auto; destruct Hi]. eapply HA; eauto. apply nth_In; auto.
  - intros u Hu. apply Nat.ltb_lt, H5. apply in_seq. lia.
Qed.
Definition vt_run (bcc : bool) (adj : list (list (nat * N))) (qs : list (nat * nat)) (s t : nat) : option (option N * list nat) :=
  g <- from_adjacency_lists adj ;;
  S <- vs_new bcc true vsort vsort g tt ;;
  S <- vs_history bcc true true zero_init zero_pot S qs ;;
  '(S', r) <- vs_distance bcc true true zero_init zero_pot S s t ;;
  p <- match r with Some _ => vs_node_path S' s t | None => Some [] end ;; Some (r, p).
Definition split_check (n : nat) (vt : vtopo) : bool := existsb (fun r => match node_type vt r with Some Deg2OrLess => true | _ => false end) (seq 0 n) || (vt_core vt =? n).
Lemma split_check_ok n vt : split_check n vt = true -> split_ok n vt.
Proof.
  unfold split_check. rewrite orb_true_iff, existsb_exists, Nat.eqb_eq. intros [(r & _ & H)|H]; [left|right; auto]. exists r. destruct (node_type vt r) as [[]|]; auto; discriminate.
Qed.
(** the ten node graph of C56: core 2 3 4 7, the cycle 4 5 6 and three tails outside; queries with paths through bridges *)
Example C57_nonvacuous : server_input 256 (vt_adj 10 tp_edges) /\
  (g <- from_adjacency_lists (vt_adj 10 tp_edges) ;; vt <- virtual_topocore true vsort (num_nodes g) (num_arcs g) (link_iter g) ;;
   b <- bridge_node vt 9 ;; Some (split_check 10 vt, no_order (vt_order vt), vt_core vt, b)) = Some (true, [4; 2; 7; 3; 0; 1; 8; 9; 6; 5], 4, Some 0) /\
  vt_run false (vt_adj 10 tp_edges) [(9, 0); (3, 3); (6, 1)] 0 8 = Some (Some 17%N, [0; 1; 2; 3; 4; 7; 8]) /\
  vt_run false (vt_adj 10 tp_edges) [(9, 0)] 6 5 = Some (Some 1%N, [6; 5]).
Proof. split. { apply input_check_ok. vm_compute. reflexivity. } split; [|split]; vm_compute; reflexivity. Qed.

(** C57 is sharp: a nonempty graph is needed *)
Theorem C57_empty_graph_panics_refuted : exists g, from_adjacency_lists (W := N) [] = Some g /\
  forall debug dsort, virtual_topocore debug dsort (num_nodes g) (num_arcs g) (link_iter g) = None.
Proof. eexists. split; [vm_compute; reflexivity|]. intros [|] dsort; vm_compute; reflexivity. Qed.
Print Assumptions C57_empty_graph_panics_refuted.

(** C57 is sharp: if the core (here the complete graph 0 1 2 3) has no node of degree at most two, the node of degree four
    behind it counts as a core node of degree three; an answer is lost *)
Definition k4_adj : list (list (nat * N)) := vt_adj 8 [(0,1,1%N);(0,2,1%N);(0,3,1%N);(1,2,1%N);(1,3,1%N);(2,3,1%N);(0,4,1%N);(4,5,1%N);(4,6,1%N);(4,7,1%N)].
Theorem C57_core_without_low_degrees_loses_answers_refuted :
  server_input 256 k4_adj /\
  exists g S0 S', from_adjacency_lists k4_adj = Some g /\ vs_new false true vsort vsort g tt = Some S0 /\
    no_rank (vt_order (vs_vt S0)) 4 = Some 4 /\ vt_core (vs_vt S0) = 4 /\ node_type (vs_vt S0) 4 = Some Deg3 /\ length (nth 4 k4_adj []) = 4 /\
    vs_distance false true true zero_init zero_pot S0 0 6 = Some (S', None) /\ walk (garc (link_iter g)) 0 6 2.
Proof.
  split. { apply input_check_ok. vm_compute. reflexivity. }
  eexists; eexists; eexists. split; [vm_compute; reflexivity|]. split; [vm_compute; reflexivity|]. split; [reflexivity|]. split; [reflexivity|]. split; [reflexivity|]. split; [reflexivity|]. split; [vm_compute; reflexivity|].
  replace 2%N with (1 + (1 + 0))%N by reflexivity.
  econstructor. { eexists. split; [vm_compute; reflexivity|]. do 3 right. left. reflexivity. }
  econstructor. { eexists. split; [vm_compute; reflexivity|]. do 2 right. left. reflexivity. } constructor.
Qed.
Print Assumptions C57_core_without_low_degrees_loses_answers_refuted.

(** C57 is sharp: degrees are kept in eight bits. In a star of 258 arms (two of its leaf pairs joined to form a core) the
    centre has degree 258, is taken for a node of degree two, and almost all answers through it are lost *)
Definition star_adj : list (list (nat * N)) := vt_adj 259 (map (fun i => (0, S i, 1%N)) (seq 0 258) ++ [(1,2,1%N);(2,3,1%N)]).
Lemma garc_nth (g : fograph N) u i v w l : link_iter g u = Some l -> nth_error l i = Some (v, w) -> garc (link_iter g) u v w.
Proof. intros H1 H2. exists l. split; auto. eapply nth_error_In; eauto. Qed.
Theorem C57_eight_bit_degrees_lose_answers_refuted :
  server_input 517 star_adj /\
  exists g S0 S', from_adjacency_lists star_adj = Some g /\ vs_new false true vsort vsort g tt = Some S0 /\ split_ok 259 (vs_vt S0) /\
    vs_distance false true true zero_init zero_pot S0 1 200 = Some (S', None) /\ walk (garc (link_iter g)) 1 200 2.
Proof.
  split. { apply input_check_ok. vm_compute. reflexivity. }
  destruct (input_check_ok 517 star_adj) as (HA & HF & _). { vm_compute. reflexivity. }
  destruct (adj_graph star_adj HA HF) as (g & Eg & _ & _ & _ & En & _).
  assert (C : match from_adjacency_lists star_adj with Some g => match vs_new false true vsort vsort g tt with
    | Some S0 => split_check 259 (vs_vt S0) && match vs_distance false true true zero_init zero_pot S0 1 200 with Some (_, None) => true | _ => false end
    | None => false end | None => false end = true) by (vm_compute; reflexivity).
  rewrite Eg in C. destruct (vs_new false true vsort vsort g tt) as [S0|] eqn:E0; [|discriminate C]. apply andb_true_iff in C. destruct C as [C1 C2].
  destruct (vs_distance false true true zero_init zero_pot S0 1 200) as [[S' [x|]]|] eqn:E1; try discriminate C2.
  exists g, S0, S'. split; [exact Eg|]. split; [exact E0|]. split; [exact (split_check_ok _ _ C1)|]. split; [exact E1|].
  assert (Len : length star_adj = 259) by (vm_compute; reflexivity).
  assert (A1 : garc (link_iter g) 1 0 1%N). { apply (garc_nth g 1 0 0 1%N (nth 1 star_adj [])). { apply En. rewrite Len. apply Nat.ltb_lt. reflexivity. } vm_compute. reflexivity. }
  assert (A2 : garc (link_iter g) 0 200 1%N). { apply (garc_nth g 0 199 200 1%N (nth 0 star_adj [])). { apply En. rewrite Len. apply Nat.ltb_lt. reflexivity. } vm_compute. reflexivity. }
  exact (walk_cons _ _ _ _ _ _ A1 (walk_cons _ _ _ _ _ _ A2 (walk_nil _ _))).
Qed.
Print Assumptions C57_eight_bit_degrees_lose_answers_refuted.

(** C58 fails: the server with a core phase loses answers. Triangle 0 1 2, behind node 0 a node 3 with leaves 4 5 6; all
    weights 1. The query from 0 to 4 answers None, with potential zero and with exact potentials alike. *)
Definition tri_adj : list (list (nat * N)) := vt_adj 7 [(0,1,1%N);(1,2,1%N);(2,0,1%N);(0,3,1%N);(3,4,1%N);(3,5,1%N);(3,6,1%N)].
Definition tri_pot (_ : unit) (v : nat) : option (unit * option N) := Some (tt, nth_error [2; 3; 3; 1; 0; 2; 2]%N v).
Theorem C58_core_phase_loses_answers_refuted :
  server_input 256 tri_adj /\
  exists g S0, from_adjacency_lists tri_adj = Some g /\ vs_new true true vsort vsort g tt = Some S0 /\ split_ok 7 (vs_vt S0) /\
    (exists S', vs_distance true true true zero_init zero_pot S0 0 4 = Some (S', None)) /\
    (exists S', vs_distance true true true zero_init tri_pot S0 0 4 = Some (S', None)) /\ walk (garc (link_iter g)) 0 4 2.
Proof.
  split. { apply input_check_ok. vm_compute. reflexivity. }
  eexists; eexists. split; [vm_compute; reflexivity|]. split; [vm_compute; reflexivity|]. split. { apply split_check_ok. vm_compute. reflexivity. }
  split. { eexists. vm_compute. reflexivity. } split. { eexists. vm_compute. reflexivity. }
  replace 2%N with (1 + (1 + 0))%N by reflexivity.
  econstructor. { eapply (garc_nth _ 0 2); vm_compute; reflexivity. } econstructor. { eapply (garc_nth _ 3 1); vm_compute; reflexivity. } constructor.
Qed.
Print Assumptions C58_core_phase_loses_answers_refuted.

(** C58 (positive part): with feasible potentials the server with a core phase answers exactly, with its path, between
    nodes attached to the core at different places, after any earlier queries of this kind. Missing from C58: pairs
    attached at the same place (refuted above). *)
Theorem C58_core_phase_is_exact_between_different_bridges_partial :
  forall E debug dsort lsort skip2 skip3 (pinit : E -> nat -> option E) pget EI ET h (adj : list (list (nat * N))),
  key_sort dsort -> sort_contract lsort -> server_input 256 adj ->
  pot_contract (length adj) (fun t => t < length adj) pinit pget EI ET h ->
  exists g, from_adjacency_lists adj = Some g /\
  ((forall t, t < length adj -> feasible_pot (garc (link_iter g)) t (h t) /\ forall v p, h t v = Some p -> (p + INF < U32)%N) ->
  forall e, EI e -> exists S0, vs_new true debug dsort lsort g e = Some S0 /\
  (split_ok (length adj) (vs_vt S0) ->
  forall qs, Forall (fun q => fst q < length adj /\ snd q < length adj /\ (fst q = snd q \/ apart (vs_vt S0) (fst q) (snd q))) qs ->
  exists S, vs_history true skip2 skip3 pinit pget S0 qs = Some S /\
  forall s t, s < length adj -> t < length adj -> s = t \/ apart (vs_vt S0) s t ->
  exists S' r, vs_distance true skip2 skip3 pinit pget S s t = Some (S', r) /\ exact_answer (garc (link_iter g)) s t r /\
    forall x, r = Some x -> exists q, vs_node_path S' s t = Some q /\ npath (garc (link_iter g)) s q t x /\ NoDup q)).
Proof.
  intros E debug dsort lsort skip2 skip3 pinit pget EI ET h adj HS HL (HA & HF & HNE & HW & HD) HP.
  destruct (adj_graph adj HA HF) as (g & Eg & Wf & Nn & Na & En & El). destruct HF as [F1 F2].
  assert (Hpos : 0 < length adj). { destruct adj; [congruence|cbn; lia]. }
  exists g. split; auto. intros HLB e He. unfold vs_new.
  rewrite <- Nn in *.
  assert (Hm : num_arcs g = length (all_arcs (num_nodes g) (fun u => nth u adj []))) by (rewrite <- El; auto).
  destruct (topocore_ok debug dsort HS (num_nodes g) (num_arcs g) (link_iter g) _ En Hm F1 ltac:(rewrite Na; exact F2) Hpos) as (vt & Ev & HV). rewrite Ev. cbn [bind].
  assert (HW' : forall u v w, u < num_nodes g -> In (v, w) (nth u adj []) -> (w <= INF)%N) by eauto.
  destruct (filtered_ok g _ En Hm F1 ltac:(rewrite Na; exact F2) HW' lsort HL vt HV (core_arc vt)) as (main & E1 & _ & N1 & _).
  destruct (filtered_ok g _ En Hm F1 ltac:(rewrite Na; exact F2) HW' lsort HL vt HV (comp_arc vt)) as (comp & E2 & _). rewrite E1. cbn [bind]. rewrite E2. cbn [bind].
  eexists. split; [reflexivity|]. cbn [vs_vt]. intros Hsp qs Hqs. apply (split_deg _ _ _ HV) in Hsp.
  assert (HD' : forall u, u < num_nodes g -> length (outs_of (fun u => nth u adj []) u) + length (ins_of (num_nodes g) (fun u => nth u adj []) u) < 256).
  { intros u Hu. specialize (HD u Hu). rewrite arcs_at_len, <- Nn in HD. exact HD. }
  destruct (core_history_ok g _ En Hm F1 ltac:(rewrite Na; exact F2) HW' lsort HL vt HV HD' Hsp skip2 skip3 pinit pget EI ET h HP HLB main comp E1 E2 _ qs
    ltac:(rewrite <- N1; apply (sv_new_ok (num_nodes main) EI tt e He)) Hqs) as (sv & Eh & OK).
  exists (S_of vt main comp sv). split; [exact Eh|]. intros s t Hs Ht Hst.
  destruct (core_distance_ok g _ En Hm F1 ltac:(rewrite Na; exact F2) HW' lsort HL vt HV HD' Hsp skip2 skip3 pinit pget EI ET h HP HLB main comp E1 E2 sv s t OK Hs Ht Hst) as (sv' & r & Q1 & _ & Q2 & Q3). eauto.
Qed.
Print Assumptions C58_core_phase_is_exact_between_different_bridges_partial.

(** the ten node graph again, with the core phase: 0 is attached at 2, 8 at 7, 6 at 4; 3 is a core node *)
Definition att_node (vt : vtopo) (u : nat) : option (option nat) :=
  r <- no_rank (vt_order vt) u ;; ty <- node_type vt r ;; if in_core ty then Some (Some u) else
  ob <- bridge_node vt r ;; match ob with Some b => x <- no_node (vt_order vt) b ;; Some (Some x) | None => Some None end.
Lemma att_node_ok vt u o : att_node vt u = Some o -> forall o', attached vt u o' -> o' = o.
Proof.
  unfold att_node. destruct (no_rank (vt_order vt) u) as [r|] eqn:Er; [|discriminate]. cbn [bind]. destruct (node_type vt r) as [ty|] eqn:Et; [|discriminate]. cbn [bind].
  destruct (in_core ty) eqn:Ec.
  - intros [= <-] o' [[_ H]|[H _]]; auto. exfalso. apply H. exists r, ty. auto.
  - destruct (bridge_node vt r) as [ob|] eqn:Eb; [|discriminate]. cbn [bind]. intros Ho o' [[(r' & ty' & H1 & H2 & H3) _]|[_ H]]. { rewrite Er in H1. injection H1 as <-. congruence. }
    destruct ob as [b|].
    + destruct (no_node (vt_order vt) b) as [x|] eqn:Ex; [|discriminate]. injection Ho as <-. destruct o' as [b'|].
      * destruct H as (r' & rb & H1 & H2 & H3). congruence.
      * exfalso. apply (H x). exists r, b. auto.
    + injection Ho as <-. destruct o' as [b'|]; auto. destruct H as (r' & rb & H1 & H2 & H3). congruence.
Qed.
Lemma apart_check vt u v a b : att_node vt u = Some a -> att_node vt v = Some b -> a <> b -> apart vt u v.
Proof. intros H1 H2 Hne o X1 X2. apply Hne. rewrite <- (att_node_ok vt u a H1 o X1). apply (att_node_ok vt v b H2 o X2). Qed.
Lemma zero_feasible (arc : nat -> nat -> N -> Prop) t : feasible_pot arc t (fun _ => Some 0%N).
Proof. split; auto. intros u v w q _ _. exists 0%N. split; auto. lia. Qed.
Example C58_partial_nonvacuous :
  server_input 256 (vt_adj 10 tp_edges) /\ pot_contract 10 (fun t => t < 10) zero_init zero_pot (fun _ => True) (fun _ _ => True) (fun _ _ => Some 0%N) /\
  exists g S0, from_adjacency_lists (vt_adj 10 tp_edges) = Some g /\ vs_new true true vsort vsort g tt = Some S0 /\ split_ok 10 (vs_vt S0) /\
    apart (vs_vt S0) 0 8 /\ apart (vs_vt S0) 9 0 /\ apart (vs_vt S0) 3 6 /\
    vt_run true (vt_adj 10 tp_edges) [(9, 0); (3, 3); (3, 6)] 0 8 = Some (Some 17%N, [0; 1; 2; 3; 4; 7; 8]).
Proof.
  split. { apply input_check_ok. vm_compute. reflexivity. }
  split. { split; auto; intros []; intros; exists tt; auto. }
  eexists; eexists. split; [vm_compute; reflexivity|]. split; [vm_compute; reflexivity|]. split. { apply split_check_ok. vm_compute. reflexivity. }
  split; [|split; [|split]]; [eapply apart_check; [vm_compute; reflexivity|vm_compute; reflexivity|congruence]..|]. vm_compute. reflexivity.
Qed.
