(** Contraction with witness search: the initial graph and the result. *)
From Verif Require Import Base SpecGraph SpecCCH SpecCH IndexHeap TsVec TsVecProof Graph GraphProof GraphRevProof GraphSpecProof Dijkstra LoopProof DijServer Bidir DijkstraRef CCHContractProof CHPrep CHPrepProof CHContrProof.

Lemma from_adj_fits (adj : list (list (nat * N))) g : from_adjacency_lists adj = Some g -> fits_u32 adj.
Proof.
  unfold from_adjacency_lists, fo_new. intros E. destruct (N.ltb_spec (N.of_nat (length (degrees_to_first_out (map (@length _) adj)))) U32MAX) as [H1|]; cbn [guard bind] in E; [|discriminate].
  destruct (N.ltb_spec (N.of_nat (length (map fst (concat adj)))) U32MAX) as [H2|]; cbn [guard bind] in E; [|discriminate].
  rewrite map_length in H2. unfold degrees_to_first_out in H1. cbn [length] in H1. rewrite scan_sum_length, map_length in H1. unfold U32MAX in *. split; lia.
Qed.

Lemma from_adj_weight (adj : list (list (nat * N))) g : from_adjacency_lists adj = Some g -> weight g = map snd (concat adj).
Proof.
  unfold from_adjacency_lists, fo_new. intros E. destruct (guard _); cbn [bind] in E; [|discriminate]. destruct (guard _); cbn [bind] in E; [|discriminate].
  destruct (nth_error _ 0); cbn [bind] in E; [|discriminate]. destruct (guard _); cbn [bind] in E; [|discriminate]. destruct (nth_error _ _); cbn [bind] in E; [|discriminate].
  destruct (guard _); cbn [bind] in E; [|discriminate]. destruct (guard _); cbn [bind] in E; [|discriminate]. injection E as <-. auto.
Qed.

Lemma filter_flat {A B} (f : A -> bool) (g : B -> list A) l : filter f (flat_map g l) = flat_map (fun x => filter f (g x)) l.
Proof. induction l as [|b l IH]; cbn; auto. rewrite filter_app, IH. auto. Qed.
Lemma flat_single {A} (g : nat -> list A) u n : (forall x, x <> u -> g x = []) -> u < n -> flat_map g (seq 0 n) = g u.
Proof.
  intros H Hu. replace n with (u + S (n - u - 1)) by lia. rewrite seq_app, flat_map_app. cbn [seq flat_map Nat.add].
  assert (Z : forall l, ~ In u l -> flat_map g l = []). { induction l as [|x l IH]; intros Hn; auto. cbn. rewrite H by (intros ->; apply Hn; left; auto). apply IH. intros X. apply Hn. right; auto. }
  rewrite !Z; [rewrite app_nil_r; auto|rewrite in_seq; lia|rewrite in_seq; lia].
Qed.
Lemma incoming_count (adj : list (list (nat * N))) u v : u < length adj ->
  length (filter (fun a => fst a =? u) (incoming adj v)) = length (filter (fun a => fst a =? v) (nth u adj [])).
Proof.
  intros Hu. unfold incoming. rewrite filter_flat. rewrite (flat_single _ u).
  - generalize (filter (fun a => fst a =? v) (nth u adj [])). induction l as [|a l IH]; cbn; auto. rewrite Nat.eqb_refl. cbn. auto.
  - intros x Nx. generalize (filter (fun a => fst a =? v) (nth x adj [])). induction l as [|a l IH]; cbn; auto. replace (x =? u) with false by lia. auto.
  - auto.
Qed.
Lemma incoming_In (adj : list (list (nat * N))) u v w : In (u, w) (incoming adj v) <-> u < length adj /\ In (v, w) (nth u adj []).
Proof.
  unfold incoming. rewrite in_flat_map. split.
  - intros (x & Hx & Hin). apply in_seq in Hx. apply in_map_iff in Hin as ((h & y) & [= -> ->] & Hf). apply filter_In in Hf as [Hf E]. cbn in E. apply Nat.eqb_eq in E. subst h. split; [lia|auto].
  - intros [Hu Hin]. exists u. split; [apply in_seq; lia|]. apply in_map_iff. exists (v, w). split; auto. apply filter_In. split; auto. cbn. apply Nat.eqb_refl.
Qed.

Section Init.
  Variable adj : list (list (nat * N)).
  Variable g : fograph N.
  Variables order ranks : list nat.
  Let n := length adj.
  Hypothesis HV : valid_adj adj.
  Hypothesis Hg : from_adjacency_lists adj = Some g.
  Hypothesis HO : node_order n order ranks.
  Let ord x := nth x order 0.
  Let rk v := nth v ranks 0.

  Lemma ord_nth x : x < n -> nth_error order x = Some (ord x) /\ ord x < n /\ rk (ord x) = x.
  Proof using HO.
    intros Hx. destruct HO as (L1 & L2 & H1 & H2). assert (E : nth_error order x = Some (ord x)) by (apply nth_error_nth'; lia). pose proof (H1 _ _ E) as E2. split; auto. split. { rewrite <- L2. eapply nth_error_Some_lt; eauto. } apply nth_error_nth; auto.
  Qed.
  Lemma rk_nth v : v < n -> nth_error ranks v = Some (rk v) /\ rk v < n /\ ord (rk v) = v.
  Proof using HO.
    intros Hx. destruct HO as (L1 & L2 & H1 & H2). assert (E : nth_error ranks v = Some (rk v)) by (apply nth_error_nth'; lia). pose proof (H2 _ _ E) as E2. split; auto. split. { rewrite <- L1. eapply nth_error_Some_lt; eauto. } apply nth_error_nth; auto.
  Qed.

  (** the arcs between ranks, without loops *)
  Definition rarc (x y : nat) (w : N) : Prop := x <> y /\ x < n /\ y < n /\ adj_arc adj (ord x) (ord y) w.
  Definition ini (ls : nat -> list (nat * N)) (x : nat) : list carc := map (fun a => (rk (fst a), snd a, n)) (filter (fun a => negb (fst a =? ord x)) (ls (ord x))).

  Lemma cg_arcs_ok links ls x : x < n -> (forall u, u < n -> links u = Some (ls u) /\ forall v w, In (v, w) (ls u) -> v < n) -> cg_arcs n order ranks links x = Some (ini ls x).
  Proof using HO.
    intros Hx Hl. destruct (ord_nth x Hx) as (E1 & E2 & E3). unfold cg_arcs. rewrite E1. cbn [bind]. destruct (Hl _ E2) as [-> Hv]. cbn [bind]. unfold ini.
    apply mapM_Some. intros (v & w) Hin. apply filter_In in Hin as [Hin _]. cbn [fst snd]. destruct (rk_nth v) as (-> & _); [eapply Hv; eauto|]. auto.
  Qed.
  Definition start : list cnode := combine (map (ini (fun u => nth u adj [])) (seq 0 n)) (map (ini (incoming adj)) (seq 0 n)).
  Lemma cg_new_ok : cg_new (num_nodes g) (num_arcs g) order ranks (link_iter g) = Some start /\ num_nodes g = n.
  Proof using HO HV Hg.
    pose proof (from_adj_fits _ _ Hg) as HF. destruct (reversed_spec 0%N adj HV HF) as (h & h' & E & E' & N' & M' & L'). rewrite Hg in E. injection E as <-.
    destruct (adj_graph adj HV HF) as (h & E & Wf & Nn & Na & En & El). rewrite Hg in E. injection E as <-. split; auto.
    unfold cg_new. rewrite E'. cbn [bind]. rewrite Nn. fold n. fold n in En, L'.
    rewrite (mapM_Some _ (ini (fun u => nth u adj []))). 2:{ intros x Hx. apply in_seq in Hx. apply cg_arcs_ok; [lia|]. intros u Hu. apply En. auto. }
    cbn [bind]. rewrite (mapM_Some _ (ini (incoming adj))). { reflexivity. }
    intros x Hx. apply in_seq in Hx. apply cg_arcs_ok; [lia|]. intros u Hu. split; [apply L'; auto|]. intros v w Hin. apply incoming_In in Hin. apply Hin.
  Qed.

  Lemma start_len : length start = n.
  Proof using. unfold start. etransitivity; [apply combine_length|]. rewrite !map_length, seq_length. lia. Qed.
  Lemma start_nth x : nth x start ([], []) = if x <? n then (ini (fun u => nth u adj []) x, ini (incoming adj) x) else ([], []).
  Proof using.
    destruct (Nat.ltb_spec x n) as [Hx|Hx]; [|apply nth_overflow; rewrite start_len; auto]. unfold start.
    etransitivity; [apply combine_nth; rewrite !map_length; auto|]. f_equal.
    - rewrite (nth_indep _ _ (ini (fun u => nth u adj []) 0)) by (rewrite map_length, seq_length; auto). rewrite map_nth, seq_nth; auto.
    - rewrite (nth_indep _ _ (ini (incoming adj) 0)) by (rewrite map_length, seq_length; auto). rewrite map_nth, seq_nth; auto.
  Qed.
  Lemma ini_arc ls x y w : x < n -> (forall u, u < n -> forall v w, In (v, w) (ls u) -> v < n) -> carc_of (ini ls) x y w <-> x <> y /\ y < n /\ In (ord y, w) (ls (ord x)).
  Proof using HO.
    intros Hx Hl. destruct (ord_nth x Hx) as (E1 & E2 & E3). unfold carc_of, ini. split.
    - intros (a & Ha & Ea & Ew). apply in_map_iff in Ha as ((v & w') & <- & Hin). cbn in Ea, Ew. subst w'. apply filter_In in Hin as [Hin Hf]. cbn [fst] in Hf. pose proof (Hl _ E2 _ _ Hin) as Hv. destruct (rk_nth v Hv) as (F1 & F2 & F3).
      rewrite <- Ea, F3. split; [|split; auto]. intros ->. rewrite F3, Nat.eqb_refl in Hf. discriminate.
    - intros (Ne & Hy & Hin). destruct (ord_nth y Hy) as (G1 & G2 & G3). exists (rk (ord y), w, n). split; [|cbn; auto]. apply in_map_iff. exists (ord y, w). split; auto. apply filter_In. split; auto. cbn. destruct (Nat.eqb_spec (ord y) (ord x)) as [E|]; auto. destruct Ne. rewrite <- E3, <- G3, E. auto.
  Qed.
  Lemma adj_heads u : u < n -> forall v w, In (v, w) (nth u adj []) -> v < n.
  Proof using HV. intros Hu v w Hin. apply (HV (nth u adj []) v w); auto. apply nth_In. auto. Qed.
  Lemma inc_heads u : u < n -> forall v w, In (v, w) (incoming adj u) -> v < n.
  Proof using. intros Hu v w Hin. apply incoming_In in Hin. apply Hin. Qed.
  Lemma start_out x y w : carc_of (Og start) x y w <-> rarc x y w.
  Proof using HO HV.
    unfold carc_of, Og, rarc. rewrite start_nth. destruct (Nat.ltb_spec x n) as [Hx|Hx]; cbn [fst]; [|split; [intros (a & [] & _)|lia]].
    pose proof (ini_arc (fun u => nth u adj []) x y w Hx adj_heads) as P. unfold carc_of in P. rewrite P. unfold adj_arc. tauto.
  Qed.
  Lemma start_in x y w : carc_of (Ig start) y x w <-> rarc x y w.
  Proof using HO HV.
    unfold carc_of, Ig, rarc. rewrite start_nth. destruct (Nat.ltb_spec y n) as [Hy|Hy]; cbn [snd]; [|split; [intros (a & [] & _)|lia]].
    pose proof (ini_arc (incoming adj) y x w Hy inc_heads) as P. unfold carc_of in P. rewrite P, incoming_In. unfold adj_arc. fold n.
    split; [intros (A1 & A2 & A3 & A4); auto|]. intros (A1 & A2 & A3 & A4). destruct (ord_nth x A2) as (_ & X & _). auto.
  Qed.
  Lemma ini_cnt ls x y : x < n -> y < n -> (forall u, u < n -> forall v w, In (v, w) (ls u) -> v < n) -> x <> y -> cnt (ini ls x) y = length (filter (fun a => fst a =? ord y) (ls (ord x))).
  Proof using HO.
    intros Hx Hy Hl Ne. destruct (ord_nth x Hx) as (E1 & E2 & E3). destruct (ord_nth y Hy) as (F1 & F2 & F3). specialize (Hl _ E2). unfold cnt, ini.
    induction (ls (ord x)) as [|(v & w) l IH]; auto. cbn [filter fst].
    pose proof (Hl v w (or_introl eq_refl)) as Hv. destruct (rk_nth v Hv) as (G1 & G2 & G3).
    assert (Hl' : forall v w, In (v, w) l -> v < n) by (intros; eapply Hl; right; eauto). specialize (IH Hl').
    destruct (Nat.eqb_spec v (ord x)) as [->|Nx]; cbn [negb].
    - destruct (Nat.eqb_spec (ord x) (ord y)) as [E|]; auto. destruct Ne. rewrite <- E3, <- F3, E. auto.
    - cbn [map filter fst]. unfold ca_node at 1. cbn [fst]. destruct (Nat.eqb_spec (rk v) y) as [E|N1], (Nat.eqb_spec v (ord y)) as [E'|N2]; auto.
      + cbn [length]. rewrite IH. auto.
      + destruct N2. rewrite <- E. auto.
      + destruct N1. rewrite E'. auto.
  Qed.

  Lemma start_PG : PG n rarc 0 start.
  Proof using HO HV.
    split.
    - apply start_len.
    - intros u a _ Ha. assert (X : carc_of (Og start) u (ca_node a) (ca_weight a)) by (exists a; auto). apply start_out in X as (X1 & X2 & X3 & _). split; [lia|auto].
    - intros u a _ Ha. assert (X : carc_of (Ig start) u (ca_node a) (ca_weight a)) by (exists a; auto). apply start_in in X as (X1 & X2 & X3 & _). split; [lia|auto].
    - lia.
    - lia.
    - intros u v _ _.
      assert (Z1 : forall x, cnt (Og start x) x = 0). { intros x. apply cnt_0. intros a Ha E. assert (X : carc_of (Og start) x (ca_node a) (ca_weight a)) by (exists a; auto). apply start_out in X as (X1 & _). auto. }
      assert (Z2 : forall x, cnt (Ig start x) x = 0). { intros x. apply cnt_0. intros a Ha E. assert (X : carc_of (Ig start) x (ca_node a) (ca_weight a)) by (exists a; auto). apply start_in in X as (X1 & _). auto. }
      destruct (Nat.eq_dec u v) as [->|Ne]. { rewrite Z1, Z2. auto. }
      destruct (Nat.lt_ge_cases u n) as [Hu|Hu], (Nat.lt_ge_cases v n) as [Hv|Hv].
      + unfold Og, Ig. rewrite !start_nth. rewrite (proj2 (Nat.ltb_lt u n) Hu), (proj2 (Nat.ltb_lt v n) Hv). cbn [fst snd]. rewrite (ini_cnt _ u v Hu Hv adj_heads Ne), (ini_cnt _ v u Hv Hu inc_heads) by auto. symmetry. apply incoming_count. apply (ord_nth u Hu).
      + transitivity 0; [|symmetry]; apply cnt_0; intros a Ha E.
        * assert (X : carc_of (Og start) u (ca_node a) (ca_weight a)) by (exists a; auto). apply start_out in X as (X1 & X2 & X3 & _). lia.
        * assert (X : carc_of (Ig start) v (ca_node a) (ca_weight a)) by (exists a; auto). apply start_in in X as (X1 & X2 & X3 & _). lia.
      + transitivity 0; [|symmetry]; apply cnt_0; intros a Ha E.
        * assert (X : carc_of (Og start) u (ca_node a) (ca_weight a)) by (exists a; auto). apply start_out in X as (X1 & X2 & X3 & _). lia.
        * assert (X : carc_of (Ig start) v (ca_node a) (ca_weight a)) by (exists a; auto). apply start_in in X as (X1 & X2 & X3 & _). lia.
      + transitivity 0; [|symmetry]; apply cnt_0; intros a Ha E.
        * assert (X : carc_of (Og start) u (ca_node a) (ca_weight a)) by (exists a; auto). apply start_out in X as (X1 & X2 & X3 & _). lia.
        * assert (X : carc_of (Ig start) v (ca_node a) (ca_weight a)) by (exists a; auto). apply start_in in X as (X1 & X2 & X3 & _). lia.
    - intros u v w _ _ X. exists w. split; [|lia]. apply start_in. apply start_out. auto.
    - intros u v w _ _ X. exists w. split; [|lia]. apply start_out. apply start_in. auto.
    - intros u v w X. apply start_out in X. apply walk_arc. auto.
    - intros u v w X. apply start_in in X. apply walk_arc. auto.
  Qed.
  Lemma start_good d1 d2 : Ready n d1 -> Ready n d2 -> Good n rarc 0 (start, (d1, d2)).
  Proof using HO HV.
    intros R1 R2. split; auto. { apply start_PG. } intros u v l W. exists u, v, 0%N, 0%N, l. split; [constructor|]. split; [constructor|]. split; [|lia].
    apply (walk_mono rarc); auto. intros x y w X. split; [lia|]. apply start_out; auto.
  Qed.

  Lemma rwalk_sound x y l : x < n -> walk rarc x y l -> walk (adj_arc adj) (ord x) (ord y) l.
  Proof using. intros _. induction 1 as [x|x z y w l (_ & _ & _ & Ha) W IH]; [constructor|]. econstructor; eauto. Qed.
  Lemma rwalk_complete u v l : walk (adj_arc adj) u v l -> u < n -> exists l', walk rarc (rk u) (rk v) l' /\ (l' <= l)%N.
  Proof using HO HV.
    induction 1 as [u|u z v w l Ha W IH]; intros Hu. { exists 0%N. split; [constructor|lia]. }
    assert (Hz : z < n) by (eapply adj_heads; eauto). destruct (IH Hz) as (l' & W' & L). destruct (Nat.eq_dec u z) as [->|Ne]. { exists l'. split; auto. lia. }
    exists (w + l')%N. split; [|lia]. econstructor; [|exact W']. destruct (rk_nth u Hu) as (E1 & E2 & E3). destruct (rk_nth z Hz) as (F1 & F2 & F3). split. { intros E. apply Ne. rewrite <- E3, <- F3, E. auto. }
    split; auto. split; auto. rewrite E3, F3. auto.
  Qed.

  (** ** the result *)
  Lemma graph_of (ls : list (list carc)) h : length ls = n -> from_adjacency_lists (map (map fst) ls) = Some h ->
    (forall u, u < n -> link_iter h u = Some (map fst (nth u ls []))) /\ forall u, n <= u -> link_iter h u = None.
  Proof using ord rk.
    intros L E. pose proof (from_adj_fits _ _ E) as [F1 F2]. destruct (from_adjacency_ok _ F1 F2) as (h' & E' & Wf & Nn & Na & Hl). rewrite E in E'. injection E' as <-. rewrite map_length in Nn. change (num_nodes h = length ls) in Nn. rewrite L in Nn. split.
    - intros u Hu. apply Hl. rewrite nth_error_map. rewrite (nth_error_nth' ls []) by lia. auto.
    - intros u Hu. apply (enum_out h n u Nn Wf Hu).
  Qed.

  Lemma rounds_start nodes : contract_partially start (length start) = Some nodes -> exists d, Good n rarc n (nodes, d).
  Proof using HO HV.
    unfold contract_partially. intros E. rewrite Nat.min_id, Nat.ltb_irrefl in E. destruct (foldM contract_node _ _) as [[nodes' d]|] eqn:E2; cbn [bind] in E; [|discriminate]. injection E as <-. exists d.
    rewrite start_len in E2. apply (rounds_good n rarc n _ _ (le_n _)) in E2; auto. apply start_good; apply new_Ready.
  Qed.

  Lemma graph_up (ls : list (list carc)) h : length ls = n -> from_adjacency_lists (map (map fst) ls) = Some h -> (forall w, In w (weight h) -> (w <= INF)%N) ->
    (forall u a, u < n -> In a (nth u ls []) -> u < ca_node a < n) ->
    upward n (link_iter h) /\ forall u v w, garc (link_iter h) u v w <-> carc_of (fun u => nth u ls []) u v w.
  Proof using ord rk.
    intros L E HW HU. destruct (graph_of ls h L E) as [F1 F2]. pose proof (from_adj_weight _ _ E) as M. split.
    - intros u Hu. rewrite F1 by auto. eexists. split; [reflexivity|]. intros v w Hin. apply in_map_iff in Hin as (a & Ea & Ha). pose proof (HU u a Hu Ha) as X. unfold ca_node in X. rewrite Ea in X. cbn in X. split; [lia|]. split; [lia|].
      apply HW. rewrite M. apply in_map_iff. exists (v, w). split; auto. apply in_concat. exists (map fst (nth u ls [])). split; [|apply in_map_iff; exists a; auto].
      apply in_map. apply nth_In. lia.
    - intros u v w. unfold garc, carc_of. destruct (Nat.lt_ge_cases u n) as [Hu|Hu].
      + rewrite F1 by auto. split.
        * intros (l & [= <-] & Hin). apply in_map_iff in Hin as (a & Ea & Ha). exists a. unfold ca_node, ca_weight. rewrite Ea. auto.
        * intros (a & Ha & <- & <-). eexists. split; [reflexivity|]. apply in_map_iff. exists a. split; auto. destruct a as ((? & ?) & ?); auto.
      + rewrite F2 by auto. split; [intros (l & [=] & _)|]. intros (a & Ha & _). rewrite nth_overflow in Ha by lia. destruct Ha.
  Qed.
  Lemma nth_out nodes u : nth u (map fst nodes) [] = Og nodes u.
  Proof using. unfold Og. revert u. induction nodes as [|x l IH]; intros [|u]; cbn; auto. Qed.
  Lemma nth_in nodes u : nth u (map snd nodes) [] = Ig nodes u.
  Proof using. unfold Ig. revert u. induction nodes as [|x l IH]; intros [|u]; cbn; auto. Qed.
  Lemma into_inv0 nodes c : into_graphs nodes = Some c -> from_adjacency_lists (map (fun nd => map fst (fst nd)) nodes) = Some (chi_fw c) /\ from_adjacency_lists (map (fun nd => map fst (snd nd)) nodes) = Some (chi_bw c).
  Proof using.
    unfold into_graphs. generalize (map snd (concat (map fst nodes)), map snd (concat (map snd nodes))).
    generalize (@from_adjacency_lists N (map (fun nd => map fst (fst nd)) nodes)). intros o.
    generalize (@from_adjacency_lists N (map (fun nd => map fst (snd nd)) nodes)). intros o2 pp E.
    destruct o as [f|]; [|discriminate]. destruct o2 as [b|]; [|discriminate]. injection E as <-. auto.
  Qed.
  Lemma into_inv nodes c : into_graphs nodes = Some c -> from_adjacency_lists (map (map fst) (map fst nodes)) = Some (chi_fw c) /\ from_adjacency_lists (map (map fst) (map snd nodes)) = Some (chi_bw c).
  Proof using. intros E. apply into_inv0 in E as [E1 E2]. rewrite <- E1, <- E2. split; f_equal; apply map_map. Qed.

  Lemma graphs_hier nodes d c : Good n rarc n (nodes, d) -> into_graphs nodes = Some c -> Forall (fun w => (w <= INF)%N) (weight (chi_fw c) ++ weight (chi_bw c)) ->
    hierarchy n (adj_arc adj) order ranks (link_iter (chi_fw c)) (link_iter (chi_bw c)).
  Proof using HO HV.
    intros G E HW. pose proof (gd_pg _ _ _ _ G) as H. cbn [fst] in H. pose proof (pg_len _ _ _ _ H) as HL. rewrite Forall_app, !Forall_forall in HW. destruct HW as [HW1 HW2].
    destruct (into_inv _ _ E) as [E1 E2].
    destruct (graph_up (map fst nodes) (chi_fw c)) as [UF GF]; auto. { rewrite map_length. auto. } { intros u a Hu. rewrite nth_out. apply (pg_lo _ _ _ _ H); auto. }
    destruct (graph_up (map snd nodes) (chi_bw c)) as [UB GB]; auto. { rewrite map_length. auto. } { intros u a Hu. rewrite nth_in. apply (pg_li _ _ _ _ H); auto. }
    assert (GF' : forall u v w, garc (link_iter (chi_fw c)) u v w <-> carc_of (Og nodes) u v w). { intros u v w. rewrite GF. unfold carc_of. rewrite nth_out. reflexivity. }
    assert (GB' : forall u v w, garc (link_iter (chi_bw c)) u v w <-> carc_of (Ig nodes) u v w). { intros u v w. rewrite GB. unfold carc_of. rewrite nth_in. reflexivity. }
    clear GF GB E1 E2 HW1 HW2 E. split; auto.
    - intros x y u v l Ex Ey (m & a & a' & W1 & W2 & ->) _.
      assert (Hx : x < n) by (rewrite <- (proj1 HO); eapply nth_error_Some_lt; eauto).
      assert (Eu : ord x = u) by (apply nth_error_nth; auto). assert (Ev : ord y = v) by (apply nth_error_nth; auto). rewrite <- Eu, <- Ev. apply rwalk_sound; auto.
      apply walk_app with m.
      + clear - W1 H GF'. induction W1 as [z|z z' m w l Ha W IH]; [constructor|]. apply GF' in Ha. eapply walk_app; [apply (pg_so _ _ _ _ H _ _ _ Ha)|exact IH].
      + clear - W2 H GB'. induction W2 as [z|z z' m w l Ha W IH]; [constructor|]. apply GB' in Ha. rewrite N.add_comm. eapply walk_app; [exact IH|apply (pg_si _ _ _ _ H _ _ _ Ha)].
    - intros x y u v l Ex Ey W _. assert (Hx : x < n) by (rewrite <- (proj1 HO); eapply nth_error_Some_lt; eauto). assert (Hy : y < n) by (rewrite <- (proj1 HO); eapply nth_error_Some_lt; eauto).
      assert (Eu : ord x = u) by (apply nth_error_nth; auto). assert (Ev : ord y = v) by (apply nth_error_nth; auto).
      destruct (ord_nth x Hx) as (_ & Hu & Ru). destruct (ord_nth y Hy) as (_ & Hv & Rv). rewrite Eu in *. rewrite Ev in *.
      destruct (rwalk_complete u v l W Hu) as (l' & W' & L'). rewrite Ru, Rv in W'. destruct (good_end n rarc _ x y l' G W') as (l2 & (m & a & a' & W1 & W2 & ->) & L2). cbn [fst] in *.
      exists (a + a')%N. split; [|lia]. exists m, a, a'. split; [|split; auto]. { apply (walk_mono (carc_of (Og nodes))); auto. intros; apply GF'; auto. } apply (walk_mono (carc_of (Ig nodes))); auto. intros; apply GB'; auto.
  Qed.
  Lemma contract_inv c : ch_contract g order ranks = Some c -> exists n0 n1, cg_new (num_nodes g) (num_arcs g) order ranks (link_iter g) = Some n0 /\ contract_partially n0 (length n0) = Some n1 /\ into_graphs n1 = Some c.
  Proof using.
    unfold ch_contract. generalize (cg_new (num_nodes g) (num_arcs g) order ranks (link_iter g)). intros [n0|]; [|discriminate]. cbn [bind]. intros E. exists n0. revert E. generalize (contract_partially n0 (length n0)). intros [n1|]; [|discriminate]. cbn [bind]. intros E. exists n1. auto.
  Qed.
  Lemma contract_hier c : ch_contract g order ranks = Some c -> Forall (fun w => (w <= INF)%N) (weight (chi_fw c) ++ weight (chi_bw c)) ->
    hierarchy n (adj_arc adj) order ranks (link_iter (chi_fw c)) (link_iter (chi_bw c)).
  Proof using HO HV Hg.
    intros E HW. apply contract_inv in E as (n0 & n1 & E1 & E2 & E3). destruct cg_new_ok as [E0 _]. assert (n0 = start) by congruence. subst n0. apply rounds_start in E2 as (d & E2). eapply graphs_hier; eauto.
  Qed.
End Init.
