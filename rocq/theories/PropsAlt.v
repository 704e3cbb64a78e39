(** Property C34: landmark (ALT) potentials.
    [alt_new .. lms = Some a]: preprocessing of the graph for the landmarks [lms]; [alt_side d a] the forward ([d = true]) or
    backward potential; [alt_potential p t v] what it reports for [v] after init([t]). Forward potentials bound distances in
    the graph, backward potentials distances in the reversed graph. *)
From Verif Require Import Base SpecGraph BitVec Graph GraphSpecProof TsVec Dijkstra DijServer DijServerProof DijHistProof PropsGraph PropsDijkstra PropsBidir Alt AltProof.

Definition landmark_graph (adj : list (list (nat * N))) (lms : list nat) (g : fograph N) (a : altdata) : Prop :=
  valid_adj adj /\ fits_u32 adj /\ (forall l v w, In l adj -> In (v, w) l -> (w <= INF)%N) /\ from_adjacency_lists adj = Some g /\
  lms <> [] /\ Forall (fun l => l < length adj) lms /\ alt_new (num_nodes g) (num_arcs g) (link_iter g) lms = Some a.
Definition alt_side (d : bool) (a : altdata) : altdata := if d then alt_forward a else alt_backward a.
Definition side_arc (d : bool) (adj : list (list (nat * N))) : nat -> nat -> N -> Prop := if d then adj_arc adj else flip_arc (adj_arc adj).

Lemma capd_iff (a1 a2 : nat -> nat -> N -> Prop) s v x : (forall u v w, a1 u v w <-> a2 u v w) -> capd a1 s v x -> capd a2 s v x.
Proof.
  intros H [C1 C2]. split; auto. assert (W : forall l, walk a1 s v l <-> walk a2 s v l). { intros; split; apply walk_mono; intros; apply H; auto. }
  destruct (x <? INF)%N; cbn in C2 |- *. { destruct C2 as (C2 & C3 & C4). split; auto. split. { apply W; auto. } intros; apply C4, W; auto. } intros; apply C2, W; auto.
Qed.
Lemma AltOK_iff lms (a1 a2 : nat -> nat -> N -> Prop) n a xs ys : (forall u v w, a1 u v w <-> a2 u v w) -> AltOK lms a1 n a xs ys -> AltOK lms a2 n a xs ys.
Proof. intros H []. split; auto. - intros. eapply capd_iff; eauto. - intros. eapply capd_iff; [|eauto]. intros; apply H. Qed.

Lemma alt_build adj lms g : valid_adj adj -> fits_u32 adj -> (forall l v w, In l adj -> In (v, w) l -> (w <= INF)%N) -> from_adjacency_lists adj = Some g ->
  lms <> [] -> Forall (fun l => l < length adj) lms ->
  exists a xs ys, alt_new (num_nodes g) (num_arcs g) (link_iter g) lms = Some a /\ AltOK lms (adj_arc adj) (length adj) a xs ys.
Proof.
  intros HV HF HW Eg Hne Hl. destruct (reversed_spec 0%N adj HV HF) as (g1 & g' & E1 & Er & _). rewrite Eg in E1. injection E1 as <-.
  destruct (rev_wf adj g g' HV HF HW Eg Er) as [WR RL]. destruct (adj_wf_links adj g HV HF HW Eg) as [WF HA].
  pose proof (reversed_arcs 0%N adj g g' HV HF Eg Er) as RA.
  destruct (adj_graph adj HV HF) as (h & E & _ & Nn & _). rewrite Eg in E. injection E as <-. rewrite Nn in *.
  destruct (alt_new_ok (length adj) (num_arcs g) (link_iter g) g' lms WF Er WR RA Hne Hl) as (a & xs & ys & Ea & OK).
  exists a, xs, ys. split; auto. eapply AltOK_iff; eauto.
Qed.
Lemma lg_ok adj lms g a d : landmark_graph adj lms g a -> exists xs ys, AltOK lms (side_arc d adj) (length adj) (alt_side d a) xs ys.
Proof.
  intros (HV & HF & HW & Eg & Hne & Hl & Ea). destruct (alt_build adj lms g HV HF HW Eg Hne Hl) as (a' & xs & ys & Ea' & OK).
  rewrite Ea in Ea'. injection Ea' as <-. destruct d; cbn. { eauto. } exists ys, xs. apply alt_flip; auto.
Qed.
Lemma alt_potential_h adj lms g a d t v : landmark_graph adj lms g a -> t < length adj -> v < length adj ->
  alt_potential (alt_side d a) t v = Some (alt_h (alt_side d a) t v).
Proof.
  intros H Ht Hv. destruct (lg_ok adj lms g a d H) as (xs & ys & OK). destruct (alt_raw _ _ _ _ _ _ OK t v Ht Hv) as (p & r & r' & q & q' & _ & _ & _ & _ & E & _).
  unfold alt_potential, alt_init, alt_h. cbn [bind]. rewrite E. reflexivity.
Qed.

(** preprocessing never fails *)
Theorem C34_landmark_preprocessing_succeeds :
  forall adj lms g, valid_adj adj -> fits_u32 adj -> (forall l v w, In l adj -> In (v, w) l -> (w <= INF)%N) -> from_adjacency_lists adj = Some g ->
  lms <> [] -> Forall (fun l => l < length adj) lms -> exists a, alt_new (num_nodes g) (num_arcs g) (link_iter g) lms = Some a.
Proof. intros adj lms g HV HF HW Eg Hne Hl. destruct (alt_build adj lms g HV HF HW Eg Hne Hl) as (a & _ & _ & E & _). eauto. Qed.
Print Assumptions C34_landmark_preprocessing_succeeds.

(** 0 at the target, and never above the distance to it; "cannot reach" only if there is no way shorter than INFINITY *)
Theorem C34_potential_is_a_lower_bound :
  forall adj lms g a d t v, landmark_graph adj lms g a -> t < length adj -> v < length adj ->
  exists r, alt_potential (alt_side d a) t v = Some r /\ (v = t -> r = Some 0%N) /\
    forall l, walk (side_arc d adj) v t l -> (l < INF)%N -> exists p, r = Some p /\ (p <= l)%N.
Proof.
  intros adj lms g a d t v H Ht Hv. exists (alt_h (alt_side d a) t v). split. { eapply alt_potential_h; eauto. }
  destruct (lg_ok adj lms g a d H) as (xs & ys & OK). split. { intros ->. eapply alt_target; eauto. }
  intros l W Hl. destruct (alt_walk _ _ _ _ _ _ OK t v t l 0%N Ht Hv Ht W) as (p & E & Hp). { eapply alt_target; eauto. } { lia. } exists p. split; auto. lia.
Qed.
Print Assumptions C34_potential_is_a_lower_bound.

(** triangle inequality on every arc (below INFINITY) *)
Theorem C34_triangle_inequality_on_arcs :
  forall adj lms g a d t u v w q, landmark_graph adj lms g a -> t < length adj -> u < length adj -> v < length adj ->
  side_arc d adj u v w -> alt_potential (alt_side d a) t v = Some (Some q) -> (w + q < INF)%N ->
  exists p, alt_potential (alt_side d a) t u = Some (Some p) /\ (p <= w + q)%N.
Proof.
  intros adj lms g a d t u v w q H Ht Hu Hv Ha Eq HI. rewrite (alt_potential_h adj lms g a d t v) in Eq by auto. injection Eq as Eq.
  destruct (lg_ok adj lms g a d H) as (xs & ys & OK). destruct (alt_walk _ _ _ _ _ _ OK t u v w q Ht Hu Hv (walk_arc _ _ _ _ Ha) Eq HI) as (p & E & Hp).
  exists p. split; auto. rewrite (alt_potential_h adj lms g a d t u) by auto. congruence.
Qed.
Print Assumptions C34_triangle_inequality_on_arcs.

(** the bound is as strong as the triangle inequality with every landmark, in both directions *)
Theorem C34_potential_uses_every_landmark :
  forall adj lms g a d t v q l x y, landmark_graph adj lms g a -> t < length adj -> v < length adj ->
  alt_potential (alt_side d a) t v = Some (Some q) -> In l lms -> (x < INF)%N -> (y < INF)%N ->
  (is_dist (side_arc d adj) l v x -> is_dist (side_arc d adj) l t y -> (y <= x + q)%N) /\
  (is_dist (side_arc d adj) v l x -> is_dist (side_arc d adj) t l y -> (x <= y + q)%N).
Proof.
  intros adj lms g a d t v q l x y H Ht Hv Eq Hl Hx Hy. rewrite (alt_potential_h adj lms g a d t v) in Eq by auto. injection Eq as Eq.
  destruct (lg_ok adj lms g a d H) as (xs & ys & OK). destruct (alt_dom _ _ _ _ _ _ OK t v l q Ht Hv Eq Hl) as [D1 D2]. split; intros; eauto.
Qed.
Print Assumptions C34_potential_uses_every_landmark.

(** A* guided by the forward potential *)
Theorem C34_astar_with_landmarks_is_exact :
  forall adj lms g a ops sv s t, landmark_graph adj lms g a -> Forall (op_ok (length adj) (fun t => t < length adj)) ops ->
  sv_history (length adj) (link_iter g) fst def_lk def_pl alt_init (alt_get (alt_forward a)) (sv_new (length adj) tt 0) ops = Some sv -> s < length adj -> t < length adj ->
  exists sv' r, sv_distance (length adj) (link_iter g) fst def_lk def_pl alt_init (alt_get (alt_forward a)) sv s t 0 = Some (sv', r) /\ exact_answer (adj_arc adj) s t r /\
    forall x, r = Some x -> exists p, sv_node_path sv' s t = Some p /\ npath (adj_arc adj) s p t x /\ NoDup p.
Proof.
  intros adj lms g a ops sv s t H Ho Eh Hs Ht. destruct (lg_ok adj lms g a true H) as (xs & ys & OK). cbn in OK. pose proof H as H0. destruct H as (HV & HF & HW & Eg & Hne & Hl & Ea).
  destruct (adj_wf_links adj g HV HF HW Eg) as [WF HA].
  destruct (C20_astar_with_lower_bounds_is_exact nat (length adj) (link_iter g) alt_init (alt_get (alt_forward a)) (fun t => t < length adj) (fun _ => True) (fun t e => e = t /\ t < length adj) (alt_h a) 0 ops sv s t) as (sv' & r & E & X & P); auto.
  - eapply alt_contract; eauto.
  - intros t' Ht'. split.
    + intros v p Hp. apply alt_small in Hp. unfold INF in *. lia.
    + intros u l W Hl'. assert (Hu : u < length adj). { destruct W as [|u v t' w l Aa W]; auto. apply HA in Aa. unfold adj_arc in Aa. destruct (Nat.lt_ge_cases u (length adj)); auto. rewrite nth_overflow in Aa by auto. destruct Aa. }
      destruct (alt_walk _ _ _ _ _ _ OK t' u t' l 0%N Ht' Hu Ht') as (p & Ep & Hp). { eapply walk_mono; [|exact W]. intros; apply HA; auto. } { eapply alt_target; eauto. } { lia. }
      exists p. split; auto. intros q Hq. lia.
  - exists sv', r. split; auto. split.
    + destruct r as [x|]; cbn in X |- *. { destruct X as (X1 & X2 & X3). split; auto. split. { eapply walk_mono; [|exact X2]. intros; apply HA; auto. } intros l W. apply X3. eapply walk_mono; [|exact W]. intros; apply HA; auto. }
      intros l W. apply X. eapply walk_mono; [|exact W]. intros; apply HA; auto.
    + intros x Hx. destruct (P x Hx) as (p & P1 & P2 & P3). exists p. split; auto. split; auto. clear -P2 HA. induction P2; econstructor; eauto. apply HA; auto.
Qed.
Print Assumptions C34_astar_with_landmarks_is_exact.

(** node 4 is not reachable from landmark 3 and cannot reach it; node 5 is a sink *)
Definition alt_adj : list (list (nat * N)) := [[(1, 7%N); (2, 1%N)]; [(3, 2%N)]; [(1, 3%N); (3, 9%N)]; [(0, 5%N); (5, 1%N)]; [(4, 0%N)]; []].
Example C34_nonvacuous :
  valid_adj alt_adj /\ fits_u32 alt_adj /\ (forall l v w, In l alt_adj -> In (v, w) l -> (w <= INF)%N) /\
  (g <- from_adjacency_lists alt_adj ;; a <- alt_new (num_nodes g) (num_arcs g) (link_iter g) [3; 0] ;;
   p <- mapM (fun v => alt_potential (alt_forward a) 1 v) (seq 0 6) ;; q <- mapM (fun v => alt_potential (alt_backward a) 0 v) (seq 0 6) ;;
   '(sv, r) <- sv_distance 6 (link_iter g) fst def_lk def_pl alt_init (alt_get (alt_forward a)) (sv_new 6 tt 0) 3 1 0 ;; Some (p, q, r))
  = Some ([Some 4; Some 0; Some 3; Some 9; Some 2147483645; Some 2147483645], [Some 0; Some 4; Some 1; Some 6; None; Some 7], Some 9)%N.
Proof.
  split; [|split; [|split]].
  - intros l v w H1 H2. cbn in H1. repeat (destruct H1 as [<-|H1]; [cbn in H2; repeat (destruct H2 as [[= <- <-]|H2]; [cbn; lia|]); destruct H2|]). destruct H1.
  - split; reflexivity.
  - intros l v w H1 H2. cbn in H1. repeat (destruct H1 as [<-|H1]; [cbn in H2; repeat (destruct H2 as [[= <- <-]|H2]; [unfold INF; lia|]); destruct H2|]). destruct H1.
  - vm_compute. reflexivity.
Qed.
