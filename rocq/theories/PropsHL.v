(** Statements about hub labels. *)
From Coq Require Import Permutation Sorted.
From Verif Require Import Base SpecGraph SpecCCH SpecCH BitVec Graph ExTab CCH CCHContractProof CCHBuildProof CCHMetricProof
  CCHQuery CCHPerfect PropsCCH PropsPerfect PropsRphast HL HLProof.

(** no sum formed exceeds 32 bit *)
Definition short_hierarchy (n : nat) (lf lb : nat -> option (list (nat * N))) (bound : N) : Prop :=
  forall x y l, x < n -> y < n -> meets (garc lf) (garc lb) x y l -> (l < bound)%N.

(** [pair_sort] is the contract of sort_unstable. Nodes of the labels are ranks. *)
Theorem C33_hub_label_distances_are_exact :
  forall n arc order ranks lf lb sort, hierarchy n arc order ranks lf lb -> short_hierarchy n lf lb 4294967296 -> pair_sort sort ->
  exists h, hl_new sort n lf lb = Some h /\
  forall u v x y, nth_error ranks u = Some x -> nth_error ranks v = Some y ->
  exists r, hl_dist h x y = Some r /\ exact_answer arc u v (bind r reported) /\
    (short_hierarchy n lf lb INF -> exact_answer arc u v r).
Proof.
  intros n arc order ranks lf lb sort H SM HS. destruct (hl_new_ok n arc order ranks lf lb H SM sort HS) as (h & E & I). exists h. split; auto.
  intros u v x y Ex Ey. destruct (hi_order _ _ _ _ _ _ H) as (O1 & O2 & O3 & O4). pose proof (O4 _ _ Ex) as Ou. pose proof (O4 _ _ Ey) as Ov.
  assert (Hx : x < n) by (apply nth_error_Some_lt in Ou; lia). assert (Hy : y < n) by (apply nth_error_Some_lt in Ov; lia).
  destruct (hl_hub_ok n arc order ranks lf lb H SM h x y I Hx Hy) as (r & Er & R1 & R2). unfold hl_dist. rewrite Er. cbn [bind]. eexists. split; [reflexivity|].
  assert (LB : forall l, walk arc u v l -> (l < INF)%N -> exists m d, r = Some (m, d) /\ (d <= l)%N).
  { intros l W L. destruct (hi_complete _ _ _ _ _ _ H x y u v l Ou Ov W L) as (l' & M & L'). destruct (R2 l' M) as (m & d & -> & Ld); [lia|]. exists m, d. split; auto. lia. }
  assert (X : exact_answer arc u v (bind (option_map snd r) reported)).
  { destruct r as [[m d]|]; cbn [option_map bind snd].
    - unfold reported. destruct (R1 m d eq_refl) as (a & b & Wa & Wb & Ed). destruct (N.ltb_spec d INF) as [Ld|Ld].
      + cbn. split; auto. split. { apply (hi_sound _ _ _ _ _ _ H x y); auto. exists m, a, b. auto. }
        intros l W. destruct (N.lt_ge_cases l d) as [K|]; auto. destruct (LB l W) as (m' & d' & [= <- <-] & K'); lia.
      + cbn. intros l W. destruct (N.lt_ge_cases l INF) as [K|]; auto. destruct (LB l W K) as (m' & d' & [= <- <-] & K'). lia.
    - cbn. intros l W. destruct (N.lt_ge_cases l INF) as [K|]; auto. destruct (LB l W K) as (m' & d' & [=] & _). }
  split; auto. intros SI. destruct r as [[m d]|]; [|exact X]. cbn [option_map bind snd] in X |- *. destruct (R1 m d eq_refl) as (a & b & Wa & Wb & Ed).
  assert (Ld : (d < INF)%N). { apply (SI x y); auto. exists m, a, b. auto. } unfold reported in X. apply N.ltb_lt in Ld. rewrite Ld in X. exact X.
Qed.
Print Assumptions C33_hub_label_distances_are_exact.

(** The hub reported with a distance shorter than INFINITY lies on a shortest path. *)
Theorem C33_hub_lies_on_a_shortest_path :
  forall n arc order ranks lf lb sort, hierarchy n arc order ranks lf lb -> short_hierarchy n lf lb 4294967296 -> pair_sort sort ->
  forall h u v x y m d, hl_new sort n lf lb = Some h -> nth_error ranks u = Some x -> nth_error ranks v = Some y ->
  hl_hub h x y = Some (Some (m, d)) -> (d < INF)%N ->
  exists t a b, nth_error order m = Some t /\ walk arc u t a /\ walk arc t v b /\ d = (a + b)%N /\ is_dist arc u v d.
Proof.
  intros n arc order ranks lf lb sort H SM HS h u v x y m d Eh Ex Ey Er Ld. destruct (hl_new_ok n arc order ranks lf lb H SM sort HS) as (h' & E & I). rewrite E in Eh. injection Eh as <-.
  pose proof (hi_order _ _ _ _ _ _ H) as HO. destruct HO as (O1 & O2 & O3 & O4). pose proof (O4 _ _ Ex) as Ou. pose proof (O4 _ _ Ey) as Ov.
  assert (Hx : x < n) by (apply nth_error_Some_lt in Ou; lia). assert (Hy : y < n) by (apply nth_error_Some_lt in Ov; lia).
  destruct (hl_hub_ok n arc order ranks lf lb H SM h' x y I Hx Hy) as (r & Er' & R1 & R2). rewrite Er in Er'. injection Er' as <-.
  destruct (R1 m d eq_refl) as (a & b & Wa & Wb & Ed). assert (Hm : m < n). { apply up_walk with (n := n) in Wa; auto; [lia|apply (hi_fw _ _ _ _ _ _ H)]. }
  destruct (nth_error_lt order m) as (t & Et); [lia|]. exists t, a, b. split; auto.
  assert (W1 : walk arc u t a). { apply (hi_sound _ _ _ _ _ _ H x m); auto; [|lia]. exists m, a, 0%N. split; auto. split; [constructor|lia]. }
  assert (W2 : walk arc t v b). { apply (hi_sound _ _ _ _ _ _ H m y); auto; [|lia]. exists m, 0%N, b. split; [constructor|auto]. }
  split; auto. split; auto. split; auto. split. { subst d. apply walk_app with (v := t); auto. }
  intros l W. destruct (N.lt_ge_cases l d) as [K|]; auto. destruct (hi_complete _ _ _ _ _ _ H x y u v l Ou Ov W) as (l' & M & L'); [lia|].
  destruct (R2 l' M) as (m' & d' & [= <- <-] & L2); lia.
Qed.
Print Assumptions C33_hub_lies_on_a_shortest_path.

(** Labels are sorted by hub, with each hub once, the node itself first, and hold lengths of upward walks. *)
Theorem C33_labels_are_sorted :
  forall n arc order ranks lf lb sort, hierarchy n arc order ranks lf lb -> short_hierarchy n lf lb 4294967296 -> pair_sort sort ->
  forall h, hl_new sort n lf lb = Some h -> length (hl_out h) = n /\ length (hl_in h) = n /\
  forall (forw : bool) x l, nth_error (if forw then hl_out h else hl_in h) x = Some l ->
    ascending_list (map fst l) /\ (exists l', l = (x, 0%N) :: l') /\ forall m a, In (m, a) l -> walk (garc (if forw then lf else lb)) x m a.
Proof.
  intros n arc order ranks lf lb sort H SM HS h Eh. destruct (hl_new_ok n arc order ranks lf lb H SM sort HS) as (h' & E & I). rewrite E in Eh. injection Eh as <-.
  destruct I as (L1 & L2 & _ & HG). split; auto. split; auto. intros forw x l El.
  assert (Hx : x < n) by (apply nth_error_Some_lt in El; destruct forw; lia). destruct (HG x) as (lo & li & G1 & G2 & G3 & G4 & _); [lia|].
  assert (K : lab_ok (if forw then lf else lb) x l). { destruct forw; [rewrite El in G1; injection G1 as <-|rewrite El in G2; injection G2 as <-]; auto. }
  destruct K as (A1 & A2 & A3). split; auto. split; [|auto]. destruct l as [|[m a] l]; [destruct A2|].
  assert (Wm : walk (garc (if forw then lf else lb)) x m a) by (apply A3; left; auto).
  assert (x <= m). { apply up_walk with (n := n) in Wm; auto; [lia|]. destruct forw; [apply (hi_fw _ _ _ _ _ _ H)|apply (hi_bw _ _ _ _ _ _ H)]. }
  destruct A2 as [[= -> ->]|A2]; eauto. apply asc_inv in A1 as [_ A1]. apply A1 in A2. cbn in A2. lia.
Qed.
Print Assumptions C33_labels_are_sorted.

(** An insertion sort meets the contract of sort_unstable. *)
Fixpoint pair_insert (x : nat * N) (l : label) : label :=
  match l with
  | [] => [x]
  | y :: l' => if ((fst x <? fst y) || ((fst x =? fst y) && (snd x <=? snd y)%N))%bool then x :: l else y :: pair_insert x l'
  end.
Definition pair_isort (l : label) : label := fold_right pair_insert [] l.
Lemma pair_isort_ok : pair_sort pair_isort.
Proof.
  intros l. induction l as [|x l [P S]]; [split; constructor|]. cbn [pair_isort fold_right]. fold (pair_isort l). revert P S. generalize (pair_isort l) as s. intros s P S. split.
  - apply Permutation_trans with (x :: s); [|constructor; auto]. clear. induction s as [|y s IH]; cbn [pair_insert]; auto. destruct (_ || _)%bool; auto.
    apply Permutation_trans with (y :: x :: s); constructor; auto.
  - clear P. induction S as [|y s S IH F]; cbn [pair_insert]. { repeat constructor. }
    destruct (Nat.ltb_spec (fst x) (fst y)) as [L|L]; cbn [orb].
    { constructor; [constructor; auto|]. constructor; [auto|]. rewrite Forall_forall in F |- *. intros z Hz. specialize (F z Hz). lia. }
    destruct (Nat.eqb_spec (fst x) (fst y)) as [E|E]; cbn [andb].
    + destruct (N.leb_spec (snd x) (snd y)) as [K|K].
      * constructor; [constructor; auto|]. constructor; [auto|]. rewrite Forall_forall in F |- *. intros z Hz. specialize (F z Hz). lia.
      * constructor; auto. rewrite Forall_forall in F |- *. intros z Hz. assert (Q : z = x \/ In z s). { clear -Hz. induction s as [|y s IH]; cbn [pair_insert] in Hz; [destruct Hz as [<-|[]]; auto|]. destruct (_ || _)%bool; cbn in Hz |- *; intuition auto. }
        destruct Q as [->|Q]; [lia|]. apply F; auto.
    + constructor; auto. rewrite Forall_forall in F |- *. intros z Hz. assert (Q : z = x \/ In z s). { clear -Hz. induction s as [|y s IH]; cbn [pair_insert] in Hz; [destruct Hz as [<-|[]]; auto|]. destruct (_ || _)%bool; cbn in Hz |- *; intuition auto. }
      destruct Q as [->|Q]; [lia|]. apply F; auto.
Qed.

(** Without the bound on the lengths the claim fails: the customized graphs of a CCH hold arcs of weight INFINITY, and
    three of them in a row overflow (all weights of the input graph are 5). *)
Definition hl_path : list (list (nat * N)) := [[(1, 5%N)]; [(2, 5%N)]; [(3, 5%N)]; []].
Definition hl_id : list nat := [0; 1; 2; 3].
Definition hl_path_cch : option customized := g <- from_adjacency_lists hl_path ;; c <- cch_contract g hl_id hl_id ;; customize c g.
Theorem C33_labels_of_infinite_arcs_overflow_refuted :
  exists n arc order ranks lf lb sort, hierarchy n arc order ranks lf lb /\ pair_sort sort /\ (forall u v w, arc u v w -> w = 5%N) /\ hl_new sort n lf lb = None.
Proof.
  destruct (from_adjacency_lists hl_path) as [g|] eqn:Eg; [|vm_compute in Eg; discriminate].
  destruct (cch_contract g hl_id hl_id) as [c|] eqn:Ec; [|vm_compute in Eg; injection Eg as <-; vm_compute in Ec; discriminate].
  destruct (customize c g) as [k|] eqn:Ek; [|vm_compute in Eg; injection Eg as <-; vm_compute in Ec; injection Ec as <-; vm_compute in Ek; discriminate].
  exists 4, (adj_arc hl_path), hl_id, hl_id, (link_iter (k_fw k)), (link_iter (k_bw k)), pair_isort. split; [|split; [apply pair_isort_ok|split]].
  - apply (C32_customized_cch_is_a_hierarchy hl_path g hl_id hl_id c hl_path k); auto.
    + intros l v w H1 H2. cbn in H1. repeat (destruct H1 as [<-|H1]; [cbn in H2; repeat (destruct H2 as [[= <- <-]|H2]; [cbn; lia|]); destruct H2|]). destruct H1.
    + split; reflexivity.
    + split; auto. split; auto. split; intros a b H; (do 4 (destruct a as [|a]; [cbn in H; injection H as <-; reflexivity|])); destruct a; discriminate.
    + left. split; [reflexivity|eauto].
  - intros u v w H. unfold adj_arc in H. do 4 (destruct u as [|u]; [cbn in H; repeat (destruct H as [[= <- <-]|H]; auto); destruct H|]). destruct u; destruct H.
  - vm_compute in Eg. injection Eg as <-. vm_compute in Ec. injection Ec as <-. vm_compute in Ek. injection Ek as <-. vm_compute. reflexivity.
Qed.
Print Assumptions C33_labels_of_infinite_arcs_overflow_refuted.

(** A bound on the arc weights bounds all lengths. *)
Theorem C33_light_arcs_make_a_short_hierarchy :
  forall n lf lb wmax, upward n lf -> upward n lb -> (forall u v w, u < n -> garc lf u v w \/ garc lb u v w -> (w <= wmax)%N) ->
  short_hierarchy n lf lb (2 * N.of_nat n * wmax + 1).
Proof.
  intros n lf lb wmax UF UB HW x y l Hx Hy (m & a & b & Wa & Wb & ->).
  assert (G : forall G, upward n G -> (forall u v w, u < n -> garc G u v w -> (w <= wmax)%N) -> forall x m a, walk (garc G) x m a -> x < n -> (a <= N.of_nat (m - x) * wmax)%N /\ x <= m < n).
  { clear. intros G UP HW x m a W. induction W as [x|x v m w l Ha W IH]; intros Hx. { split; [lia|lia]. }
    pose proof (HW x v w Hx Ha) as Lw. destruct Ha as (ls & E & Hin). destruct (UP x Hx) as (ls' & E' & K). rewrite E in E'. injection E' as <-. destruct (K v w Hin) as (K1 & K2 & _). destruct (IH K2) as [L1 L2].
    split; [|lia]. assert (1 * wmax + N.of_nat (m - v) * wmax <= N.of_nat (m - x) * wmax)%N; [|lia]. rewrite <- N.mul_add_distr_r. apply N.mul_le_mono_r. lia. }
  destruct (G lf UF) with (x := x) (m := m) (a := a) as [L1 L2]; auto. { intros; eapply HW; eauto. }
  destruct (G lb UB) with (x := y) (m := m) (a := b) as [L3 L4]; auto. { intros; eapply HW; eauto. }
  assert (Q : forall k, k <= n -> (N.of_nat k * wmax <= N.of_nat n * wmax)%N) by (intros k Hk; apply N.mul_le_mono_r; lia).
  pose proof (Q (m - x)) as Q1. pose proof (Q (m - y)) as Q2. assert (m - x <= n) by lia. assert (m - y <= n) by lia. specialize (Q1 H). specialize (Q2 H0).
  rewrite <- N.mul_assoc. revert L1 L3 Q1 Q2. generalize (N.of_nat (m - x) * wmax)%N, (N.of_nat (m - y) * wmax)%N, (N.of_nat n * wmax)%N. intros. lia.
Qed.
Print Assumptions C33_light_arcs_make_a_short_hierarchy.

(** The graph 0 -1-> 2, 1 -4-> 2, 2 -7-> 1 *)
Definition hl_adj : list (list (nat * N)) := [[(2, 1%N)]; [(2, 4%N)]; [(1, 7%N)]].
Definition hl_table (u v : nat) : option N := bind (nth_error [[Some 0; Some 8; Some 1]; [None; Some 0; Some 4]; [None; Some 7; Some 0]]%N u) (fun r => bind (nth_error r v) (fun x => x)).
Lemma hl_ex : hierarchy 3 (adj_arc hl_adj) [0; 1; 2] [0; 1; 2] rp_lf rp_lb.
Proof.
  assert (AR : forall u v w, adj_arc hl_adj u v w -> (u, v, w) = (0, 2, 1%N) \/ (u, v, w) = (1, 2, 4%N) \/ (u, v, w) = (2, 1, 7%N)).
  { intros u v w H. unfold adj_arc in H. destruct u as [|[|[|u]]]; cbn in H; try (destruct H as [[= <- <-]|[]]; auto). destruct u; destruct H. }
  assert (LF : forall u v w, garc rp_lf u v w <-> (u, v, w) = (0, 2, 1%N) \/ (u, v, w) = (1, 2, 4%N)).
  { intros u v w. split.
    - intros (l & E & H). unfold rp_lf in E. destruct u as [|[|[|u]]]; cbn in E; try (injection E as <-; destruct H as [[= <- <-]|[]]; auto); try (injection E as <-; destruct H). destruct u; discriminate.
    - intros [[= -> -> ->]|[= -> -> ->]]; (eexists; split; [reflexivity|left; reflexivity]). }
  assert (LB : forall u v w, garc rp_lb u v w <-> (u, v, w) = (1, 2, 7%N)).
  { intros u v w. split.
    - intros (l & E & H). unfold rp_lb in E. destruct u as [|[|[|u]]]; cbn in E; try (injection E as <-; destruct H as [[= <- <-]|[]]; auto); try (injection E as <-; destruct H). destruct u; discriminate.
    - intros [= -> -> ->]. eexists; split; [reflexivity|left; reflexivity]. }
  constructor.
  - split; auto. split; auto. split; intros a b H; (do 3 (destruct a as [|a]; [cbn in H; injection H as <-; reflexivity|])); destruct a; discriminate.
  - intros u Hu. destruct u as [|[|[|u]]]; [..|lia]; (eexists; split; [reflexivity|]); intros v w Hin; cbn in Hin; try (destruct Hin as [[= <- <-]|[]]; unfold INF; lia); destruct Hin.
  - intros u Hu. destruct u as [|[|[|u]]]; [..|lia]; (eexists; split; [reflexivity|]); intros v w Hin; cbn in Hin; try (destruct Hin as [[= <- <-]|[]]; unfold INF; lia); destruct Hin.
  - intros x y u v l Ex Ey (m & a & b & Wa & Wb & ->) _.
    assert (x = u) by (do 3 (destruct x as [|x]; [cbn in Ex; injection Ex; auto|]); destruct x; discriminate). assert (y = v) by (do 3 (destruct y as [|y]; [cbn in Ey; injection Ey; auto|]); destruct y; discriminate). subst x y.
    apply walk_app with (v := m). { revert Wa. apply walk_mono. intros p q w H. apply LF in H as [[= -> -> ->]|[= -> -> ->]]; left; reflexivity. }
    apply walk_flip_iff. revert Wb. apply walk_mono. intros p q w H. apply LB in H. injection H as -> -> ->. left; reflexivity.
  - intros x y u v l Ex Ey W _.
    assert (x = u) by (do 3 (destruct x as [|x]; [cbn in Ex; injection Ex; auto|]); destruct x; discriminate). assert (y = v) by (do 3 (destruct y as [|y]; [cbn in Ey; injection Ey; auto|]); destruct y; discriminate). subst x y.
    assert (T : exists d, hl_table u v = Some d /\ (d <= l)%N).
    { assert (Hv : v < 3) by (apply nth_error_Some_lt in Ey; exact Ey). clear Ex Ey. induction W as [u|u v t w l Ha W IH].
      - exists 0%N. split; [|lia]. destruct u as [|[|[|u]]]; [reflexivity..|lia].
      - destruct (IH Hv) as (d & Ed & Ld). apply AR in Ha as [[= -> -> ->]|[[= -> -> ->]|[= -> -> ->]]]; (destruct t as [|[|[|t]]]; [..|lia]); vm_compute in Ed; try discriminate; injection Ed as <-; (eexists; split; [reflexivity|lia]). }
    destruct T as (d & Ed & Ld). exists d. split; auto. clear Ld W. apply nth_error_Some_lt in Ex, Ey. cbn in Ex, Ey.
    assert (F0 : walk (garc rp_lf) 0 2 1) by (apply walk_arc, LF; auto). assert (F1 : walk (garc rp_lf) 1 2 4) by (apply walk_arc, LF; auto). assert (B1 : walk (garc rp_lb) 1 2 7) by (apply walk_arc, LB; auto).
    destruct u as [|[|[|u]]]; [..|lia]; (destruct v as [|[|[|v]]]; [..|lia]); vm_compute in Ed; try discriminate; injection Ed as <-.
    + exists 0, 0%N, 0%N. repeat split; constructor.
    + exists 2, 1%N, 7%N. auto.
    + exists 2, 1%N, 0%N. split; auto. split; [constructor|auto].
    + exists 1, 0%N, 0%N. repeat split; constructor.
    + exists 2, 4%N, 0%N. split; auto. split; [constructor|auto].
    + exists 2, 0%N, 7%N. split; [constructor|auto].
    + exists 2, 0%N, 0%N. repeat split; constructor.
Qed.
Example C33_nonvacuous :
  hierarchy 3 (adj_arc hl_adj) [0; 1; 2] [0; 1; 2] rp_lf rp_lb /\ pair_sort pair_isort /\ short_hierarchy 3 rp_lf rp_lb 43 /\
  (h <- hl_new pair_isort 3 rp_lf rp_lb ;; d <- mapM (fun p => hl_dist h (fst p) (snd p)) [(0, 1); (1, 0); (2, 1); (0, 2); (1, 1)] ;; m <- hl_hub h 0 1 ;; Some (hl_out h, hl_in h, d, m))
  = Some ([[(0, 0%N); (2, 1%N)]; [(1, 0%N); (2, 4%N)]; [(2, 0%N)]], [[(0, 0%N)]; [(1, 0%N); (2, 7%N)]; [(2, 0%N)]], [Some 8; None; Some 7; Some 1; Some 0]%N, Some (2, 8%N)) /\
  (* a label that is dropped because the way over a higher hub is shorter: 0 -9-> 1 against 0 -1-> 2 -2-> 1 *)
  (h <- hl_new pair_isort 3 (fun u => nth_error [[(1, 9%N); (2, 1%N)]; []; []] u) (fun u => nth_error [[]; [(2, 2%N)]; []] u) ;; d <- hl_dist h 0 1 ;; Some (hl_out h, d))
  = Some ([[(0, 0%N); (2, 1%N)]; [(1, 0%N)]; [(2, 0%N)]], Some 3%N).
Proof.
  split; [apply hl_ex|]. split; [apply pair_isort_ok|]. split.
  - apply (C33_light_arcs_make_a_short_hierarchy 3 rp_lf rp_lb 7); [apply (hi_fw _ _ _ _ _ _ hl_ex)|apply (hi_bw _ _ _ _ _ _ hl_ex)|].
    intros u v w Hu [(l & E & H)|(l & E & H)]; destruct u as [|[|[|u]]]; try lia; cbn in E; injection E as <-; try (destruct H as [[= <- <-]|[]]; lia); destruct H.
  - split; vm_compute; reflexivity.
Qed.
