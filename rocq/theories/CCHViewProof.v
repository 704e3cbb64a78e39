(** The query server on any customized graphs: a basic or a perfect customization. *)
From Verif Require Import Base Graph SpecGraph SpecCCH Dijkstra LoopProof BitVec CCH CCHTheory CCHPathTheory CCHContractProof CCHBuildProof CCHMetricProof CCHQuery CCHQueryProof CCHPathProof.

Lemma npath_cons_hd arc u p t l : npath arc u p t l -> exists q, p = u :: q.
Proof. destruct 1; eauto. Qed.

Lemma mapM_in {T U} (f : T -> option U) l r : mapM f l = Some r -> forall b, In b r -> exists a, In a l /\ f a = Some b.
Proof.
  intros H. apply mapM_inv in H. induction H as [|a b l r Hab H IH]; intros b' Hb; [destruct Hb|].
  destruct Hb as [<-|Hb]; [exists a; split; [left; auto|auto]|]. destruct (IH _ Hb) as (a' & Ha & E). exists a'. split; [right; auto|auto].
Qed.

(** [k] serves the metric [madj]: [A] are arcs between ranks that walks of the input graph can be replaced by, [un] tells
    what an arc stands for, [hop x y e] that [e] is the id of the arc from [x] to [y] in the upward or downward graph. The
    two graphs consist of arcs of [A] and contain at least those that are shortest walks. *)
Record view (adj : list (list (nat * N))) (order ranks : list nat) (madj : list (list (nat * N))) (k : customized)
    (A : nat -> nat -> N -> Prop) (un : nat -> nat -> option nat -> Prop) (hop : nat -> nat -> nat -> Prop) : Prop := {
  v_order : node_order (length adj) order ranks;
  v_ord : k_order k = order;
  v_rks : k_ranks k = ranks;
  v_num : num_nodes (k_fw k) = length adj;
  v_eliml : length (k_elim k) = length adj;
  v_elim : forall x p, nth_error (k_elim k) x = Some (Some p) -> x < p < length adj;
  v_fw : up_graph (length adj) (k_elim k) (k_links (k_fw k));
  v_bw : up_graph (length adj) (k_elim k) (k_links (k_bw k));
  v_dom : forall x y w, A x y w -> x < length adj /\ y < length adj;
  v_unp : unpacking A un;
  v_unf : forall x y o o', un x y o -> un x y o' -> o = o';
  v_une : forall x y w, A x y w -> exists o, un x y o;
  v_fl : forall x e y w, larc (k_links (k_fw k)) x e y w -> upa A x y w /\ hop x y e;
  v_fu : forall x y w, upa A x y w -> tight A x y w -> uarc (k_links (k_fw k)) x y w;
  v_bl : forall x e y w, larc (k_links (k_bw k)) x e y w -> upa (flip_arc A) x y w /\ hop y x e;
  v_bu : forall x y w, upa (flip_arc A) x y w -> tight (flip_arc A) x y w -> uarc (k_links (k_bw k)) x y w;
  v_spec : forall x v e w, A x v w -> hop x v e ->
    exists r, (if x <? v then unpack_edge (k_upu k) (k_btail k) e else unpack_edge (k_dnu k) (k_btail k) e) = Some r /\
    match r with None => un x v None | Some (d, u, z) => un x v (Some z) /\ hop x z d /\ hop z v u end;
  v_orig : forall x y w u v, A x y w -> un x y None -> (w < INF)%N -> nth_error order x = Some u -> nth_error order y = Some v -> adj_arc madj u v w;
  v_walk : forall u v l x y, walk (adj_arc madj) u v l -> nth_error order x = Some u -> nth_error order y = Some v -> exists l', walk A x y l' /\ (l' <= l)%N }.

(** a bound for the walks that go up by shortest arcs of one graph and of the other is a bound for all walks *)
Lemma tight_meets A s t tent : tri_closed A ->
  (forall m a b, walk (fun x y w => upa A x y w /\ tight A x y w) s m a -> walk (fun x y w => upa (flip_arc A) x y w /\ tight (flip_arc A) x y w) t m b -> (tent <= a + b)%N) ->
  forall l, walk A s t l -> (tent <= l)%N.
Proof.
  intros HA HB. assert (G : forall k l, (l < N.of_nat k)%N -> walk A s t l -> (tent <= l)%N).
  2: { intros l. apply (G (S (N.to_nat l))). lia. }
  induction k as [|k IH]; intros l Hk Hl; [lia|]. destruct (N.lt_ge_cases l tent) as [Ls|]; [|auto].
  destruct (up_down A HA s t l Hl) as (m & a & b & Ha & Hb & L).
  assert (Va : walk A s m a) by (revert Ha; apply walk_mono; intros u v w [_ H]; exact H).
  assert (Vb : walk A m t b) by (revert Hb; apply walk_mono; intros u v w [_ H]; exact H).
  assert (Hmin : forall l', walk A s t l' -> (a + b <= l')%N).
  { intros l' Hl'. destruct (N.lt_ge_cases l' (a + b)) as [K|]; [|auto]. assert (tent <= l')%N by (apply IH; [lia|auto]). lia. }
  assert (tent <= a + b)%N; [|lia]. apply (HB m).
  - apply walk_tight; auto. { intros u v w [_ H]; exact H. } intros l' Hl'. pose proof (Hmin _ (walk_app _ _ _ _ _ _ Hl' Vb)). lia.
  - apply walk_tight. { intros u v w [_ H]; exact H. }
    + apply walk_flip in Hb. revert Hb. apply walk_mono. intros u v w [H1 H2]. split; auto.
    + intros l' Hl'. apply walk_flip_iff in Hl'. pose proof (Hmin _ (walk_app _ _ _ _ _ _ Va Hl')). lia.
Qed.

Section View.
  Variable adj : list (list (nat * N)).
  Variables order ranks : list nat.
  Variable madj : list (list (nat * N)).
  Variable k : customized.
  Variable A : nat -> nat -> N -> Prop.
  Variable un : nat -> nat -> option nat -> Prop.
  Variable hop : nat -> nat -> nat -> Prop.
  Hypothesis HW : view adj order ranks madj k A un hop.
  Let n := length adj.

  Lemma vrank_of u : u < n -> exists x, nth_error ranks u = Some x /\ x < n /\ nth_error order x = Some u.
  Proof using HW.
    intros Hu. destruct (v_order _ _ _ _ _ _ _ _ HW) as (L1 & L2 & O1 & O2). destruct (nth_error_lt ranks u) as (x & E). { unfold n in Hu. lia. }
    exists x. split; auto. apply O2 in E. split; auto. apply nth_error_Some_lt in E. unfold n. lia.
  Qed.

  (** ** The server *)
  Definition sv_ok (sv : cserver) : Prop := length (q_fd sv) = n /\ length (q_bd sv) = n /\ length (q_fp sv) = n /\ length (q_bp sv) = n /\
    (forall x, x < n -> nth_error (q_fd sv) x = Some INF) /\ (forall x, x < n -> nth_error (q_bd sv) x = Some INF).
  (** ready to report path [p] *)
  Definition path_ready (sv : cserver) (from to : nat) (p : list nat) : Prop :=
    exists x y Lf Fb, nth_error ranks from = Some x /\ nth_error ranks to = Some y /\ fpc A un hop (q_fp sv) x (q_meet sv) Lf /\ pchain A un hop (q_bp sv) y (q_meet sv) Fb /\
      NoDup (Lf ++ Fb ++ [y]) /\ (forall q, In q (Lf ++ Fb ++ [y]) -> q < n) /\ mapM (fun x => nth_error order x) (Lf ++ Fb ++ [y]) = Some p.

  Lemma distance_ok sv from to : q_cust sv = k -> sv_ok sv -> from < n -> to < n ->
    exists sv' r, cs_distance sv from to = Some (sv', r) /\ q_cust sv' = k /\ sv_ok sv' /\ exact_answer (adj_arc madj) from to r /\
      forall d, r = Some d -> exists p, path_ready sv' from to p /\ npath (adj_arc madj) from p to d /\ NoDup p.
  Proof using HW.
    intros Ek (S1 & S2 & S3 & S4 & S5 & S6) Hf Ht.
    destruct (vrank_of from Hf) as (x & Ex & Hx & Ox). destruct (vrank_of to Ht) as (y & Ey & Hy & Oy).
    pose proof (v_rks _ _ _ _ _ _ _ _ HW) as Er.
    pose proof (v_fw _ _ _ _ _ _ _ _ HW) as FU. pose proof (v_bw _ _ _ _ _ _ _ _ HW) as BU. fold n in FU, BU.
    pose proof (v_eliml _ _ _ _ _ _ _ _ HW) as elim_len. pose proof (v_elim _ _ _ _ _ _ _ _ HW) as elim_par. fold n in elim_len, elim_par.
    unfold cs_distance. rewrite Ek, Er, Ex, Ey. cbn [bind].
    destruct (cq_run_ok n (k_elim k) elim_len elim_par _ _ FU BU x y Hx Hy (q_fd sv) (q_bd sv) (q_fp sv) (q_bp sv) S1 S2 S3 S4 S5 S6) as ([[[f b] tent] meet] & E & Q).
    rewrite E. cbn [bind]. eexists. eexists. split; [reflexivity|]. split; [reflexivity|].
    split. { destruct (query_all n (k_elim k) elim_len elim_par _ _ FU BU x y Hx Hy _ _ _ _ Q) as (A1 & A2 & A3 & A4 & A5 & A6). unfold sv_ok. cbn. auto 7. }
    destruct (query_exact n (k_elim k) elim_len elim_par _ _ FU BU x y Hx Hy _ _ _ _ Q) as (X1 & X2 & X3).
    assert (AM : forall l, walk A x y l -> (tent <= l)%N).
    { apply tight_meets. { apply (un_tri (v_unp _ _ _ _ _ _ _ _ HW)). } intros z a b' Wa Wb. apply X2. exists z, a, b'. split; [|split; [|reflexivity]].
      - revert Wa. apply walk_mono. intros p q w [H1 H2]. apply (v_fu _ _ _ _ _ _ _ _ HW); auto.
      - revert Wb. apply walk_mono. intros p q w [H1 H2]. apply (v_bu _ _ _ _ _ _ _ _ HW); auto. }
    assert (WM : forall l, walk (adj_arc madj) from to l -> (tent <= l)%N).
    { intros l Hl. destruct (v_walk _ _ _ _ _ _ _ _ HW _ _ _ _ _ Hl Ox Oy) as (l' & Hl' & Ll). pose proof (AM _ Hl'). lia. }
    destruct (N.eqb_spec tent INF) as [->|Ne].
    - split; [exact WM|]. intros d H; discriminate.
    - assert (Lt : (tent < INF)%N) by lia.
      destruct (query_path n (k_elim k) elim_len elim_par _ _ FU BU x y Hx Hy A un hop (v_unp _ _ _ _ _ _ _ _ HW) (v_une _ _ _ _ _ _ _ _ HW)
        ltac:(intros ? ? ? ? _ Hl; destruct (v_fl _ _ _ _ _ _ _ _ HW _ _ _ _ Hl); auto) (v_fu _ _ _ _ _ _ _ _ HW) ltac:(intros ? ? ? ? _ Hl; destruct (v_bl _ _ _ _ _ _ _ _ HW _ _ _ _ Hl); auto) (v_bu _ _ _ _ _ _ _ _ HW) _ _ _ _ Q Lt AM)
        as (Lf & Fb & C1 & C2 & ND & Hq & NP).
      specialize (NP (fun p q w => forall u v, nth_error order p = Some u -> nth_error order q = Some v -> adj_arc madj u v w) ltac:(intros p q w Ha Hu Hw u v Eu Ev; eapply (v_orig _ _ _ _ _ _ _ _ HW); eauto)).
      destruct (v_order _ _ _ _ _ _ _ _ HW) as (O1 & _ & O2 & _).
      assert (MM : forall l, (forall q, In q l -> q < n) -> exists p, mapM (fun x => nth_error order x) l = Some p).
      { clear -O1. induction l as [|a l IH]; intros H; [exists []; reflexivity|]. cbn. destruct (nth_error_lt order a) as (v & ->). { specialize (H a (or_introl eq_refl)). unfold n in H. lia. }
        destruct IH as (p & ->); [intros; apply H; right; auto|]. eexists; reflexivity. }
      destruct (MM _ Hq) as (p & Ep).
      assert (NP' : npath (adj_arc madj) from p to tent).
      { revert NP Ep Ox Oy. clear. generalize (Lf ++ Fb ++ [y]) as l. intros l NP. revert p from. induction NP as [u|u v t w l' l Ha Hp IH]; intros p from Ep Ox Oy.
        - cbn in Ep. rewrite Ox in Ep. cbn in Ep. injection Ep as <-. rewrite Ox in Oy. injection Oy as <-. constructor.
        - cbn in Ep. rewrite Ox in Ep. cbn [bind] in Ep. destruct (mapM (fun x => nth_error order x) l) as [q|] eqn:El; [|discriminate]. cbn in Ep. injection Ep as <-.
          assert (Hv : exists z, nth_error order v = Some z). { destruct (npath_cons_hd _ _ _ _ _ Hp) as (l0 & ->). cbn in El. destruct (nth_error order v); [eauto|discriminate]. }
          destruct Hv as (z & Ez). econstructor; [apply Ha; eauto|]. apply IH; auto. }
      split; [split; [auto|]; split; [eapply npath_walk; eauto|exact WM]|].
      intros d Hd. injection Hd as <-. exists p. split; [|split; [exact NP'|]].
      + exists x, y, Lf, Fb. cbn [q_fp q_bp q_meet]. auto 8.
      + revert ND Ep. clear -O2. generalize (Lf ++ Fb ++ [y]) as l. intros l. revert p. induction l as [|a l IH]; intros p ND Ep; cbn in Ep. { injection Ep as <-. constructor. }
        destruct (nth_error order a) as [u|] eqn:Ea; [|discriminate]. cbn [bind] in Ep. destruct (mapM (fun x => nth_error order x) l) as [q|] eqn:El; [|discriminate]. cbn in Ep. injection Ep as <-.
        inversion ND; subst. constructor; [|apply IH; auto]. intros Hin. apply H1. destruct (mapM_in _ _ _ El u Hin) as (a' & Ha' & Ea'). apply O2 in Ea, Ea'. congruence.
  Qed.

  Lemma path_ok sv from to p : q_cust sv = k -> sv_ok sv -> path_ready sv from to p ->
    exists sv', cs_path sv from to = Some (sv', p) /\ q_cust sv' = k /\ sv_ok sv' /\ path_ready sv' from to p.
  Proof using HW.
    intros Ek (S1 & S2 & S3 & S4 & S5 & S6) (x & y & Lf & Fb & Ex & Ey & C1 & C2 & ND & Hq & Ep).
    pose proof (v_rks _ _ _ _ _ _ _ _ HW) as Er.
    pose proof (v_ord _ _ _ _ _ _ _ _ HW) as Eo.
    pose proof (v_eliml _ _ _ _ _ _ _ _ HW) as Eel. fold n in Eel.
    assert (Ln : length (Lf ++ Fb ++ [y]) <= n).
    { apply Nat.le_trans with (length (seq 0 n)); [|rewrite seq_length; lia]. apply NoDup_incl_length; auto. intros q Hi. apply in_seq. specialize (Hq q Hi). lia. }
    rewrite !app_length in Ln. cbn [length] in Ln.
    unfold cs_path. rewrite Ek, Er, Ex, Ey, Eel, Eo. cbn [bind].
    destruct (flip_ok A un hop n x y (q_fp sv) (q_meet sv) Lf (q_bp sv) Fb (N.of_nat (n + 1)) S4 C1 C2 ND Hq ltac:(lia)) as (bp1 & E1 & L1 & P1).
    rewrite E1. cbn [bind].
    assert (ND' : NoDup ((Lf ++ Fb) ++ [y])) by (rewrite <- app_assoc; auto).
    assert (Hq' : forall q, In q ((Lf ++ Fb) ++ [y]) -> q < n) by (rewrite <- app_assoc; auto).
    destruct (unpack_ok A un hop (v_unp _ _ _ _ _ _ _ _ HW) (v_unf _ _ _ _ _ _ _ _ HW) k n (v_spec _ _ _ _ _ _ _ _ HW) x y bp1 (Lf ++ Fb) (N.of_nat (2 * n + 1)) L1 P1 ND' Hq' ltac:(rewrite app_length; lia)) as (bp2 & E2 & L2 & P2).
    rewrite E2. cbn [bind]. rewrite (follow_ok A un hop x y bp2 (Lf ++ Fb) (N.of_nat (n + 1)) P2 ltac:(rewrite app_length; lia)). cbn [bind].
    rewrite <- app_assoc, Ep. cbn [bind]. eexists. split; [reflexivity|]. split; [reflexivity|]. split. { unfold sv_ok. cbn. auto 7. }
    exists x, y, Lf, Fb. cbn [q_fp q_bp q_meet]. split; [auto|]. split; [auto|]. split; [auto|]. split; [|auto].
    destruct (pchain_hd A un hop _ _ _ _ C2) as (r & Eh). eapply ochain_pchain, ochain_split; eauto.
  Qed.
  Lemma paths_ok j : forall sv from to p, q_cust sv = k -> sv_ok sv -> path_ready sv from to p ->
    exists sv', cs_paths sv from to j = Some sv' /\ q_cust sv' = k /\ sv_ok sv' /\ path_ready sv' from to p.
  Proof using HW.
    induction j as [|j IH]; intros sv from to p Ek HS HP; [exists sv; auto|]. cbn [cs_paths].
    destruct (path_ok sv from to p Ek HS HP) as (sv' & E & Ek' & HS' & HP'). rewrite E. cbn [bind]. apply IH; auto.
  Qed.
End View.

Definition served (adj : list (list (nat * N))) (order ranks : list nat) (madj : list (list (nat * N))) (k : customized) : Prop :=
  exists A un hop, view adj order ranks madj k A un hop.
(** the customization in use after [ops] *)
Fixpoint last_update (k : customized) (ops : list cs_op) : customized :=
  match ops with [] => k | OpUpdate k' :: ops => last_update k' ops | OpQuery _ _ _ :: ops => last_update k ops end.

Section Histories.
  Variable adj : list (list (nat * N)).
  Variables order ranks : list nat.
  Lemma served_new madj k : served adj order ranks madj k -> sv_ok adj (cs_new k).
  Proof using.
    intros (A & un & hop & HW). unfold sv_ok, cs_new. cbn. rewrite (v_num _ _ _ _ _ _ _ _ HW).
    repeat split; try apply repeat_length; intros x Hx; rewrite nth_error_repeat, (proj2 (Nat.ltb_lt _ _) Hx); reflexivity.
  Qed.
  Lemma served_distance madj sv from to : served adj order ranks madj (q_cust sv) -> sv_ok adj sv -> from < length adj -> to < length adj ->
    exists sv' r, cs_distance sv from to = Some (sv', r) /\ q_cust sv' = q_cust sv /\ sv_ok adj sv' /\ exact_answer (adj_arc madj) from to r /\
      forall d, r = Some d -> exists p, npath (adj_arc madj) from p to d /\ NoDup p /\
        forall j, exists sv1 sv2, cs_paths sv' from to j = Some sv1 /\ q_cust sv1 = q_cust sv /\ sv_ok adj sv1 /\ cs_path sv1 from to = Some (sv2, p).
  Proof using.
    intros (A & un & hop & HW) HS Hf Ht. destruct (distance_ok _ _ _ _ _ _ _ _ HW sv from to eq_refl HS Hf Ht) as (sv1 & r & E & Ek & S1 & X & P1).
    exists sv1, r. split; [exact E|]. split; [exact Ek|]. split; [exact S1|]. split; [exact X|]. intros d Hd. destruct (P1 d Hd) as (p & HP & NP & ND). exists p. split; [exact NP|]. split; [exact ND|].
    intros j. destruct (paths_ok _ _ _ _ _ _ _ _ HW j sv1 from to p Ek S1 HP) as (sv2 & E2 & Ek2 & S2 & HP2).
    destruct (path_ok _ _ _ _ _ _ _ _ HW sv2 from to p Ek2 S2 HP2) as (sv3 & E3 & _). exists sv2, sv3. auto.
  Qed.
  Lemma served_history : forall ops, (forall op, In op ops -> match op with OpUpdate k => exists madj, served adj order ranks madj k | OpQuery from to _ => from < length adj /\ to < length adj end) ->
    forall sv, (exists madj, served adj order ranks madj (q_cust sv)) -> sv_ok adj sv ->
    exists sv', cs_history sv ops = Some sv' /\ q_cust sv' = last_update (q_cust sv) ops /\ sv_ok adj sv'.
  Proof using.
    induction ops as [|op ops IH]; intros Hops sv Hk HS; [exists sv; auto|].
    assert (Hops' : forall op, In op ops -> match op with OpUpdate k => exists madj, served adj order ranks madj k | OpQuery from to _ => from < length adj /\ to < length adj end) by (intros o Ho; apply Hops; right; auto).
    pose proof (Hops op (or_introl eq_refl)) as Hop.
    unfold cs_history. cbn [foldM]. destruct op as [k|from to j]; cbn [cs_do last_update bind].
    - apply (IH Hops' (cs_update sv k)); auto.
    - destruct Hop as [Hf Ht]. destruct Hk as (madj & Hm). destruct (served_distance madj sv from to Hm HS Hf Ht) as (sv1 & r & E1 & Ek1 & S1 & _ & P1).
      rewrite E1. cbn [bind]. destruct r as [d|].
      + destruct (P1 d eq_refl) as (p & _ & _ & HP). destruct (HP j) as (sv2 & _ & E2 & Ek2 & S2 & _).
        rewrite E2. cbn [bind]. destruct (IH Hops' sv2) as (sv' & E' & K' & S'); [rewrite Ek2; eauto|auto|]. exists sv'. rewrite <- Ek2. auto.
      + destruct (IH Hops' sv1) as (sv' & E' & K' & S'); [rewrite Ek1; eauto|auto|]. exists sv'. rewrite <- Ek1. auto.
  Qed.
End Histories.
