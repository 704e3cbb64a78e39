(** The parent pointers of a finished elimination tree query describe, completely unpacked, a simple path; unpacking it
    in the pointer array. *)
From Verif Require Import Base Graph SpecGraph SpecCCH Dijkstra LoopProof CCHTheory CCHPathTheory CCH CCHContractProof CCHQuery CCHQueryProof.

(** [hop x y e]: [e] is the edge of the arc from [x] to [y] *)
Section Chain.
  Variable A : nat -> nat -> N -> Prop.
  Variable un : nat -> nat -> option nat -> Prop.
  Variable hop : nat -> nat -> nat -> Prop.

  (** from [s] up to a node, following parents backwards *)
  Inductive fpc (fp : list (nat * nat)) (s : nat) : nat -> list nat -> Prop :=
  | fpc_nil : fpc fp s s []
  | fpc_snoc x L y e l : fpc fp s x L -> nth_error fp y = Some (x, e) -> hop x y e -> y <> s -> expand A un x y l -> fpc fp s y (L ++ x :: l).
  (** from a node to [t], following pointers; [L] are all nodes before [t] after complete unpacking *)
  Inductive pchain (ps : list (nat * nat)) (t : nat) : nat -> list nat -> Prop :=
  | pc_nil : pchain ps t t []
  | pc_cons x v e l L : x <> t -> nth_error ps x = Some (v, e) -> hop x v e -> expand A un x v l -> pchain ps t v L -> pchain ps t x (x :: l ++ L).
End Chain.

Section Finish.
  Variable n : nat.
  Variable elim : list (option nat).
  Hypothesis EL : length elim = n.
  Hypothesis EP : forall x p, nth_error elim x = Some (Some p) -> x < p < n.

  Section OneSide.
    Variable links : idlinks.
    Hypothesis HG : up_graph n elim links.
    Variable r : nat.
    Hypothesis Hr : r < n.
    Variable A : nat -> nat -> N -> Prop.
    Variable un : nat -> nat -> option nat -> Prop.
    Variable hop : nat -> nat -> nat -> Prop.
    Hypothesis HU : unpacking A un.
    Hypothesis HE : forall x y w, A x y w -> exists o, un x y o.
    Hypothesis HL1 : forall x e y w, x < n -> larc links x e y w -> upa A x y w /\ (tight A x y w -> hop x y e).
    Hypothesis HL2 : forall x y w, upa A x y w -> tight A x y w -> uarc links x y w.

    Lemma uwalk_A x y l : walk (uarc links) x y l -> x < n -> walk A x y l.
    Proof using EL EP HG HL1.
      induction 1 as [x|x z y w l (e & He) Hw IH]; intros Hx; [constructor|]. destruct (HL1 _ _ _ _ Hx He) as [[_ Ha] _].
      econstructor; [exact Ha|]. apply IH. destruct (links_dom n elim links HG _ _ _ _ He Hx) as (_ & _ & Hl).
      destruct (rpath_ex n elim EL EP x Hx) as (lp & Hlp). eapply rpath_lt; eauto.
    Qed.

    Variables (P S : list nat) (tent : N) (meet : nat) (d : list N) (gd : nat -> N) (par : list (nat * nat)).
    Hypothesis HS : side n elim links r P [] S tent meet d gd par.
    Hypothesis HT : (tent < INF)%N.

    Lemma side_tail y p e w : y <= meet -> y <> r -> (gd y <= tent)%N -> larc links p e y w -> In p S ->
      (forall p' w' e', In p' S -> p' < p -> larc links p' e' y w' -> (gd y < gd p' + w')%N) ->
      (forall l, walk A r y l -> (gd y <= l)%N) ->
      forall b, walk (rest (fun u => u = y \/ u < p) A) r y b -> (gd y < b)%N.
    Proof using EL EP HG Hr HU HE HL1 HL2 HS HT.
      intros Hy Ny Gy Hp HpS Hst Hx b Hb. destruct (N.lt_ge_cases (gd y) b) as [|Gb]; auto.
      assert (Pn : p < n). { apply (side_lt _ _ EL EP _ _ _ _ _ _ _ _ _ _ HS). rewrite app_nil_r. apply (sd_S _ _ _ _ _ _ _ _ _ _ _ _ HS); auto. }
      destruct (HL1 _ _ _ _ Pn Hp) as [[Lpy _] _].
      destruct (up_to A (un_tri HU) (fun u => u = y \/ u < p) r y b ltac:(cbn beta; intros; lia) Hb) as (a & Ha & La).
      apply (walk_tight _ A) in Ha; [|intros u v w0 (_ & _ & _ & H); exact H|intros l Hl; specialize (Hx l Hl); lia].
      destruct (walk_last _ _ _ _ Ha) as [[E _]|(z & l1 & w' & Hz & [[Lz (Pz & _ & Az)] Tz] & ->)]; [congruence|].
      assert (Wz : walk (uarc links) r z l1). { revert Hz. apply walk_mono. intros u v w0 [[L (_ & _ & H)] HT']. apply HL2; [split; auto|auto]. }
      assert (HzP : In z P). { rewrite <- (app_nil_r P). eapply side_walk; [exact EL|exact EP|exact HG|exact Hr|exact HS|exact Wz]. }
      destruct (HL2 z y w') as (e' & Ez). { split; auto. } { auto. }
      destruct (side_complete _ _ EL EP links HG r Hr _ _ _ _ _ _ _ _ HS z l1 Wz (or_introl HzP)) as [K|[K1 K2]].
      - destruct (in_dec Nat.eq_dec z S) as [HzS|HzS].
        + pose proof (Hst z w' e' HzS ltac:(lia) Ez). lia.
        + destruct (sd_pruned _ _ _ _ _ _ _ _ _ _ _ _ HS z HzP HzS) as [Q1 Q2].
          destruct (N.eq_dec tent (gd z)) as [E|E]; [|lia]. specialize (Q2 E HT). lia.
      - destruct (N.eq_dec tent l1) as [E|E]; [|lia]. specialize (K2 E HT). lia.
    Qed.

    Lemma side_chain : forall y, y <= meet -> (gd y <= tent)%N -> (forall l, walk A r y l -> (gd y <= l)%N) -> exists L, ug A un r y (gd y) L /\ fpc A un hop par r y L.
    Proof using EL EP HG Hr HU HE HL1 HL2 HS HT.
      assert (G : forall k y, y < k -> y <= meet -> (gd y <= tent)%N -> (forall l, walk A r y l -> (gd y <= l)%N) -> exists L, ug A un r y (gd y) L /\ fpc A un hop par r y L).
      { induction k as [|k IH]; intros y Hk Hy Gy Hx; [lia|]. destruct (Nat.eq_dec y r) as [->|Ny].
        - exists []. rewrite (sd_s _ _ _ _ _ _ _ _ _ _ _ _ HS). split; constructor.
        - destruct (sd_par _ _ _ _ _ _ _ _ _ _ _ _ HS y Ny ltac:(lia)) as (p & e & w & Ep & Ha & HpS & Eg & Hst).
          assert (Pn : p < n). { apply (side_lt _ _ EL EP _ _ _ _ _ _ _ _ _ _ HS). rewrite app_nil_r. apply (sd_S _ _ _ _ _ _ _ _ _ _ _ _ HS); auto. }
          destruct (HL1 _ _ _ _ Pn Ha) as [[Lpy Ap] Hh0].
          assert (Hh : hop p y e).
          { apply Hh0. split; [exact Ap|]. intros l Hl. assert (Wp : walk A r p (gd p)) by (apply uwalk_A; [eapply side_real; [exact EL|exact EP|exact HG|exact Hr|exact HS|lia]|exact Hr]).
            pose proof (Hx _ (walk_app _ _ _ _ _ _ Wp Hl)). lia. }
          destruct (IH p) as (L & H1 & H2); [lia|lia|lia| |].
          { intros l Hl. assert (gd y <= l + w)%N; [|lia]. apply Hx. eapply walk_app; [exact Hl|apply walk_arc; exact Ap]. } destruct (expand_ex A un HU HE p y w Ap) as (l & Hl).
          exists (L ++ p :: l). split.
          + pose proof (side_tail y p e w Hy Ny Gy Ha HpS Hst Hx) as MT. rewrite Eg in MT |- *. eapply ug_snoc; eauto.
          + eapply fpc_snoc; eauto. }
      intros y. apply (G (Datatypes.S y)). lia.
    Qed.
  End OneSide.

  Section Both.
    Variables lf lb : idlinks.
    Hypothesis HF : up_graph n elim lf.
    Hypothesis HB : up_graph n elim lb.
    Variables s t : nat.
    Hypothesis Hs : s < n.
    Hypothesis Ht : t < n.
    Variable A : nat -> nat -> N -> Prop.
    Variable un : nat -> nat -> option nat -> Prop.
    Variable hop : nat -> nat -> nat -> Prop.
    Hypothesis HU : unpacking A un.
    Hypothesis HE : forall x y w, A x y w -> exists o, un x y o.
    Hypothesis HF1 : forall x e y w, x < n -> larc lf x e y w -> upa A x y w /\ (tight A x y w -> hop x y e).
    Hypothesis HF2 : forall x y w, upa A x y w -> tight A x y w -> uarc lf x y w.
    Hypothesis HB1 : forall x e y w, x < n -> larc lb x e y w -> upa (flip_arc A) x y w /\ (tight (flip_arc A) x y w -> hop y x e).
    Hypothesis HB2 : forall x y w, upa (flip_arc A) x y w -> tight (flip_arc A) x y w -> uarc lb x y w.

    (** backward chains as pointer chains to [t] *)
    Lemma fpc_pchain bp y L : fpc (flip_arc A) (fun x y => un y x) (fun x y e => hop y x e) bp t y L -> exists F, pchain A un hop bp t y F /\ y :: rev L = F ++ [t].
    Proof using.
      clear. induction 1 as [|x L y e l H (F & IH1 & IH2) Hp Hh Ny He]. { exists []. split; [constructor|reflexivity]. }
      exists (y :: rev l ++ F). split.
      - econstructor; eauto. apply expand_flip in He. exact He.
      - rewrite rev_app_distr. cbn [rev]. rewrite <- app_assoc. cbn [app]. rewrite IH2. rewrite <- app_assoc. reflexivity.
    Qed.

    Lemma query_path f b tent meet : query_done n elim lf lb s t (f, b, tent, meet) -> (tent < INF)%N -> (forall l, walk A s t l -> (tent <= l)%N) ->
      exists Lf Fb, fpc A un hop (w_par f) s meet Lf /\ pchain A un hop (w_par b) t meet Fb /\ NoDup (Lf ++ Fb ++ [t]) /\ (forall q, In q (Lf ++ Fb ++ [t]) -> q < n) /\
      forall M : nat -> nat -> N -> Prop, (forall x y w, A x y w -> un x y None -> (w < INF)%N -> M x y w) -> npath M s (Lf ++ Fb ++ [t]) t tent.
    Proof using EL EP HF HB Hs Ht HU HE HF1 HF2 HB1 HB2.
      intros (rf & rb & Sf & Sb & gf & gb & [jt_f0 jt_b0 _ _ _ jt_meet0 jt_best0 _ _]) HT HX. destruct (jt_meet0 HT) as (M1 & M2 & M3).
      assert (Rf : walk A s meet (gf meet)).
      { eapply (uwalk_A lf HF); eauto. eapply side_real; [exact EL|exact EP|exact HF|exact Hs|exact jt_f0|lia]. }
      assert (Rb : walk A meet t (gb meet)).
      { apply walk_flip_iff. eapply (uwalk_A lb HB (flip_arc A) (fun x y e => hop y x e)); eauto. eapply side_real; [exact EL|exact EP|exact HB|exact Ht|exact jt_b0|lia]. }
      assert (HEf : forall x y w, flip_arc A x y w -> exists o, un y x o) by (intros x y w H; eapply HE; exact H).
      destruct (side_chain lf HF s Hs A un hop HU HE HF1 HF2 _ _ _ _ _ _ _ jt_f0 HT meet) as (Lf & U1 & C1); [lia|lia| |].
      { intros l Hl. assert (tent <= l + gb meet)%N; [|lia]. apply HX. eapply walk_app; [exact Hl|exact Rb]. }
      destruct (side_chain lb HB t Ht (flip_arc A) (fun x y => un y x) (fun x y e => hop y x e) (unpacking_flip _ _ HU) HEf HB1 HB2 _ _ _ _ _ _ _ jt_b0 HT meet) as (Lb & U2 & C2); [lia|lia| |].
      { intros l Hl. assert (tent <= gf meet + l)%N; [|lia]. apply HX. eapply walk_app; [exact Rf|]. apply walk_flip_iff; exact Hl. }
      destruct (fpc_pchain _ _ _ C2) as (Fb & PC & EF). exists Lf, Fb. split; [auto|]. split; [auto|]. rewrite <- EF. split; [|split].
      - eapply ug_meet; eauto. intros m' a' b' Lm Wa Wb. rewrite M3. destruct (N.lt_ge_cases tent (a' + b')) as [|Gt]; auto.
        assert (Va : walk A s m' a') by (revert Wa; apply walk_mono; intros u v w [_ H]; exact H).
        assert (Vb : walk A m' t b') by (apply walk_flip_iff; revert Wb; apply walk_mono; intros u v w [_ H]; exact H).
        apply (walk_tight _ A) in Wa; [|intros u v w [_ H]; exact H|]. 2: { intros l Hl. pose proof (HX _ (walk_app _ _ _ _ _ _ Hl Vb)). lia. }
        apply (walk_tight _ (flip_arc A)) in Wb; [|intros u v w [_ H]; exact H|]. 2: { intros l Hl. apply walk_flip_iff in Hl. pose proof (HX _ (walk_app _ _ _ _ _ _ Va Hl)). lia. }
        assert (Wa' : walk (uarc lf) s m' a'). { revert Wa. apply walk_mono. intros u v w [H1 H2]. apply HF2; auto. }
        assert (Wb' : walk (uarc lb) t m' b'). { revert Wb. apply walk_mono. intros u v w [H1 H2]. apply HB2; auto. }
        destruct (jt_best0 m' a' b') as [K1 K2]; auto.
        + rewrite <- (app_nil_r rf). eapply side_walk; [exact EL|exact EP|exact HF|exact Hs|exact jt_f0|exact Wa'].
        + rewrite <- (app_nil_r rb). eapply side_walk; [exact EL|exact EP|exact HB|exact Ht|exact jt_b0|exact Wb'].
        + destruct (N.eq_dec tent (a' + b')%N) as [E|E]; [|lia]. specialize (K2 E HT). lia.
      - assert (Mn : meet < n). { apply (side_lt _ _ EL EP _ _ _ _ _ _ _ _ _ _ jt_f0). rewrite app_nil_r; auto. }
        intros q Hq. apply in_app_or in Hq. destruct Hq as [Hq|[<-|Hq]]; [|auto|].
        + destruct (proj2 (ug_ok A un HU _ _ _ _ U1) q Hq). lia.
        + apply in_rev in Hq. destruct (proj2 (ug_ok _ _ (unpacking_flip _ _ HU) _ _ _ _ U2) q Hq). lia.
      - intros M HM. pose proof (ug_npath A un HU M HM _ _ _ _ U1 ltac:(lia)) as N1.
        pose proof (ug_npath _ _ (unpacking_flip _ _ HU) (flip_arc M) ltac:(intros x y w; apply HM) _ _ _ _ U2 ltac:(lia)) as N2.
        rewrite <- M3. replace (Lf ++ meet :: rev Lb) with ((Lf ++ [meet]) ++ rev Lb) by (rewrite <- app_assoc; reflexivity). eapply npath_app; [exact N1|].
        clear -N2. assert (G : forall arc u p v l, npath arc u p v l -> npath (flip_arc arc) v (rev p) u l).
        { clear. induction 1 as [u|u v t w l p Ha Hp IH]. { constructor. } cbn [rev]. rewrite N.add_comm. eapply npath_app; [exact IH|]. rewrite <- (N.add_0_r w). econstructor; [exact Ha|constructor]. }
        apply G in N2. rewrite rev_app_distr in N2. exact N2.
    Qed.
  End Both.
End Finish.

(** ** Unpacking in the pointer array *)
Section Unpack.
  Variable A : nat -> nat -> N -> Prop.
  Variable un : nat -> nat -> option nat -> Prop.
  Variable hop : nat -> nat -> nat -> Prop.
  Hypothesis HU : unpacking A un.
  Hypothesis Hfun : forall x y o o', un x y o -> un x y o' -> o = o'.
  Variable k : customized.
  Variable n : nat.
  Hypothesis Hunp : forall x v e w, A x v w -> hop x v e ->
    exists r, (if x <? v then unpack_edge (k_upu k) (k_btail k) e else unpack_edge (k_dnu k) (k_btail k) e) = Some r /\
    match r with None => un x v None | Some (d, u, z) => un x v (Some z) /\ hop x z d /\ hop z v u end.

  (** pointer chains with a counter for the work left *)
  Inductive pchc (ps : list (nat * nat)) (t : nat) : nat -> list nat -> nat -> Prop :=
  | pcc_nil : pchc ps t t [] 0
  | pcc_cons x v e l L c : x <> t -> nth_error ps x = Some (v, e) -> hop x v e -> expand A un x v l -> pchc ps t v L c -> pchc ps t x (x :: l ++ L) (2 * length l + 1 + c).
  (** completely unpacked *)
  Inductive ochain (ps : list (nat * nat)) (t : nat) : nat -> list nat -> Prop :=
  | oc_nil : ochain ps t t []
  | oc_cons x v e L : x <> t -> nth_error ps x = Some (v, e) -> hop x v e -> expand A un x v [] -> ochain ps t v L -> ochain ps t x (x :: L).
  Inductive opre (ps : list (nat * nat)) (s t : nat) : nat -> list nat -> Prop :=
  | op_nil : opre ps s t s []
  | op_snoc x v e D : opre ps s t x D -> x <> t -> nth_error ps x = Some (v, e) -> hop x v e -> expand A un x v [] -> opre ps s t v (D ++ [x]).

  Lemma pchain_c ps t x L : pchain A un hop ps t x L -> exists c, pchc ps t x L c /\ c <= 2 * length L.
  Proof using.
    clear. induction 1 as [|x v e l L Nt Hp Hh He H (c & IH & Lc)]. { exists 0. split; [constructor|cbn; lia]. }
    eexists. split; [econstructor; eauto|]. cbn [length]. rewrite app_length. lia.
  Qed.
  Lemma pchc_upd ps t x L c z a : pchc ps t x L c -> ~ In z L -> pchc (upd ps z a) t x L c.
  Proof using.
    clear. induction 1 as [|x v e l L c Nt Hp Hh He H IH]; intros Hz; [constructor|]. econstructor; eauto.
    - rewrite nth_error_upd_neq; auto. intros ->. apply Hz. left; auto.
    - apply IH. intros Hi. apply Hz. right. apply in_or_app. auto.
  Qed.
  Lemma pchain_upd ps t x L z a : pchain A un hop ps t x L -> ~ In z L -> pchain A un hop (upd ps z a) t x L.
  Proof using.
    clear. induction 1 as [|x v e l L Nt Hp Hh He H IH]; intros Hz; [constructor|]. econstructor; eauto.
    - rewrite nth_error_upd_neq; auto. intros ->. apply Hz. left; auto.
    - apply IH. intros Hi. apply Hz. right. apply in_or_app. auto.
  Qed.
  Lemma opre_upd ps s t x D z a : opre ps s t x D -> ~ In z D -> opre (upd ps z a) s t x D.
  Proof using.
    clear. induction 1 as [|x v e D H IH Nt Hp Hh He]; intros Hz; [constructor|]. econstructor; eauto.
    - apply IH. intros Hi. apply Hz. apply in_or_app. auto.
    - rewrite nth_error_upd_neq; auto. intros ->. apply Hz. apply in_or_app. right; left; auto.
  Qed.
  Lemma opre_chain ps s t x D L : opre ps s t x D -> ochain ps t x L -> ochain ps t s (D ++ L).
  Proof using.
    clear. intros H. revert L. induction H as [|x v e D H IH Nt Hp Hh He]; intros L HL; [exact HL|]. rewrite <- app_assoc. apply IH. cbn [app]. econstructor; eauto.
  Qed.
  Lemma ochain_pchain ps t x L : ochain ps t x L -> pchain A un hop ps t x L.
  Proof using. clear. induction 1 as [|x v e L Nt Hp Hh He H IH]; [constructor|]. change (x :: L) with (x :: [] ++ L). econstructor; eauto. Qed.
  Lemma ochain_hd ps t x L : ochain ps t x L -> exists r, L ++ [t] = x :: r.
  Proof using. clear. destruct 1; cbn; eauto. Qed.
  Lemma ochain_split ps t x L1 y r : forall L2, ochain ps t x (L1 ++ L2) -> L2 ++ [t] = y :: r -> ochain ps t y L2.
  Proof using.
    clear. revert x. induction L1 as [|a L1 IH]; intros x L2 H E; cbn [app] in H.
    - destruct (ochain_hd _ _ _ _ H) as (r' & E'). rewrite E in E'. injection E' as -> ->. exact H.
    - inversion H; subst. eapply IH; eauto.
  Qed.
  Lemma pchain_hd ps t x L : pchain A un hop ps t x L -> exists r, L ++ [t] = x :: r.
  Proof using. clear. destruct 1; cbn; eauto. Qed.

  (** l.134-140 *)
  Lemma flip_ok s t fp m L0 bp F0 fuel : length bp = n -> fpc A un hop fp s m L0 -> pchain A un hop bp t m F0 -> NoDup (L0 ++ F0 ++ [t]) ->
    (forall q, In q (L0 ++ F0 ++ [t]) -> q < n) -> (N.of_nat (length L0) < fuel)%N ->
    exists bp', loopN fuel (flip_step s fp) (m, bp) = Some bp' /\ length bp' = n /\ pchain A un hop bp' t s (L0 ++ F0).
  Proof using.
    clear. intros Lb Hf Hp Hn Hq Hfu.
    apply (loopN_ghost _ (fun L (st : nat * list (nat * nat)) => let '(node, bp) := st in length bp = n /\ fpc A un hop fp s node L /\ exists F, pchain A un hop bp t node F /\ L ++ F = L0 ++ F0)
      (fun bp' => length bp' = n /\ pchain A un hop bp' t s (L0 ++ F0)) (fun L => N.of_nat (length L)) fuel L0); [|split; [auto|]; split; [auto|]; exists F0; auto|auto].
    intros L [node bp1] (L1 & Hf1 & F & Hp1 & E). unfold flip_step. inversion Hf1 as [|x L' y e l Hf2 Hfp Hh Ny He]; subst.
    - rewrite Nat.eqb_refl. eexists. split; [reflexivity|]. cbn [app] in E. rewrite <- E. auto.
    - rewrite (proj2 (Nat.eqb_neq node s)) by auto. rewrite Hfp. cbn [bind]. rewrite app_assoc, <- E in Hn, Hq. rewrite <- !app_assoc in Hn, Hq. cbn [app] in Hn, Hq.
      assert (Xn : x < length bp1). { rewrite L1. apply Hq. apply in_elt. }
      rewrite set_at_lt by auto. cbn [bind]. eexists. split; [reflexivity|]. exists L'. split; [|rewrite app_length; cbn [length]; lia].
      split; [rewrite upd_length; auto|]. split; [auto|].
      apply NoDup_app_iff in Hn. destruct Hn as (_ & Hn & _). inversion Hn as [|? ? Nx _]; subst.
      exists (x :: l ++ F). split.
      + econstructor; [|apply nth_error_upd_eq; auto|exact Hh|exact He|apply pchain_upd; auto].
        * intros ->. apply Nx. apply in_or_app. right. apply in_or_app. right. left; auto.
        * intros Hi. apply Nx. apply in_or_app. right. apply in_or_app. auto.
      + rewrite <- E, <- app_assoc. reflexivity.
  Qed.

  (** l.158-176 *)
  Lemma unpack_ok s t ps full fuel : length ps = n -> pchain A un hop ps t s full -> NoDup (full ++ [t]) -> (forall q, In q (full ++ [t]) -> q < n) ->
    (N.of_nat (2 * length full) < fuel)%N ->
    exists ps', loopN fuel (unpack_step k t) (s, ps) = Some ps' /\ length ps' = n /\ ochain ps' t s full.
  Proof using HU Hfun Hunp.
    intros Lp Hc Hn Hq Hfu. destruct (pchain_c _ _ _ _ Hc) as (c0 & Hcc & Lc).
    apply (loopN_ghost _ (fun c (st : nat * list (nat * nat)) => let '(cur, ps) := st in length ps = n /\ exists D F, pchc ps t cur F c /\ opre ps s t cur D /\ D ++ F = full)
      (fun ps' => length ps' = n /\ ochain ps' t s full) (fun c => N.of_nat c) fuel c0); [|split; [auto|]; exists [], full; split; [auto|]; split; [constructor|auto]|lia].
    clear ps Lp Hc c0 Hcc Lc Hfu fuel. intros c [cur ps] (Lp & D & F & HF & HD & E). unfold unpack_step. inversion HF as [|x v e l L c' Nt Hp Hh He HL]; subst.
    - rewrite Nat.eqb_refl. eexists. split; [reflexivity|]. split; [auto|]. eapply opre_chain; [exact HD|constructor].
    - rewrite (proj2 (Nat.eqb_neq cur t)) by auto. rewrite Hp. cbn [bind].
      destruct (expand_arc A un _ _ _ He) as (w & Ha).
      destruct (Hunp _ _ _ _ Ha Hh) as (r & Er & Hr). cbn zeta. rewrite Er. cbn [bind].
      assert (Hn' : NoDup (D ++ cur :: l ++ L ++ [t])). { rewrite <- !app_assoc in Hn. cbn [app] in Hn. rewrite <- !app_assoc in Hn. exact Hn. }
      assert (Hq' : forall q, In q (D ++ cur :: l ++ L ++ [t]) -> q < length ps). { intros q Hi. apply Hq. rewrite <- !app_assoc. cbn [app]. rewrite <- !app_assoc. exact Hi. }
      destruct r as [[[dn up] z]|].
      + destruct Hr as (Hz & H1 & H2). inversion He as [x y w0 Ha0 Hu0|x y w0 z0 l1 l2 Ha0 Hu0 He1 He2]; subst.
        { pose proof (Hfun _ _ _ _ Hz Hu0). discriminate. }
        pose proof (Hfun _ _ _ _ Hz Hu0) as Ez. injection Ez as <-.
        assert (Cn : cur < length ps). { apply Hq'. apply in_elt. }
        assert (Zn : z < length ps). { apply Hq'. apply in_or_app. right. right. apply in_or_app. left. apply in_elt. }
        rewrite set_at_lt by auto. cbn [bind]. rewrite set_at_lt by (rewrite upd_length; auto). cbn [bind].
        eexists. split; [reflexivity|]. exists (2 * length l1 + 1 + (2 * length l2 + 1 + c')). split. 2: { rewrite app_length. cbn [length]. lia. }
        split. { rewrite !upd_length; auto. }
        apply NoDup_app_iff in Hn'. destruct Hn' as (ND & Hn' & Hdis). inversion Hn' as [|? ? Nc Hn2]; subst. apply NoDup_app_iff in Hn2. destruct Hn2 as (Nl & _ & Hdl).
        assert (Zc : z <> cur). { intros ->. apply Nc. apply in_or_app. left. apply in_elt. }
        assert (ZL : ~ In z L). { intros Hi. apply (Hdl z); [apply in_elt|]. apply in_or_app; auto. }
        assert (Zt : z <> t). { intros ->. apply (Hdl t); [apply in_elt|]. apply in_or_app; right; left; auto. }
        assert (CL : ~ In cur L). { intros Hi. apply Nc. apply in_or_app. right. apply in_or_app; auto. }
        exists D, (cur :: l1 ++ (z :: l2 ++ L)). split; [|split].
        * econstructor; [auto| |exact H1|exact He1|econstructor; [auto| |exact H2|exact He2|]].
          -- rewrite nth_error_upd_neq by auto. apply nth_error_upd_eq; auto.
          -- apply nth_error_upd_eq. rewrite upd_length; auto.
          -- apply pchc_upd; auto. apply pchc_upd; auto.
        * apply opre_upd; [apply opre_upd; auto|].
          -- intros Hi. apply (Hdis _ Hi). left; auto.
          -- intros Hi. apply (Hdis _ Hi). right. apply in_or_app. left. apply in_elt.
        * rewrite <- !app_assoc. reflexivity.
      + inversion He as [x y w0 Ha0 Hu0|x y w0 z0 l1 l2 Ha0 Hu0 He1 He2]; subst. 2: { pose proof (Hfun _ _ _ _ Hr Hu0). discriminate. }
        eexists. split; [reflexivity|]. exists c'. split; [|cbn [length]; lia]. split; [auto|]. exists (D ++ [cur]), L. split; [auto|]. split; [|rewrite <- app_assoc; reflexivity].
        econstructor; eauto.
  Qed.

  (** l.145-149 *)
  Lemma follow_ok s t ps full fuel : ochain ps t s full -> (N.of_nat (length full) < fuel)%N ->
    loopN fuel (follow_step t ps) (s, [s]) = Some (full ++ [t]).
  Proof using.
    clear. intros Hc Hf.
    destruct (loopN_ghost (follow_step t ps) (fun F (st : nat * list nat) => ochain ps t (fst st) F /\ exists D, snd st = D ++ [fst st] /\ D ++ F = full) (fun r => r = full ++ [t])
      (fun F => N.of_nat (length F)) fuel full (s, [s])) as (r & E & ->); auto.
    - intros F [cur acc] (HF & D & Ea & E). cbn [fst snd] in *. unfold follow_step. inversion HF as [|x v e L Nt Hp Hh He HL]; subst.
      + rewrite Nat.eqb_refl. eexists. split; [reflexivity|]. rewrite app_nil_r. reflexivity.
      + rewrite (proj2 (Nat.eqb_neq cur t)) by auto. rewrite Hp. cbn [bind]. eexists. split; [reflexivity|]. exists L. split; [|cbn [length]; lia].
        cbn [fst snd]. split; [auto|]. exists (D ++ [cur]). split; [reflexivity|rewrite <- app_assoc; reflexivity].
    - cbn [fst snd]. split; [auto|]. exists []. auto.
  Qed.
End Unpack.
