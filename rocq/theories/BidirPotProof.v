(** Symmetric and average bidirectional potentials. *)
From Verif Require Import Base SpecPQ SpecGraph IndexHeap IndexHeapProof TsVec TsVecProof Graph Dijkstra LoopProof DijkstraRef DijkstraProof DijServer DijServerProof DijHistProof Bidir BidirProof BidirServerProof.
Require Import ZArith Lia.

(** * If the first program does not panic, the second one does the same *)
Definition ole {A} (a b : option A) : Prop := forall r, a = Some r -> b = Some r.
Lemma ole_refl {A} (a : option A) : ole a a. Proof. intros r H; exact H. Qed.
Lemma ole_bind {A B} (a b : option A) (f g : A -> option B) : ole a b -> (forall x, ole (f x) (g x)) -> ole (bind a f) (bind b g).
Proof. intros H1 H2 r. destruct a as [x|]; [|discriminate]. rewrite (H1 x eq_refl). cbn [bind]. apply H2. Qed.
Lemma ole_foldM {S A} (f g : S -> A -> option S) l s : (forall s a, ole (f s a) (g s a)) -> ole (foldM f l s) (foldM g l s).
Proof. intros H. revert s. induction l as [|a l IH]; intros s; cbn [foldM]. { apply ole_refl. } apply ole_bind; auto. Qed.
Lemma ole_loopN {S R} (f g : S -> option (S + R)) fuel s : (forall s, ole (f s) (g s)) -> ole (loopN fuel f s) (loopN fuel g s).
Proof.
  intros H. unfold loopN. destruct fuel as [|p]; [apply ole_refl|].
  assert (X : forall p s, ole (loop_pos p f s) (loop_pos p g s)).
  { clear p s. induction p as [p IH|p IH|]; intros s; cbn [loop_pos].
    - apply ole_bind; auto. intros [x|x]; [|apply ole_refl]. apply ole_bind; auto. intros [y|y]; [|apply ole_refl]; auto.
    - apply ole_bind; auto. intros [x|x]; [|apply ole_refl]; auto.
    - auto. }
  apply ole_bind; auto. intros x. apply ole_refl.
Qed.
Lemma ole_settle {A P E} links hd lk (pl : A -> P) ep (cb1 cb2 : E -> nat -> N -> option (E * bool)) pot d e :
  (forall e v x, ole (cb1 e v x) (cb2 e v x)) -> ole (settle links hd lk pl ep cb1 pot d e) (settle links hd lk pl ep cb2 pot d e).
Proof.
  intros H. unfold settle. apply ole_bind; [apply ole_refl|]. intros [q o]. destruct o as [[k u]|]; [|apply ole_refl].
  apply ole_bind; [apply ole_refl|]. intros ls. apply ole_bind; [|intros [d' e']; apply ole_refl].
  apply ole_foldM. intros [d1 e1] a. unfold relax. destruct (negb (ep a)); [apply ole_refl|].
  do 4 (apply ole_bind; [apply ole_refl|]; intros ?). destruct (_ <? _)%N; [|apply ole_refl].
  do 2 (apply ole_bind; [apply ole_refl|]; intros ?). apply ole_bind; auto. intros ?. apply ole_refl.
Qed.

(** [bp1] panics more often than [bp2] in stop and prune, but otherwise does the same. *)
Record bp_le {E} (bp1 bp2 : bipot E) : Prop := {
  bl_init : bp_init bp1 = bp_init bp2;
  bl_fw : bp_fw bp1 = bp_fw bp2;
  bl_bw : bp_bw bp1 = bp_bw bp2;
  bl_stop : forall e f b x, ole (bp_stop bp1 e f b x) (bp_stop bp2 e f b x);
  bl_pf : forall e v x r m, ole (bp_prune_fw bp1 e v x r m) (bp_prune_fw bp2 e v x r m);
  bl_pb : forall e v x r m, ole (bp_prune_bw bp1 e v x r m) (bp_prune_bw bp2 e v x r m) }.

Lemma ole_bd_settle {E} links (p1 p2 : E -> nat -> N -> N -> N -> option (E * bool)) pot other maxd d st :
  (forall e v x r m, ole (p1 e v x r m) (p2 e v x r m)) -> ole (bd_settle links p1 pot other maxd d st) (bd_settle links p2 pot other maxd d st).
Proof.
  intros H. apply ole_settle. intros [[e tent] m] v x. unfold bd_cb. apply ole_bind; auto. intros [e1 b]. apply ole_refl.
Qed.

Lemma bd_cap_le {E C} n fwl bwl (bp1 bp2 : bipot E) (ch : chooser C) sv s t c : bp_le bp1 bp2 ->
  ole (bd_distance_cap n fwl bwl bp1 ch sv s t c) (bd_distance_cap n fwl bwl bp2 ch sv s t c).
Proof.
  intros [H1 H2 H3 H4 H5 H6]. unfold bd_distance_cap. rewrite H1. do 3 (apply ole_bind; [apply ole_refl|]; intros ?).
  apply ole_bind; [|intros ?; apply ole_refl]. apply ole_loopN. intros [[[df db] [[e tent] m]] cc]. unfold bd_step.
  apply ole_bind. { destruct (ch_may_stop ch cc); auto. apply ole_refl. }
  intros stop. destruct stop; [apply ole_refl|]. destruct (ch_choose ch cc (peek_key df) (peek_key db)) as [c' dir]. destruct dir.
  - rewrite H2. apply ole_bind; [apply ole_bd_settle; auto|]. intros ?. apply ole_refl.
  - rewrite H3. apply ole_bind; [apply ole_bd_settle; auto|]. intros ?. apply ole_refl.
Qed.
Lemma bd_history_le {E C} n fwl bwl (bp1 bp2 : bipot E) (ch : chooser C) sv qs : bp_le bp1 bp2 ->
  ole (bd_history n fwl bwl bp1 ch sv qs) (bd_history n fwl bwl bp2 ch sv qs).
Proof.
  intros H. unfold bd_history. apply ole_foldM. intros x [[s t] c]. apply ole_bind; [|intros ?; apply ole_refl]. apply bd_cap_le; auto.
Qed.

Definition add_le (a1 a2 : N -> N -> option N) : Prop := forall x y, ole (a1 x y) (a2 x y).
Lemma cadd_iadd : add_le cadd iadd.
Proof. intros x y r H. apply cadd_some in H. unfold iadd. f_equal. lia. Qed.
Lemma cadd_radd : add_le cadd radd.
Proof. intros x y r H. apply cadd_some in H. unfold radd, wadd. f_equal. destruct H as [H1 H2]. rewrite N.mod_small; lia. Qed.

Lemma prune_le {E} a1 a2 ip (own other : E -> nat -> option (E * option N)) e v x r m : add_le a1 a2 ->
  ole (prune_int a1 ip own other e v x r m) (prune_int a2 ip own other e v x r m).
Proof.
  intros H. unfold prune_int. destruct (_ <? _)%N; [|apply ole_refl]. apply ole_bind; [apply ole_refl|]. intros [e1 p].
  apply ole_bind; [apply ole_refl|]. intros y. destruct (_ <=? _)%N; [apply ole_refl|]. destruct ip; [|apply ole_refl].
  apply ole_bind; [apply ole_refl|]. intros [e2 q]. apply ole_bind; [apply H|]. intros ?; apply ole_refl.
Qed.
Lemma sym_le {EF EB} fi fg bi bg a1 a2 ip : add_le a1 a2 -> bp_le (@sym_bipot EF EB fi fg bi bg a1 ip) (sym_bipot fi fg bi bg a2 ip).
Proof.
  intros H. split; auto; cbn.
  - intros. apply ole_refl.
  - intros. apply prune_le; auto.
  - intros. apply prune_le; auto.
Qed.
Lemma avg_le {EF EB} fi fg bi bg a1 a2 ip : add_le a1 a2 -> bp_le (@avg_bipot EF EB fi fg bi bg a1 ip) (avg_bipot fi fg bi bg a2 ip).
Proof.
  intros H. split; auto; cbn.
  - intros e f b x. unfold av_stop. destruct f as [f|]; [|apply ole_refl]. destruct b as [b|]; [|apply ole_refl].
    apply ole_bind; [apply H|]. intros ?. apply ole_refl.
  - intros. apply prune_le; auto.
  - intros. apply prune_le; auto.
Qed.

(** * Pruning *)
(** [add] never panics and never exceeds the sum *)
Definition add_under (add : N -> N -> option N) : Prop := forall x y, exists z, add x y = Some z /\ (z <= x + y)%N.
Lemma radd_under : add_under radd.
Proof. intros x y. eexists; split; [reflexivity|]. unfold wadd. apply N.mod_le. unfold U32. lia. Qed.
Lemma iadd_under : add_under iadd.
Proof. intros x y. eexists; split; [reflexivity|]. lia. Qed.

(** [hl] lower bound used by the pruning rule, [pi2] the potential of the other search *)
Lemma prune_int_ok {E} add ip (own other : E -> nat -> option (E * option N)) (ET : E -> Prop) arc n s1 s2 hl pi2 :
  (ip = true -> add_under add) ->
  (forall e v, ET e -> v < n -> exists e', own e v = Some (e', hl v) /\ ET e') ->
  (forall e v, ET e -> v < n -> exists e', other e v = Some (e', pi2 v) /\ ET e') ->
  small_pot hl -> lower_bound_pot arc s2 hl ->
  (forall v l1 l2, walk arc s1 v l1 -> walk arc v s2 l2 -> (l1 + l2 < INF)%N -> pi2 v <> None) ->
  (ip = true -> forall v y l q q', walk arc v y l -> pi2 v = Some q -> pi2 y = Some q' -> (q' <= q + l)%N) ->
  forall e v x rm mu, ET e -> v < n -> (x < INF)%N -> (mu <= INF)%N -> walk arc s1 v x ->
    exists e' b, prune_int add ip own other e v x rm mu = Some (e', b) /\ ET e' /\
      (b = true -> forall y l1 l2 q, walk arc v y l1 -> walk arc y s2 l2 -> (x + l1 + l2 < INF)%N ->
         pi2 y = Some q -> (rm <= q + l2)%N -> (mu <= x + l1 + l2)%N).
Proof.
  intros HA HO HT SM LB FN CO e v x rm mu He Hv Hx Hmu W. unfold prune_int. destruct (N.ltb_spec mu INF) as [Hm|Hm].
  2: { exists e, false. split; auto. split; auto. discriminate. }
  destruct (HO e v He Hv) as (e1 & E1 & He1). rewrite E1. cbn [bind].
  assert (HP : (odef (hl v) INF + INF <= U32)%N). { destruct (hl v) as [p|] eqn:Ep; cbn; [apply (SM v p Ep)|unfold INF, U32; lia]. }
  rewrite cadd_ok by lia. cbn [bind]. destruct (N.leb_spec mu (x + odef (hl v) INF)) as [Hle|Hgt].
  - exists e1, true. split; auto. split; auto. intros _ y l1 l2 q W1 W2 HI _ _.
    destruct (LB v (l1 + l2)%N (walk_app _ _ _ _ _ _ W1 W2) ltac:(lia)) as (p & Ep & Hp). rewrite Ep in Hle. cbn in Hle. lia.
  - destruct ip. 2: { exists e1, false. split; auto. split; auto. discriminate. }
    destruct (HT e1 v He1 Hv) as (e2 & E2 & He2). rewrite E2. cbn [bind].
    destruct (HA eq_refl x (rm - odef (pi2 v) INF)%N) as (z & Ez & Hz). rewrite Ez. cbn [bind].
    destruct (N.leb_spec mu z) as [Hle|_].
    + exists e2, true. split; auto. split; auto. intros _ y l1 l2 q W1 W2 HI Eq Hr.
      pose proof (FN v x (l1 + l2)%N W (walk_app _ _ _ _ _ _ W1 W2) ltac:(lia)) as NN. destruct (pi2 v) as [q0|] eqn:E0; [|congruence]. cbn in Hz.
      pose proof (CO eq_refl v y l1 q0 q W1 E0 Eq). lia.
    + exists e2, false. split; auto. split; auto. discriminate.
Qed.

Lemma small_lower arc t h : lower_bound_pot arc t h -> forall u l, walk arc u t l -> (l < INF)%N -> h u <> None.
Proof. intros H u l W HI. destruct (H u l W HI) as (p & -> & _). discriminate. Qed.
Lemma feasible_step arc t h : feasible_pot arc t h -> forall u v l p q, walk arc u v l -> h u = Some p -> h v = Some q -> (p <= l + q)%N.
Proof. intros H u v l p q W Hu Hv. destruct (feasible_walk arc t h H u v l q W Hv) as (p' & E & Hp). assert (p' = p) by congruence. subst. auto. Qed.

(** * SymmetricBiDirPotential with ChooseMinKeyDir *)
Section Sym.
  Context {EF EB : Type}.
  Variable n : nat.
  Variable fwl bwl : nat -> option (list (nat * N)).
  Variable fi : EF -> nat -> option EF.
  Variable fg : EF -> nat -> option (EF * option N).
  Variable bi : EB -> nat -> option EB.
  Variable bg : EB -> nat -> option (EB * option N).
  Variable TF TB : nat -> Prop.
  Variable EIf : EF -> Prop. Variable ETf : nat -> EF -> Prop. Variable hf : nat -> nat -> option N.
  Variable EIb : EB -> Prop. Variable ETb : nat -> EB -> Prop. Variable hb : nat -> nat -> option N.
  Variable add : N -> N -> option N.
  Variable ip : bool.

  Definition pair_T (s t : nat) : Prop := s < n /\ t < n /\ TF t /\ TB s.

  (** what both kinds of pairs need *)
  Record pair_ok : Prop := {
    po_wf1 : wf_links n fwl;
    po_wf2 : wf_links n bwl;
    po_flip : forall u v w, garc bwl v u w <-> garc fwl u v w;
    po_f : pot_contract n TF fi fg EIf ETf hf;
    po_b : pot_contract n TB bi bg EIb ETb hb;
    po_add : ip = true -> add_under add }.
  Hypothesis PO : pair_ok.
  Hypothesis LF : forall t, TF t -> t < n -> lower_bound_pot (garc fwl) t (hf t) /\ small_pot (hf t).
  Hypothesis LB : forall s, TB s -> s < n -> lower_bound_pot (garc bwl) s (hb s) /\ small_pot (hb s).
  Hypothesis CF : ip = true -> forall t, TF t -> t < n -> feasible_pot (garc fwl) t (hf t).
  Hypothesis CB : ip = true -> forall s, TB s -> s < n -> feasible_pot (garc bwl) s (hb s).

  Lemma walk_fb u v l : walk (garc fwl) u v l <-> walk (garc bwl) v u l.
  Proof using PO.
    split; intros W.
    - apply walk_flip in W. eapply walk_mono; [|exact W]. intros a b w H. apply (po_flip PO). exact H.
    - apply walk_flip in W. eapply walk_mono; [|exact W]. intros a b w H. apply (po_flip PO). exact H.
  Qed.

  Lemma sym_stop_spec kf kb mu : sym_stop kf kb mu = false ->
    (kf <> None \/ kb <> None) /\ ((exists k, kf = Some k /\ (k < mu)%N) \/ (exists k, kb = Some k /\ (k < mu)%N)).
  Proof using Type.
    unfold sym_stop. intros H. apply Bool.orb_false_iff in H. destruct H as [H _]. apply Bool.andb_false_iff in H.
    destruct H as [H|H]; [destruct kf as [k|]|destruct kb as [k|]]; try discriminate; apply N.leb_gt in H; split; eauto; [left|right]; discriminate.
  Qed.

  Lemma sym_contract : bipot_contract n fwl bwl (sym_bipot fi fg bi bg add ip) min_key_dir pair_T (fun e => EIf (fst e) /\ EIb (snd e))
    (fun s t e => ETf t (fst e) /\ ETb s (snd e)) (fun s t => hf t) (fun s t => hb s).
  Proof using PO LF LB CF CB.
    pose proof PO as [W1 W2 FL PF PB PA].
    assert (OF : forall s t e v, ETf t (fst e) /\ ETb s (snd e) -> v < n -> exists e' : EF * EB, sym_fw fg e v = Some (e', hf t v) /\ ETf t (fst e') /\ ETb s (snd e')).
    { intros s t [a b] v [H1 H2] Hv. cbn [fst snd] in *. destruct (pc_get _ _ _ _ _ _ _ PF a t v H1 Hv) as (x & E & H). exists (x, b). unfold sym_fw. cbn [fst snd]. rewrite E. cbn. auto. }
    assert (OB : forall s t e v, ETf t (fst e) /\ ETb s (snd e) -> v < n -> exists e' : EF * EB, sym_bw bg e v = Some (e', hb s v) /\ ETf t (fst e') /\ ETb s (snd e')).
    { intros s t [a b] v [H1 H2] Hv. cbn [fst snd] in *. destruct (pc_get _ _ _ _ _ _ _ PB b s v H2 Hv) as (x & E & H). exists (a, x). unfold sym_bw. cbn [fst snd]. rewrite E. cbn. auto. }
    split.
    - intros [a b] s t [H1 H2] (Hs & Ht & T1 & T2). cbn [fst snd] in *. cbn. unfold sym_init. cbn [fst snd].
      destruct (pc_init _ _ _ _ _ _ _ PF a t H1 T1) as (a' & -> & ?). destruct (pc_init _ _ _ _ _ _ _ PB b s H2 T2) as (b' & -> & ?). cbn. eexists. split; [reflexivity|]. auto.
    - intros [a b] s t _ [H1 H2]. split; [eapply (pc_keep _ _ _ _ _ _ _ PF)|eapply (pc_keep _ _ _ _ _ _ _ PB)]; eauto.
    - intros s t (Hs & Ht & T1 & T2). destruct (LF t T1 Ht) as [L1 S1]. destruct (LB s T2 Hs) as [L2 S2]. split; auto.
      + intros e v He Hv. apply OF; auto.
      + intros v l1 l2 A1 A2 HI. split. { eapply small_lower; eauto. lia. } eapply (small_lower _ _ _ L2); [apply walk_fb; exact A1|lia].
      + apply (prune_int_ok add ip (sym_fw fg) (sym_bw bg) _ (garc fwl) n s t (hf t) (hb s)); auto.
        * intros v l1 l2 A1 A2 HI. eapply (small_lower _ _ _ L2); [apply walk_fb; exact A1|lia].
        * intros Hip v y l q q' A Hq Hq'. pose proof (feasible_step _ _ _ (CB Hip s T2 Hs) y v l q' q (proj1 (walk_fb _ _ _) A) Hq' Hq). lia.
    - intros s t (Hs & Ht & T1 & T2). destruct (LF t T1 Ht) as [L1 S1]. destruct (LB s T2 Hs) as [L2 S2]. split; auto.
      + intros u v w. symmetry. apply FL.
      + intros e v He Hv. apply OB; auto.
      + intros v l1 l2 A1 A2 HI. split. { eapply small_lower; eauto. lia. } eapply (small_lower _ _ _ L1); [apply walk_fb; exact A1|lia].
      + apply (prune_int_ok add ip (sym_bw bg) (sym_fw fg) _ (garc bwl) n t s (hb s) (hf t)); auto.
        * intros v l1 l2 A1 A2 HI. eapply (small_lower _ _ _ L1); [apply walk_fb; exact A1|lia].
        * intros Hip v y l q q' A Hq Hq'. pose proof (feasible_step _ _ _ (CF Hip t T1 Ht) y v l q' q (proj2 (walk_fb _ _ _) A) Hq' Hq). lia.
    - intros s t (Hs & Ht & T1 & T2). destruct (LF t T1 Ht) as [L1 S1]. split; auto.
      + intros e kf kb mu _ _ _ _. cbn. eexists; split; [reflexivity|]. intros Hb k1 k2 -> -> u v l1 l2 l3 p q A1 A2 A3 HI MN Hp Hq Hk1 Hk2.
        destruct (L1 u (l2 + l3)%N (walk_app _ _ _ _ _ _ A2 A3) ltac:(lia)) as (p' & Ep & Hle). assert (p' = p) by congruence. subst p'.
        unfold sym_stop in Hb. apply Bool.orb_true_iff in Hb. destruct Hb as [Hb|Hb].
        * apply Bool.andb_true_iff in Hb. destruct Hb as [Hb _]. apply N.leb_le in Hb. lia.
        * apply Bool.andb_true_iff in Hb. destruct Hb as [_ Hb]. discriminate.
      + intros e kf kb mu c c' dir _ _ _ _ Hne _ Es Ec. cbn in Es, Ec. injection Es as Es. injection Ec as <- <-.
        destruct (sym_stop_spec kf kb mu Es) as [N1 N2].
        assert (TR : forall po o, term (garc fwl) s t po o mu -> exists k, o = Some k /\ (mu <= k)%N). { intros po o (k & y & p & -> & _ & -> & _ & _ & H). eexists; split; [reflexivity|]. lia. }
        destruct kf as [k1|], kb as [k2|].
        * destruct (N.leb_spec k1 k2) as [Hk|Hk].
          -- split; [discriminate|]. split; [|discriminate]. intros HT. destruct (TR _ _ HT) as (k & [= <-] & H). destruct N2 as [(k & [= <-] & H')|(k & [= <-] & H')]; lia.
          -- split; [discriminate|]. split; auto. intros HT. destruct (TR _ _ HT) as (k & [= <-] & H). destruct N2 as [(k & [= <-] & H')|(k & [= <-] & H')]; lia.
        * split; [discriminate|]. split; [|discriminate]. intros HT. destruct (TR _ _ HT) as (k & [= <-] & H). destruct N2 as [(k & [= <-] & H')|(k & [=] & H')]; lia.
        * split; [discriminate|]. split; auto. intros HT. destruct (TR _ _ HT) as (k & [= <-] & H). destruct N2 as [(k & [=] & H')|(k & [= <-] & H')]; lia.
        * destruct N1; congruence.
      + discriminate.
  Qed.
End Sym.

(** * AveragePotential with ChooseMinKeyDir *)
(** the values of the average potential *)
Definition avp (hf hb : nat -> option N) (v : nat) : option Z :=
  match hf v, hb v with Some a, Some b => Some (Z.quot (Z.of_N a - Z.of_N b) 2) | _, _ => None end.
Definition half (o : option N) : Z := Z.of_N (odef o INF / 2).
Definition apf (hf hb : nat -> option N) (s t v : nat) : option N :=
  match avp hf hb v with Some p => Some (Z.to_N (Z.max (p + half (hb t)) 0)) | None => None end.
Definition apb (hf hb : nat -> option N) (s t v : nat) : option N :=
  match avp hf hb v with Some p => Some (Z.to_N (Z.max (half (hf s) - p) 0)) | None => None end.
Definition amu (hf hb : nat -> option N) (s t : nat) : N :=
  match avp hf hb s with Some p => Z.to_N (p + half (hb t)) | None => 0%N end.

Section Avg.
  Ltac Zify.zify_post_hook ::= Z.to_euclidean_division_equations.
  Lemma quot_mono_step (x y l : Z) : (0 <= l -> x <= y + 2 * l -> Z.quot x 2 <= Z.quot y 2 + l)%Z. Proof. lia. Qed.
  Lemma quot_lo (a b d : N) : (b <= a + d)%N -> (- Z.of_N (d / 2) <= Z.quot (Z.of_N a - Z.of_N b) 2)%Z. Proof. lia. Qed.
  Lemma quot_hi (a b c : N) : (a <= b + c)%N -> (Z.quot (Z.of_N a - Z.of_N b) 2 <= Z.of_N (c / 2))%Z. Proof. lia. Qed.
  Lemma quot_range (a b : N) : (a <= INF)%N -> (b <= INF)%N -> (-1073741824 <= Z.quot (Z.of_N a - Z.of_N b) 2 <= 1073741824)%Z. Proof. unfold INF. lia. Qed.
  Lemma half_range (o : option N) : (forall p, o = Some p -> (p <= INF)%N) -> (0 <= half o <= 1073741823)%Z.
  Proof. intros H. unfold half. assert (odef o INF <= INF)%N. { destruct o; cbn; auto. lia. } unfold INF in *. lia. Qed.
  Lemma half_zero (a : N) : (Z.quot (Z.of_N a - Z.of_N 0) 2 = Z.of_N (a / 2))%Z. Proof. lia. Qed.
  Lemma half_neg (a : N) : (Z.quot (Z.of_N 0 - Z.of_N a) 2 = - Z.of_N (a / 2))%Z. Proof. lia. Qed.
  Lemma half_sum (a b y : N) : (a <= y -> b <= y -> a / 2 + b / 2 <= y)%N. Proof. lia. Qed.
End Avg.

Lemma as_i32_small p : (p <= INF)%N -> as_i32 p = Z.of_N p.
Proof. intros H. unfold as_i32. destruct (N.ltb_spec p 2147483648); auto. unfold INF in *. lia. Qed.
Lemma as_i32_half o : (forall p, o = Some p -> (p <= INF)%N) -> as_i32 (odef o INF / 2) = half o.
Proof.
  intros H. pose proof (half_range o H) as R. unfold half in *. apply as_i32_small. unfold INF in *. lia.
Qed.
Lemma ci32_ok z : (-2147483648 <= z < 2147483648)%Z -> ci32 z = Some z.
Proof. intros [H1 H2]. unfold ci32. apply Z.leb_le in H1. apply Z.ltb_lt in H2. rewrite H1, H2. auto. Qed.

Section Average.
  Context {EF EB : Type}.
  Variable n : nat.
  Variable fwl bwl : nat -> option (list (nat * N)).
  Variable fi : EF -> nat -> option EF.
  Variable fg : EF -> nat -> option (EF * option N).
  Variable bi : EB -> nat -> option EB.
  Variable bg : EB -> nat -> option (EB * option N).
  Variable TF TB : nat -> Prop.
  Variable EIf : EF -> Prop. Variable ETf : nat -> EF -> Prop. Variable hf : nat -> nat -> option N.
  Variable EIb : EB -> Prop. Variable ETb : nat -> EB -> Prop. Variable hb : nat -> nat -> option N.
  Variable ip : bool.
  Hypothesis PO : pair_ok n fwl bwl fi fg bi bg TF TB EIf ETf hf EIb ETb hb iadd ip.
  Hypothesis CF : forall t, TF t -> t < n -> feasible_pot (garc fwl) t (hf t) /\ (forall v p, hf t v = Some p -> (p <= INF)%N).
  Hypothesis CB : forall s, TB s -> s < n -> feasible_pot (garc bwl) s (hb s) /\ (forall v p, hb s v = Some p -> (p <= INF)%N).

  (** On shortest walks from [s] to [t] the values are not clamped. *)
  Definition unclamped (arc : nat -> nat -> N -> Prop) (hf hb : nat -> option N) (s t : nat) : Prop :=
    forall v l1 l2, walk arc s v l1 -> walk arc v t l2 -> is_dist arc s t (l1 + l2) -> (l1 + l2 < INF)%N ->
      forall a b c d, hf v = Some a -> hb v = Some b -> hf s = Some c -> hb t = Some d -> (b <= a + d)%N /\ (a <= b + c)%N.
  Definition avg_T (s t : nat) : Prop := pair_T n TF TB s t /\ unclamped (garc fwl) (hf t) (hb s) s t.
  Definition avg_ET (s t : nat) (e : avg EF EB) : Prop :=
    ETf t (av_f e) /\ ETb s (av_b e) /\ av_fw_add e = half (hb s t) /\ av_bw_add e = half (hf t s) /\ av_mu_add e = amu (hf t) (hb s) s t.

  Lemma av_pot_ok s t (a : avg EF EB) v : pair_T n TF TB s t -> ETf t (av_f a) -> ETb s (av_b a) -> v < n ->
    exists a', av_pot fg bg a v = Some (a', avp (hf t) (hb s) v) /\ ETf t (av_f a') /\ ETb s (av_b a') /\
      av_fw_add a' = av_fw_add a /\ av_bw_add a' = av_bw_add a /\ av_mu_add a' = av_mu_add a.
  Proof using PO CF CB.
    intros (Hs & Ht & T1 & T2) H1 H2 Hv. pose proof PO as [W1 W2 FL PF PB PA]. destruct (CF t T1 Ht) as [_ B1]. destruct (CB s T2 Hs) as [_ B2].
    unfold av_pot, avp. destruct (pc_get _ _ _ _ _ _ _ PF _ t v H1 Hv) as (x & E & H). rewrite E. cbn [bind]. destruct (hf t v) as [p|] eqn:Ep.
    2: { eexists. split; [reflexivity|]. cbn. auto. }
    cbn [av_b av_set_f]. destruct (pc_get _ _ _ _ _ _ _ PB _ s v H2 Hv) as (y & E' & H'). rewrite E'. cbn [bind]. destruct (hb s v) as [q|] eqn:Eq.
    2: { eexists. split; [reflexivity|]. cbn. auto. }
    specialize (B1 v p Ep). specialize (B2 v q Eq). rewrite !as_i32_small by auto. rewrite ci32_ok by (unfold INF in *; lia). cbn [bind].
    eexists. split; [reflexivity|]. cbn. auto.
  Qed.

  Lemma avp_range s t v z : TF t -> t < n -> TB s -> s < n -> avp (hf t) (hb s) v = Some z -> (-1073741824 <= z <= 1073741824)%Z.
  Proof using CF CB.
    intros T1 Ht T2 Hs. destruct (CF t T1 Ht) as [_ B1]. destruct (CB s T2 Hs) as [_ B2]. unfold avp.
    destruct (hf t v) as [p|] eqn:Ep; [|discriminate]. destruct (hb s v) as [q|] eqn:Eq; [|discriminate]. intros [= <-]. apply quot_range; eauto.
  Qed.

  Lemma av_init_ok s t (a : avg EF EB) : pair_T n TF TB s t -> EIf (av_f a) -> EIb (av_b a) -> exists a', av_init fi fg bi bg a s t = Some a' /\ avg_ET s t a'.
  Proof using PO CF CB.
    intros PT H1 H2. pose proof PT as (Hs & Ht & T1 & T2). pose proof PO as [W1 W2 FL PF PB PA]. destruct (CF t T1 Ht) as [_ B1]. destruct (CB s T2 Hs) as [_ B2].
    unfold av_init. destruct (pc_init _ _ _ _ _ _ _ PF _ t H1 T1) as (f & -> & X1). cbn [bind]. destruct (pc_init _ _ _ _ _ _ _ PB _ s H2 T2) as (b & -> & X2). cbn [bind].
    destruct (pc_get _ _ _ _ _ _ _ PB b s t X2 Ht) as (b' & -> & X2'). cbn [bind]. destruct (pc_get _ _ _ _ _ _ _ PF f t s X1 Hs) as (f' & -> & X1'). cbn [bind].
    pose proof (half_range (hb s t) (B2 t)) as R2. pose proof (half_range (hf t s) (B1 s)) as R1. rewrite !as_i32_half by eauto.
    destruct (av_pot_ok s t (mkAvg f' b' (half (hb s t)) (half (hf t s)) (av_mu_add a)) s PT X1' X2' Hs) as (a' & -> & Y1 & Y2 & _). cbn [bind].
    unfold avg_ET, amu. destruct (avp (hf t) (hb s) s) as [z|] eqn:Ez.
    - pose proof (avp_range s t s z T1 Ht T2 Hs Ez) as RZ. rewrite ci32_ok by lia. cbn [bind]. eexists. split; [reflexivity|]. cbn. repeat split; auto.
      unfold as_u32. rewrite Z.mod_small; auto. split; [|lia].
      unfold avp in Ez. destruct (hf t s) as [p|] eqn:Ep; [|discriminate]. destruct (CB s T2 Hs) as [[B0 _] _]. rewrite B0 in Ez. injection Ez as <-. rewrite half_zero. lia.
    - cbn [bind]. eexists. split; [reflexivity|]. cbn. auto.
  Qed.

  Lemma av_fw_ok s t e v : pair_T n TF TB s t -> avg_ET s t e -> v < n -> exists e', av_fw fg bg e v = Some (e', apf (hf t) (hb s) s t v) /\ avg_ET s t e'.
  Proof using PO CF CB.
    intros PT (H1 & H2 & H3 & H4 & H5) Hv. pose proof PT as (Hs & Ht & T1 & T2). destruct (CB s T2 Hs) as [_ B2].
    destruct (av_pot_ok s t e v PT H1 H2 Hv) as (a' & E & Y1 & Y2 & Y3 & Y4 & Y5). unfold av_fw, apf. rewrite E. cbn [bind].
    assert (OK : avg_ET s t a') by (unfold avg_ET; rewrite Y3, Y4, Y5; auto).
    destruct (avp (hf t) (hb s) v) as [z|] eqn:Ez; [|eauto]. pose proof (avp_range s t v z T1 Ht T2 Hs Ez). pose proof (half_range (hb s t) (B2 t)).
    rewrite Y3, H3, ci32_ok by lia. cbn [bind]. eauto.
  Qed.
  Lemma av_bw_ok s t e v : pair_T n TF TB s t -> avg_ET s t e -> v < n -> exists e', av_bw fg bg e v = Some (e', apb (hf t) (hb s) s t v) /\ avg_ET s t e'.
  Proof using PO CF CB.
    intros PT (H1 & H2 & H3 & H4 & H5) Hv. pose proof PT as (Hs & Ht & T1 & T2). destruct (CF t T1 Ht) as [_ B1].
    destruct (av_pot_ok s t e v PT H1 H2 Hv) as (a' & E & Y1 & Y2 & Y3 & Y4 & Y5). unfold av_bw, apb. rewrite E. cbn [bind].
    assert (OK : avg_ET s t a') by (unfold avg_ET; rewrite Y3, Y4, Y5; auto).
    destruct (avp (hf t) (hb s) v) as [z|] eqn:Ez; [|eauto]. pose proof (avp_range s t v z T1 Ht T2 Hs Ez). pose proof (half_range (hf t s) (B1 s)).
    rewrite Y4, H4, ci32_ok by lia. cbn [bind]. eauto.
  Qed.
  Lemma av_fwr_ok s t e v : pair_T n TF TB s t -> avg_ET s t e -> v < n -> exists e', av_fw_raw fg e v = Some (e', hf t v) /\ avg_ET s t e'.
  Proof using PO.
    intros PT (H1 & H2 & H3) Hv. unfold av_fw_raw. destruct (pc_get _ _ _ _ _ _ _ (po_f _ _ _ _ _ _ _ _ _ _ _ _ _ _ _ _ _ PO) _ t v H1 Hv) as (x & E & H).
    rewrite E. cbn [bind]. eexists. split; [reflexivity|]. split; auto.
  Qed.
  Lemma av_bwr_ok s t e v : pair_T n TF TB s t -> avg_ET s t e -> v < n -> exists e', av_bw_raw bg e v = Some (e', hb s v) /\ avg_ET s t e'.
  Proof using PO.
    intros PT (H1 & H2 & H3) Hv. unfold av_bw_raw. destruct (pc_get _ _ _ _ _ _ _ (po_b _ _ _ _ _ _ _ _ _ _ _ _ _ _ _ _ _ PO) _ s v H2 Hv) as (x & E & H).
    rewrite E. cbn [bind]. eexists. split; [reflexivity|]. split; auto.
  Qed.

  (** consistency of the average *)
  Lemma avp_step s t u v l z z' : pair_T n TF TB s t -> walk (garc fwl) u v l -> avp (hf t) (hb s) u = Some z -> avp (hf t) (hb s) v = Some z' -> (z <= z' + Z.of_N l)%Z.
  Proof using PO CF CB.
    intros (Hs & Ht & T1 & T2) W. destruct (CF t T1 Ht) as [F1 _]. destruct (CB s T2 Hs) as [F2 _]. unfold avp.
    destruct (hf t u) as [a|] eqn:E1; [|discriminate]. destruct (hb s u) as [b|] eqn:E2; [|discriminate]. intros [= <-].
    destruct (hf t v) as [c|] eqn:E3; [|discriminate]. destruct (hb s v) as [d|] eqn:E4; [|discriminate]. intros [= <-].
    pose proof (feasible_step _ _ _ F1 u v l a c W E1 E3). 
    assert (WB : walk (garc bwl) v u l) by (apply (walk_fb n fwl bwl _ _ _ _ _ _ _ _ _ _ _ _ _ _ PO); exact W).
    pose proof (feasible_step _ _ _ F2 v u l d b WB E4 E2). apply quot_mono_step; lia.
  Qed.
  Lemma ap_small s t : pair_T n TF TB s t -> small_pot (apf (hf t) (hb s) s t) /\ small_pot (apb (hf t) (hb s) s t).
  Proof using CF CB.
    intros (Hs & Ht & T1 & T2). destruct (CF t T1 Ht) as [_ B1]. destruct (CB s T2 Hs) as [_ B2].
    split; intros v p; unfold apf, apb; destruct (avp (hf t) (hb s) v) as [z|] eqn:Ez; try discriminate; intros [= <-]; pose proof (avp_range s t v z T1 Ht T2 Hs Ez);
      [pose proof (half_range (hb s t) (B2 t))|pose proof (half_range (hf t s) (B1 s))]; unfold INF; lia.
  Qed.
  Lemma avp_def s t v l1 l2 : pair_T n TF TB s t -> walk (garc fwl) s v l1 -> walk (garc fwl) v t l2 -> (l1 + l2 < INF)%N ->
    exists a b, hf t v = Some a /\ hb s v = Some b /\ avp (hf t) (hb s) v = Some (Z.quot (Z.of_N a - Z.of_N b) 2).
  Proof using PO CF CB.
    intros (Hs & Ht & T1 & T2) A1 A2 HI. destruct (CF t T1 Ht) as [F1 _]. destruct (CB s T2 Hs) as [F2 _].
    destruct (feasible_lower_bound _ _ _ F1 v l2 A2 ltac:(lia)) as (a & Ea & _).
    assert (WB : walk (garc bwl) v s l1) by (apply (walk_fb n fwl bwl _ _ _ _ _ _ _ _ _ _ _ _ _ _ PO); exact A1).
    destruct (feasible_lower_bound _ _ _ F2 v l1 WB ltac:(lia)) as (b & Eb & _). exists a, b. unfold avp. rewrite Ea, Eb. auto.
  Qed.
  Lemma mu_facts s t l : pair_T n TF TB s t -> walk (garc fwl) s t l -> (l < INF)%N ->
    exists c d, hf t s = Some c /\ hb s t = Some d /\ (c <= l)%N /\ (d <= l)%N /\ amu (hf t) (hb s) s t = (c / 2 + d / 2)%N /\
      apf (hf t) (hb s) s t t = Some 0%N /\ apb (hf t) (hb s) s t s = Some 0%N.
  Proof using PO CF CB.
    intros (Hs & Ht & T1 & T2) W HI. destruct (CF t T1 Ht) as [F1 _]. destruct (CB s T2 Hs) as [F2 _].
    destruct (feasible_lower_bound _ _ _ F1 s l W HI) as (c & Ec & Hc).
    assert (WB : walk (garc bwl) t s l) by (apply (walk_fb n fwl bwl _ _ _ _ _ _ _ _ _ _ _ _ _ _ PO); exact W).
    destruct (feasible_lower_bound _ _ _ F2 t l WB HI) as (d & Ed & Hd). exists c, d. destruct F1 as [Z1 _]. destruct F2 as [Z2 _].
    unfold amu, apf, apb, avp, half. rewrite Ec, Ed, Z1, Z2, half_zero, half_neg. cbn [odef]. repeat split; auto.
    - rewrite <- N2Z.inj_add, N2Z.id. auto.
    - f_equal. lia.
    - f_equal. lia.
  Qed.

  Lemma avg_contract : bipot_contract n fwl bwl (avg_bipot fi fg bi bg iadd ip) min_key_dir avg_T (fun e => EIf (av_f e) /\ EIb (av_b e))
    avg_ET (fun s t => apf (hf t) (hb s) s t) (fun s t => apb (hf t) (hb s) s t).
  Proof using PO CF CB.
    pose proof PO as [W1 W2 FL PF PB PA].
    assert (WB : forall u v l, walk (garc fwl) u v l <-> walk (garc bwl) v u l) by (intros; apply (walk_fb n fwl bwl _ _ _ _ _ _ _ _ _ _ _ _ _ _ PO)).
    assert (FIN : forall s t v l1 l2, pair_T n TF TB s t -> walk (garc fwl) s v l1 -> walk (garc fwl) v t l2 -> (l1 + l2 < INF)%N -> apf (hf t) (hb s) s t v <> None /\ apb (hf t) (hb s) s t v <> None).
    { intros s t v l1 l2 PT A1 A2 HI. destruct (avp_def s t v l1 l2 PT A1 A2 HI) as (a & b & _ & _ & E). unfold apf, apb. rewrite E. split; discriminate. }
    split.
    - intros e s t [H1 H2] [PT _]. apply av_init_ok; auto.
    - intros e s t _ (H1 & H2 & _). split; [eapply (pc_keep _ _ _ _ _ _ _ PF)|eapply (pc_keep _ _ _ _ _ _ _ PB)]; eauto.
    - intros s t [PT _]. pose proof PT as (Hs & Ht & T1 & T2). destruct (ap_small s t PT) as [S1 S2]. destruct (CF t T1 Ht) as [F1 B1]. destruct (CB s T2 Hs) as [F2 B2]. split; auto.
      + intros e v He Hv. apply av_fw_ok; auto.
      + intros v l1 l2 A1 A2 HI. eapply FIN; eauto.
      + apply (prune_int_ok iadd ip (av_fw_raw fg) (av_bw fg bg) _ (garc fwl) n s t (hf t) (apb (hf t) (hb s) s t)); auto.
        * intros e v He Hv. apply av_fwr_ok; auto.
        * intros e v He Hv. apply av_bw_ok; auto.
        * intros v p Hp. specialize (B1 v p Hp). unfold INF in *. lia.
        * apply feasible_lower_bound; auto.
        * intros v l1 l2 A1 A2 HI. eapply FIN; eauto.
        * intros _ v y l q q' A. unfold apb. destruct (avp (hf t) (hb s) v) as [z|] eqn:E1; [|discriminate]. destruct (avp (hf t) (hb s) y) as [z'|] eqn:E2; [|discriminate].
          intros [= <-] [= <-]. pose proof (avp_step s t v y l z z' PT A E1 E2). lia.
    - intros s t [PT _]. pose proof PT as (Hs & Ht & T1 & T2). destruct (ap_small s t PT) as [S1 S2]. destruct (CF t T1 Ht) as [F1 B1]. destruct (CB s T2 Hs) as [F2 B2]. split; auto.
      + intros u v w. symmetry. apply FL.
      + intros e v He Hv. apply av_bw_ok; auto.
      + intros v l1 l2 A1 A2 HI. apply WB in A1. apply WB in A2. destruct (FIN s t v l2 l1 PT A2 A1 ltac:(lia)). auto.
      + apply (prune_int_ok iadd ip (av_bw_raw bg) (av_fw fg bg) _ (garc bwl) n t s (hb s) (apf (hf t) (hb s) s t)); auto.
        * intros e v He Hv. apply av_bwr_ok; auto.
        * intros e v He Hv. apply av_fw_ok; auto.
        * intros v p Hp. specialize (B2 v p Hp). unfold INF in *. lia.
        * apply feasible_lower_bound; auto.
        * intros v l1 l2 A1 A2 HI. apply WB in A1. apply WB in A2. destruct (FIN s t v l2 l1 PT A2 A1 ltac:(lia)). auto.
        * intros _ v y l q q' A. apply WB in A. unfold apf. destruct (avp (hf t) (hb s) v) as [z|] eqn:E1; [|discriminate]. destruct (avp (hf t) (hb s) y) as [z'|] eqn:E2; [|discriminate].
          intros [= <-] [= <-]. pose proof (avp_step s t y v l z' z PT A E2 E1). lia.
    - intros s t [PT UC]. pose proof PT as (Hs & Ht & T1 & T2). destruct (CF t T1 Ht) as [F1 B1]. destruct (CB s T2 Hs) as [F2 B2].
      assert (MU : (amu (hf t) (hb s) s t <= 2147483647)%N).
      { unfold amu. destruct (avp (hf t) (hb s) s) as [z|] eqn:Ez; [|lia]. pose proof (avp_range s t s z T1 Ht T2 Hs Ez). pose proof (half_range (hb s t) (B2 t)). lia. }
      assert (ST : forall e k1 k2 mu, avg_ET s t e -> (mu <= INF)%N -> av_stop iadd e (Some k1) (Some k2) mu = Some (mu + amu (hf t) (hb s) s t <=? k1 + k2)%N).
      { intros e k1 k2 mu (_ & _ & _ & _ & HM) Hmu. unfold av_stop, iadd. cbn [bind]. rewrite HM, cadd_ok by (unfold INF, U32 in *; lia). auto. }
      split; auto.
      + intros e kf kb mu He Hmu _ _. cbn [avg_bipot bp_stop]. destruct kf as [k1|]; [|exists true; split; auto; discriminate]. destruct kb as [k2|]; [|exists true; split; auto; discriminate].
        rewrite ST by auto. eexists; split; [reflexivity|]. intros Hb k1' k2' [= <-] [= <-] u v l1 l2 l3 p q A1 A2 A3 HI MN Hp Hq Hk1 Hk2. apply N.leb_le in Hb.
        pose proof (walk_app _ _ _ _ _ _ A1 A2) as A12. pose proof (walk_app _ _ _ _ _ _ A2 A3) as A23. pose proof (walk_app _ _ _ _ _ _ A12 A3) as A.
        destruct (mu_facts s t _ PT A HI) as (c & d & Ec & Ed & _ & _ & EM & _).
        destruct (avp_def s t u l1 (l2 + l3)%N PT A1 A23 ltac:(lia)) as (a1 & b1 & E1 & E2 & E3). destruct (avp_def s t v (l1 + l2)%N l3 PT A12 A3 ltac:(lia)) as (a2 & b2 & E4 & E5 & E6).
        pose proof (avp_step s t u v l2 _ _ PT A2 E3 E6) as STEP.
        destruct (UC u l1 (l2 + l3)%N A1 A23 ltac:(split; [rewrite N.add_assoc; exact A|intros l Hl; specialize (MN l Hl); lia]) ltac:(lia) a1 b1 c d E1 E2 Ec Ed) as [U1 _].
        destruct (UC v (l1 + l2)%N l3 A12 A3 ltac:(split; [exact A|intros l Hl; specialize (MN l Hl); lia]) ltac:(lia) a2 b2 c d E4 E5 Ec Ed) as [_ U2].
        apply quot_lo in U1. apply quot_hi in U2. unfold apf in Hp. unfold apb in Hq. rewrite E3 in Hp. rewrite E6 in Hq. unfold half in *. rewrite Ed in Hp. rewrite Ec in Hq. cbn [odef] in *.
        injection Hp as <-. injection Hq as <-. rewrite EM in Hb. lia.
      + intros e kf kb mu c c' dir He Hmu _ _ Hne _ Es Ec. cbn [avg_bipot bp_stop] in Es. cbn in Ec. injection Ec as <- <-.
        destruct kf as [k1|]; [|discriminate]. destruct kb as [k2|]; [|discriminate]. rewrite ST in Es by auto. injection Es as Es. apply N.leb_gt in Es.
        destruct (N.leb_spec k1 k2) as [Hk|Hk]; (split; [discriminate|]).
        * split; [|discriminate]. intros (k & y & p & [= <-] & Ep & Ek & Wy & HI & Hy). destruct (mu_facts s t y PT Wy HI) as (c0 & d & _ & _ & Hc & Hd & EM & E0 & _).
          pose proof (half_sum c0 d y Hc Hd). rewrite E0 in Ep. injection Ep as <-. lia.
        * split; auto. intros (k & y & p & [= <-] & Ep & Ek & Wy & HI & Hy). destruct (mu_facts s t y PT Wy HI) as (c0 & d & _ & _ & Hc & Hd & EM & _ & E0).
          pose proof (half_sum c0 d y Hc Hd). rewrite E0 in Ep. injection Ep as <-. lia.
      + discriminate.
  Qed.
End Average.

(** exact distances are never clamped on shortest walks *)
Lemma exact_unclamped arc s t (hf hb : nat -> option N) :
  (forall v, exact_answer arc v t (hf v)) -> (forall v, exact_answer arc s v (hb v)) -> unclamped arc hf hb s t.
Proof.
  intros HF HB v l1 l2 W1 W2 [W HM] HI a b c d Ea Eb Ec Ed.
  pose proof (HF v) as Xa. rewrite Ea in Xa. destruct Xa as (_ & _ & Ma). pose proof (HB v) as Xb. rewrite Eb in Xb. destruct Xb as (_ & Wb & Mb).
  pose proof (HF s) as Xc. rewrite Ec in Xc. destruct Xc as (_ & Wc & Mc). pose proof (HB t) as Xd. rewrite Ed in Xd. destruct Xd as (_ & Wd & Md).
  specialize (Ma l2 W2). specialize (Mb l1 W1). pose proof (HM _ Wc). pose proof (HM _ Wd). lia.
Qed.

Section AvgSteps.
  Context {EF EB : Type}.
  Variable n : nat.
  Variable fwl bwl : nat -> option (list (nat * N)).
  Variable fi : EF -> nat -> option EF.
  Variable fg : EF -> nat -> option (EF * option N).
  Variable bi : EB -> nat -> option EB.
  Variable bg : EB -> nat -> option (EB * option N).
  Variable TF TB : nat -> Prop.
  Variable EIf : EF -> Prop. Variable ETf : nat -> EF -> Prop. Variable hf : nat -> nat -> option N.
  Variable EIb : EB -> Prop. Variable ETb : nat -> EB -> Prop. Variable hb : nat -> nat -> option N.
  Hypothesis PO : pair_ok n fwl bwl fi fg bi bg TF TB EIf ETf hf EIb ETb hb iadd false.
  Hypothesis CF : forall t, TF t -> t < n -> feasible_pot (garc fwl) t (hf t) /\ (forall v p, hf t v = Some p -> (p <= INF)%N).
  Hypothesis CB : forall s, TB s -> s < n -> feasible_pot (garc bwl) s (hb s) /\ (forall v p, hb s v = Some p -> (p <= INF)%N).

  Lemma avg_consistent (a : avg EF EB) s t u v w : EIf (av_f a) -> EIb (av_b a) -> pair_T n TF TB s t -> u < n -> garc fwl u v w ->
    exists a1, av_init fi fg bi bg a s t = Some a1 /\
      exists a2 a3 a4 a5 fu fv bu bv, av_fw fg bg a1 u = Some (a2, fu) /\ av_fw fg bg a1 v = Some (a3, fv) /\ av_bw fg bg a1 u = Some (a4, bu) /\ av_bw fg bg a1 v = Some (a5, bv) /\
        (forall x y, fu = Some x -> fv = Some y -> (x <= w + y)%N) /\ (forall x y, bu = Some x -> bv = Some y -> (y <= w + x)%N).
  Proof using PO CF CB.
    intros H1 H2 PT Hu Ha. destruct (av_init_ok n fwl bwl fi fg bi bg TF TB EIf ETf hf EIb ETb hb false PO CF CB s t a PT H1 H2) as (a1 & E1 & T1). exists a1. split; auto.
    assert (Hv : v < n). { destruct PO as [W1 _ _ _ _ _]. destruct Ha as (ls & El & Hi). destruct (W1 u Hu) as (ls' & El' & Hl). rewrite El in El'. injection El' as <-. apply (Hl _ _ Hi). }
    destruct (av_fw_ok n fwl bwl fi fg bi bg TF TB EIf ETf hf EIb ETb hb false PO CF CB s t a1 u PT T1 Hu) as (a2 & E2 & _).
    destruct (av_fw_ok n fwl bwl fi fg bi bg TF TB EIf ETf hf EIb ETb hb false PO CF CB s t a1 v PT T1 Hv) as (a3 & E3 & _).
    destruct (av_bw_ok n fwl bwl fi fg bi bg TF TB EIf ETf hf EIb ETb hb false PO CF CB s t a1 u PT T1 Hu) as (a4 & E4 & _).
    destruct (av_bw_ok n fwl bwl fi fg bi bg TF TB EIf ETf hf EIb ETb hb false PO CF CB s t a1 v PT T1 Hv) as (a5 & E5 & _).
    exists a2, a3, a4, a5. do 4 eexists. do 4 (split; [eassumption|]).
    pose proof (avp_step n fwl bwl fi fg bi bg TF TB EIf ETf hf EIb ETb hb false PO CF CB s t u v w) as ST.
    specialize (ST) with (1 := PT) (2 := walk_arc _ _ _ _ Ha). unfold apf, apb.
    destruct (avp (hf t) (hb s) u) as [z|]; [|split; discriminate]. destruct (avp (hf t) (hb s) v) as [z'|]; [|split; discriminate].
    specialize (ST z z' eq_refl eq_refl). clear PO CF CB. split; intros x y [= <-] [= <-]; lia.
  Qed.
End AvgSteps.
