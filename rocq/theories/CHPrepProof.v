(** Contraction with witness search: what holds whenever it returns. *)
From Coq Require Import Permutation.
From Verif Require Import Base SpecGraph SpecCCH SpecCH IndexHeap TsVec TsVecProof Graph Dijkstra LoopProof DijServer Bidir IndexHeapProof SpecPQ DijkstraRef CCHContractProof CHPrep.

Lemma foldM_pres {S A} (f : S -> A -> option S) (I : list A -> S -> Prop) l : forall pre s s',
  (forall p a q s s', l = p ++ a :: q -> I (pre ++ p) s -> f s a = Some s' -> I (pre ++ p ++ [a]) s') -> I pre s -> foldM f l s = Some s' -> I (pre ++ l) s'.
Proof.
  induction l as [|a l IH]; intros pre s s' Hf HI E; cbn [foldM] in E. { injection E as <-. rewrite app_nil_r. auto. }
  destruct (f s a) as [s1|] eqn:E1; [|discriminate]. cbn [bind] in E.
  assert (H1 : I (pre ++ [a]) s1). { apply (Hf [] a l s s1); auto. rewrite app_nil_r. auto. }
  replace (pre ++ a :: l) with ((pre ++ [a]) ++ l) by (rewrite <- app_assoc; auto). apply (IH (pre ++ [a]) s1 s'); auto.
  intros p b q s2 s3 -> H2 E2. rewrite <- app_assoc in *. apply (Hf (a :: p) b q s2 s3); auto.
Qed.
Lemma foldM_pres0 {S A} (f : S -> A -> option S) (I : list A -> S -> Prop) l s s' :
  (forall p a q s s', l = p ++ a :: q -> I p s -> f s a = Some s' -> I (p ++ [a]) s') -> I [] s -> foldM f l s = Some s' -> I l s'.
Proof. intros Hf H0 E. apply (foldM_pres f I l [] s s'); auto. Qed.
Lemma loop_pos_pres {S R} (step : S -> option (S + R)) (I : S -> Prop) (Q : R -> Prop) p : forall s r,
  (forall s s', I s -> step s = Some (inl s') -> I s') -> (forall s r, I s -> step s = Some (inr r) -> Q r) -> I s -> loop_pos p step s = Some r ->
  match r with inl s' => I s' | inr r' => Q r' end.
Proof.
  induction p as [p IH|p IH|]; intros s r H1 H2 HI E; cbn [loop_pos] in E.
  - destruct (step s) as [[s1|r1]|] eqn:E1; cbn [bind] in E; [|injection E as <-; eauto|discriminate].
    destruct (loop_pos p step s1) as [[s2|r2]|] eqn:E2; cbn [bind] in E; [|injection E as <-|discriminate].
    + pose proof (IH s1 (inl s2) H1 H2 (H1 _ _ HI E1) E2) as I2. apply (IH s2 r H1 H2 I2 E).
    + apply (IH s1 (inr r2) H1 H2 (H1 _ _ HI E1) E2).
  - destruct (loop_pos p step s) as [[s2|r2]|] eqn:E2; cbn [bind] in E; [|injection E as <-|discriminate].
    + pose proof (IH s (inl s2) H1 H2 HI E2) as I2. apply (IH s2 r H1 H2 I2 E).
    + apply (IH s (inr r2) H1 H2 HI E2).
  - destruct r; eauto.
Qed.
Lemma loopN_pres {S R} (step : S -> option (S + R)) (I : S -> Prop) (Q : R -> Prop) fuel s r :
  (forall s s', I s -> step s = Some (inl s') -> I s') -> (forall s r, I s -> step s = Some (inr r) -> Q r) -> I s -> loopN fuel step s = Some r -> Q r.
Proof.
  intros H1 H2 HI E. destruct fuel as [|p]; [discriminate|]. cbn [loopN] in E. destruct (loop_pos p step s) as [[s'|r']|] eqn:E1; cbn [bind] in E; [discriminate| |discriminate].
  injection E as <-. apply (loop_pos_pres step I Q p s (inr r') H1 H2 HI E1).
Qed.

Lemma walk_le (a1 a2 : nat -> nat -> N -> Prop) u v l : (forall u v w, a1 u v w -> exists w', a2 u v w' /\ (w' <= w)%N) ->
  walk a1 u v l -> exists l', walk a2 u v l' /\ (l' <= l)%N.
Proof.
  intros H. induction 1 as [u|u v t w l Ha W (l' & IH & L)]. { exists 0%N. split; [constructor|lia]. }
  destruct (H _ _ _ Ha) as (w' & Ha' & L'). exists (w' + l')%N. split; [econstructor; eauto|lia].
Qed.

(** * The witness search only reports lengths of walks *)
Section Sound.
  Variable n : nat.
  Record Lab (links : nat -> option (list (nat * N))) (s : nat) (d : dij unit) (D : nat -> N) : Prop := {
    lb_t : TInv N INF n (d_dist d) D;
    lb_d : forall v, (D v <= INF)%N /\ ((D v < INF)%N -> walk (garc links) s v (D v));
    lb_p : length (d_pred d) = n;
    lb_h : Inv state st_idx st_ltb n (d_queue d);
    lb_q : forall v y, abs state (d_queue d) v = Some y -> y = (D v, v) /\ (D v < INF)%N }.

  Lemma Lab_get links s d D v x : Lab links s d D -> ts_get N INF (d_dist d) v = Some x -> x = D v /\ v < n.
  Proof. intros [T H _ _ _] E. rewrite (ts_get_spec N INF n _ _ v T) in E. destruct (Nat.ltb_spec v n); [|discriminate]. injection E as <-. auto. Qed.
  Lemma Lab_ready links s d D : Lab links s d D -> Ready n d.
  Proof. intros [T _ P H _]. split; eauto. Qed.

  Lemma init_lab links d s d' : Ready n d -> s < n -> dij_init d s 0 = Some d' -> exists D, Lab links s d' D.
  Proof.
    intros HR Hs E. destruct (init_refines n d s 0 HR Hs) as (d2 & pr & E2 & [R1 R2 R3 R4 R5]). rewrite E in E2. injection E2 as <-. exists (aD (initA s 0 pr)). split; auto.
    - intros v. cbn. unfold fupd. destruct (Nat.eqb_spec v s) as [->|]; [|lia]. split; [unfold INF; lia|]. intros _. constructor.
    - intros v y Ey. rewrite R5 in Ey. cbn in Ey |- *. unfold fupd in *. destruct (Nat.eqb_spec v s) as [->|]; [|discriminate]. cbn in Ey. injection Ey as <-. split; auto. unfold INF; lia.
  Qed.

  Section Settle.
    Context {E : Type}.
    Variable links : nat -> option (list (nat * N)).
    Variable s : nat.
    Variable cb : E -> nat -> N -> option (E * bool).
    Variable pot : E -> nat -> option (E * option N).
    Variable J : E -> Prop.
    Hypothesis Hcb : forall e v x e' b, J e -> (x < INF)%N -> walk (garc links) s v x -> cb e v x = Some (e', b) -> J e' /\ b = true.
    Hypothesis Hpot : forall e v e' p, J e -> pot e v = Some (e', p) -> J e' /\ p = Some 0%N.

    Lemma relax_sound u ls : links u = Some ls -> forall h w d e d' e' D, In (h, w) ls -> Lab links s d D -> J e ->
      relax fst def_lk def_pl all_edges cb pot u (d, e) (h, w) = Some (d', e') -> (D u < INF)%N -> exists D', Lab links s d' D' /\ J e' /\ (D' u <= D u)%N.
    Proof using Hcb Hpot.
      intros El h w d2 e2 d3 e3 D Hin [T H HP HH HQ] HJ2 Er HuI. unfold relax in Er. cbn [all_edges negb fst] in Er.
      assert (Ha : garc links u h w) by (exists ls; auto).
      pose proof (ts_get_spec N INF n _ _ u T) as Gu. destruct (u <? n) eqn:Hu; rewrite Gu in Er; cbn [bind] in Er; [|discriminate].
      unfold def_lk in Er. cbn [snd] in Er. destruct (cadd (D u) w) as [x|] eqn:Ex; cbn [bind] in Er; [|discriminate]. apply cadd_some in Ex. destruct Ex as [-> _].
      pose proof (ts_get_spec N INF n _ _ h T) as Gh. destruct (h <? n) eqn:Hh; rewrite Gh in Er; cbn [bind] in Er; [|discriminate].
      apply Nat.ltb_lt in Hh. destruct (ts_modify_spec N INF n _ _ h (fun l => if (D u + w <? l)%N then (D u + w)%N else l) T Hh) as (t2 & E2 & T2). rewrite E2 in Er. cbn [bind] in Er.
      destruct (H u) as [Lu Wu]. destruct (H h) as [Lh Wh].
      assert (Hwk : (D u + w < D h)%N -> walk (garc links) s h (D u + w)). { intros L. eapply walk_snoc; [|exact Ha]. apply Wu. lia. }
      set (D' := fun j => if j =? h then if (D u + w <? D h)%N then (D u + w)%N else D h else D j) in *.
      assert (DU : (D' u <= D u)%N). { unfold D'. destruct (Nat.eqb_spec u h) as [->|]; [|lia]. destruct (D h + w <? D h)%N eqn:X; lia. }
      assert (HD' : forall v, (D' v <= INF)%N /\ ((D' v < INF)%N -> walk (garc links) s v (D' v))).
      { intros v. unfold D'. destruct (Nat.eqb_spec v h) as [->|]; auto. destruct (D u + w <? D h)%N eqn:X; auto. apply N.ltb_lt in X. split; [lia|auto]. }
      destruct (D u + w <? D h)%N eqn:Lt.
      - apply N.ltb_lt in Lt. specialize (Hwk Lt).
        destruct (Nat.lt_ge_cases h (length (d_pred d2))) as [Hp|Hp]; [|lia]. rewrite set_at_lt in Er by auto. cbn [bind] in Er.
        rewrite (ts_get_spec N INF n _ _ h T2) in Er. rewrite (proj2 (Nat.ltb_lt h n) Hh) in Er. cbn [bind] in Er.
        assert (Eh : D' h = (D u + w)%N). { unfold D'. rewrite Nat.eqb_refl. auto. } rewrite Eh in Er.
        destruct (cb e2 h (D u + w)%N) as [[e4 b]|] eqn:Ec; cbn [bind] in Er; [|discriminate]. destruct (Hcb e2 h (D u + w)%N e4 b HJ2 ltac:(lia) Hwk Ec) as [J4 ->].
        destruct (pot e4 h) as [[e5 p5]|] eqn:Ep; cbn [bind] in Er; [|discriminate]. destruct (Hpot e4 h e5 p5 J4 Ep) as [J5 ->].
        destruct (cadd 0 _) as [k5|] eqn:Ek; cbn [bind] in Er; [|discriminate]. apply cadd_some in Ek. destruct Ek as [-> _]. rewrite N.add_0_l in Er.
        rewrite (hcontains_abs state st_idx st_ltb n) in Er by auto. cbn [bind] in Er.
        assert (X : exists q, (if match abs state (d_queue d2) h with Some _ => true | None => false end then hdecrease state st_idx st_ltb (d_queue d2) ((D u + w)%N, h) else hpush state st_idx st_ltb (d_queue d2) ((D u + w)%N, h)) = Some q /\
          Inv state st_idx st_ltb n q /\ forall i, abs state q i = put state st_idx (abs state (d_queue d2)) ((D u + w)%N, h) i).
        { destruct (abs state (d_queue d2) h) as [y|] eqn:Ey.
          - destruct (HQ h y Ey) as [-> Lq]. apply (hdecrease_spec state st_idx st_ltb st_order n (d_queue d2) ((D u + w)%N, h) (D h, h)); auto. unfold st_ltb; cbn [fst snd]. rewrite Nat.ltb_irrefl, andb_false_r, orb_false_r. lia.
          - apply (hpush_spec state st_idx st_ltb st_order n (d_queue d2) ((D u + w)%N, h)); auto. }
        destruct X as (q & Eq & Iq & Aq). rewrite Eq in Er. cbn [bind] in Er. injection Er as <- <-. exists D'. split; auto. split; cbn [d_dist d_pred d_queue]; auto.
        + rewrite upd_length; auto.
        + intros v y Ey. rewrite Aq in Ey. unfold put, st_idx in Ey. cbn [snd] in Ey. unfold D'. destruct (Nat.eqb_spec v h) as [->|Ne]; [|apply HQ; auto]. injection Ey as <-. split; auto. lia.
      - injection Er as <- <-. exists D'. split; auto. split; cbn [d_dist d_pred d_queue]; auto. intros v y Ey. destruct (HQ v y Ey) as [Y1 Y2]. unfold D'. destruct (Nat.eqb_spec v h) as [->|]; auto.
    Qed.

    Lemma settle_sound d e d' e' o D : Lab links s d D -> J e -> settle links fst def_lk def_pl all_edges cb pot d e = Some (d', e', o) ->
      exists D', Lab links s d' D' /\ J e' /\ forall u, o = Some u -> (D' u < INF)%N.
    Proof using Hcb Hpot.
      intros HL HJ Es. unfold settle in Es. destruct HL as [T H HP HH HQ].
      destruct (hpop_spec state st_idx st_ltb st_order n (d_queue d) HH) as [[Ep _]|(q & (k & u) & Ep & Iq & (Hm & _) & Aq)]; rewrite Ep in Es; cbn [bind] in Es.
      - injection Es as <- <- <-. exists D. split; [split; auto|]. split; auto. discriminate.
      - destruct (links u) as [ls|] eqn:El; cbn [bind] in Es; [|discriminate].
        destruct (foldM _ ls _) as [[d1 e1]|] eqn:Ef; cbn [bind] in Es; [|discriminate]. injection Es as <- <- <-.
        unfold st_idx in Hm. cbn [snd] in Hm. destruct (HQ u _ Hm) as [_ HuI].
        apply (foldM_pres0 _ (fun _ '(d, e) => exists D, Lab links s d D /\ J e /\ (D u < INF)%N)) in Ef.
        + destruct Ef as (D' & F1 & F2 & F3). exists D'. split; auto. split; auto. intros u' [= <-]. auto.
        + intros p (h & w) post (d2 & e2) (d3 & e3) EQ (D2 & L2 & J2 & I2) Er.
          destruct (relax_sound u ls El h w d2 e2 d3 e3 D2) as (D3 & L3 & J3 & I3); auto. { rewrite EQ. apply in_or_app; right; left; auto. } exists D3. split; auto. split; auto. lia.
        + exists D. split; auto. split; cbn [d_dist d_pred d_queue]; auto. intros v y Ey. rewrite Aq in Ey. unfold del in Ey. destruct (v =? _); [discriminate|]. auto.
    Qed.
  End Settle.

  Variables fwl bwl : nat -> option (list (nat * N)).
  Variables s t : nat.
  Notation mt := (meets (garc fwl) (garc bwl) s t).
  Definition JT (e : unit * N * nat) : Prop := let '(_, tent, _) := e in (tent <= INF)%N /\ ((tent < INF)%N -> mt tent).

  Lemma cb_sound (own oth : nat -> option (list (nat * N))) so s0 maxd other Do : (forall v a b, walk (garc own) s0 v a -> walk (garc oth) so v b -> mt (a + b)) -> Lab oth so other Do ->
    forall e v x e' b, JT e -> (x < INF)%N -> walk (garc own) s0 v x -> bd_cb (fun e _ _ _ _ => Some (e, false)) other maxd e v x = Some (e', b) -> JT e' /\ b = true.
  Proof.
    intros HM HL ((e0 & tent) & m) v x e' b (J1 & J2) Hx W E. unfold bd_cb in E. cbn [bind] in E.
    destruct (ts_get N INF (d_dist other) v) as [od|] eqn:Eo; cbn [bind] in E; [|discriminate]. destruct (Lab_get _ _ _ _ _ _ HL Eo) as [-> _].
    destruct (lb_d _ _ _ _ HL v) as [O1 O2].
    destruct (cadd x (Do v)) as [y|] eqn:Ey; cbn [bind] in E; [|discriminate]. apply cadd_some in Ey. destruct Ey as [-> _].
    destruct (x + Do v <? tent)%N eqn:Lt; injection E as <- <-; [|split; [split; auto|auto]]. apply N.ltb_lt in Lt. split; auto. split; [lia|]. intros _. apply (HM v); auto. apply O2. lia.
  Qed.
  Lemma pot_sound (e : unit * N * nat) v e' p : JT e -> bd_pot (fun e _ => Some (e, Some 0%N)) e v = Some (e', p) -> JT e' /\ p = Some 0%N.
  Proof. destruct e as ((e0 & tent) & m). unfold bd_pot. cbn [bind]. intros HJ [= <- <-]. auto. Qed.

  Hypothesis Hs : s < n.
  Hypothesis Ht : t < n.
  Lemma witness_sound sv maxd sv' r : Ready n (bs_fw sv) -> Ready n (bs_bw sv) -> bd_distance_cap n fwl bwl zero_bipot min_key_dir sv s t maxd = Some (sv', r) ->
    Ready n (bs_fw sv') /\ Ready n (bs_bw sv') /\ forall l, r = Some l -> mt l.
  Proof using Hs Ht.
    intros T1 T2 E. unfold bd_distance_cap in E. destruct (dij_init (bs_fw sv) s 0) as [df|] eqn:E1; cbn [bind] in E; [|discriminate].
    destruct (dij_init (bs_bw sv) t 0) as [db|] eqn:E2; cbn [bind] in E; [|discriminate]. cbn [zero_bipot bp_init bind] in E.
    destruct (loopN _ _ _) as [[[[df' db'] [[e' tent'] m']] r']|] eqn:EL; cbn [bind] in E; [|discriminate]. injection E as <- <-. cbn [bs_fw bs_bw].
    destruct (init_lab fwl _ _ _ T1 Hs E1) as (Df & L1). destruct (init_lab bwl _ _ _ T2 Ht E2) as (Db & L2).
    set (I := fun '((df, db, e, c) : bstate (E := unit) (C := unit)) => (exists D, Lab fwl s df D) /\ (exists D, Lab bwl t db D) /\ JT e).
    set (Q := fun '((df, db, e, r) : dij unit * dij unit * (unit * N * nat) * option N) => Ready n df /\ Ready n db /\ forall l, r = Some l -> mt l).
    assert (FW : forall maxd db1 Db1 df1 Df1 e d2 e2 o, Lab fwl s df1 Df1 -> Lab bwl t db1 Db1 -> JT e -> bd_settle fwl (fun e _ _ _ _ => Some (e, false)) (fun e _ => Some (e, Some 0%N)) db1 maxd df1 e = Some (d2, e2, o) ->
      exists D', Lab fwl s d2 D' /\ JT e2 /\ forall u, o = Some u -> (D' u < INF)%N).
    { intros mx db1 Db1 df1 Df1 e d2 e2 o A1 A2 A3 Ed. refine (settle_sound fwl s _ _ JT (cb_sound fwl bwl t s mx db1 Db1 _ A2) pot_sound df1 _ _ _ _ _ A1 A3 Ed). intros v a b Wa Wb. exists v, a, b. auto. }
    assert (BW : forall maxd db1 Db1 df1 Df1 e d2 e2 o, Lab fwl s df1 Df1 -> Lab bwl t db1 Db1 -> JT e -> bd_settle bwl (fun e _ _ _ _ => Some (e, false)) (fun e _ => Some (e, Some 0%N)) df1 maxd db1 e = Some (d2, e2, o) ->
      exists D', Lab bwl t d2 D' /\ JT e2 /\ forall u, o = Some u -> (D' u < INF)%N).
    { intros mx db1 Db1 df1 Df1 e d2 e2 o A1 A2 A3 Ed. refine (settle_sound bwl t _ _ JT (cb_sound bwl fwl s t mx df1 Df1 _ A1) pot_sound db1 _ _ _ _ _ A2 A3 Ed). intros v a b Wa Wb. exists v, b, a. split; auto. split; auto. lia. }
    apply (loopN_pres _ I Q) in EL; [exact EL| | |].
    - intros (((df1 & db1) & ((e1 & tent1) & m1)) & c1) x ((Df1 & A1) & (Db1 & A2) & A3) Es. unfold bd_step in Es. cbn [min_key_dir ch_may_stop ch_choose zero_bipot bp_stop bp_fw bp_bw bp_prune_fw bp_prune_bw] in Es.
      match type of Es with context [bind ?z _] => destruct z as [stop|]; cbn [bind] in Es; [|discriminate] end. destruct stop; [discriminate|].
      match type of Es with context [if ?z then _ else _] => destruct z end.
      + destruct (bd_settle fwl _ _ db1 maxd df1 (e1, tent1, m1)) as [[[d2 ((e2, tent2), m2)] o]|] eqn:Ed; cbn [bind] in Es; [|discriminate].
        destruct (FW _ _ _ _ _ _ _ _ _ A1 A2 A3 Ed) as (D' & B1 & B2 & _).
        destruct o as [u|]; [destruct (u =? t)|]; try (injection Es as <-; split; [eauto|split; eauto]). destruct (ts_get _ _ _ _) as [y|] eqn:Ey; discriminate.
      + destruct (bd_settle bwl _ _ df1 maxd db1 (e1, tent1, m1)) as [[[d2 ((e2, tent2), m2)] o]|] eqn:Ed; cbn [bind] in Es; [|discriminate].
        destruct (BW _ _ _ _ _ _ _ _ _ A1 A2 A3 Ed) as (D' & B1 & B2 & _).
        destruct o as [u|]; [destruct (u =? s)|]; try (injection Es as <-; split; [eauto|split; eauto]). destruct (ts_get _ _ _ _) as [y|] eqn:Ey; discriminate.
    - intros (((df1 & db1) & ((e1 & tent1) & m1)) & c1) r ((Df1 & A1) & (Db1 & A2) & A3) Es. unfold bd_step in Es. cbn [min_key_dir ch_may_stop ch_choose zero_bipot bp_stop bp_fw bp_bw bp_prune_fw bp_prune_bw] in Es.
      pose proof (Lab_ready _ _ _ _ A1) as RA. pose proof (Lab_ready _ _ _ _ A2) as RB.
      match type of Es with context [bind ?z _] => destruct z as [stop|]; cbn [bind] in Es; [|discriminate] end. destruct stop.
      { injection Es as <-. split; auto. split; auto. intros l. destruct (N.eqb_spec tent1 INF); [discriminate|]. intros [= <-]. apply A3. destruct A3. lia. }
      match type of Es with context [if ?z then _ else _] => destruct z end.
      + destruct (bd_settle fwl _ _ db1 maxd df1 (e1, tent1, m1)) as [[[d2 ((e2, tent2), m2)] o]|] eqn:Ed; cbn [bind] in Es; [|discriminate].
        destruct (FW _ _ _ _ _ _ _ _ _ A1 A2 A3 Ed) as (D' & B1 & B2 & B3).
        destruct o as [u|]; [destruct (Nat.eqb_spec u t) as [->|]|]; try discriminate. destruct (ts_get _ _ _ _) as [y|] eqn:Ey; cbn [bind] in Es; [|discriminate]. injection Es as <-. split; [eapply Lab_ready; eauto|]. split; auto.
        intros l [= <-]. destruct (Lab_get _ _ _ _ _ _ B1 Ey) as [-> _]. exists t, (D' t), 0%N. split; [apply (lb_d _ _ _ _ B1); auto|]. split; [constructor|lia].
      + destruct (bd_settle bwl _ _ df1 maxd db1 (e1, tent1, m1)) as [[[d2 ((e2, tent2), m2)] o]|] eqn:Ed; cbn [bind] in Es; [|discriminate].
        destruct (BW _ _ _ _ _ _ _ _ _ A1 A2 A3 Ed) as (D' & B1 & B2 & B3).
        destruct o as [u|]; [destruct (Nat.eqb_spec u s) as [->|]|]; try discriminate. destruct (ts_get _ _ _ _) as [y|] eqn:Ey; cbn [bind] in Es; [|discriminate]. injection Es as <-. split; auto. split; [eapply Lab_ready; eauto|].
        intros l [= <-]. destruct (Lab_get _ _ _ _ _ _ B1 Ey) as [-> _]. exists s, 0%N, (D' s). split; [constructor|]. split; [apply (lb_d _ _ _ _ B1); auto|lia].
    - split; [eauto|]. split; [eauto|]. split; [lia|lia].
  Qed.
End Sound.
