(** Proofs about the contraction hierarchy query. *)
From Verif Require Import Base SpecGraph SpecCCH SpecCH IndexHeap TsVec TsVecProof Graph Dijkstra LoopProof DijkstraRef DijkstraProof DijServer DijServerProof DijOrderProof AltProof RphastProof CH.

Section Side.
  Variable n : nat.
  Variable links : nat -> option (list (nat * N)).
  Hypothesis WF : wf_links n links.
  Variable s : nat.
  Hypothesis Hs : s < n.
  Notation arc := (garc links).
  Notation OI := (OInv n fst def_pl (snb links) sslk s tt).
  Notation jz := (Jz_ok n links fst def_lk (snb links) sslk (snb_links n links WF) (snb_hd n links WF) (snb_lk n links WF) (sslk_mono n links) (sslk_ext n links) s Hs tt).

  Lemma side_get d ord st : OI d ord st -> forall v, v < n ->
    exists x, ts_get N INF (d_dist d) v = Some x /\ (x <= INF)%N /\ ((x < INF)%N -> walk arc s v x) /\ forall y, In (v, y) ord -> x = y.
  Proof using WF Hs.
    intros HO v Hv. destruct HO as [HR HG HJ (K & [Z1 Z2] & HK) Hnd Hset Hlab Hsort]. exists (aD st v).
    rewrite (ts_get_spec N INF n _ _ v (r_dist n d st HR)), (proj2 (Nat.ltb_lt v n) Hv). split; auto.
    pose proof (proj2 HJ) as HA. split. { rewrite <- HA. apply (g_le _ _ _ _ _ _ _ _ _ _ _ _ HG). }
    assert (W : forall v, (aD st v < INF)%N -> walk arc s v (aD st v)).
    { intros u Hu. apply (g_reach _ _ _ _ _ _ _ _ _ _ _ _ HG) in Hu. apply (reach_walk n links _ _ _ _) in Hu. destruct Hu as (l & Hl & ->). auto. }
    split. { apply W. }
    intros y Hin. destruct (Hlab v y Hin) as [(Y1 & Y2 & Y3) _]. assert (Sv : settled st v). { apply Hset. apply in_map_iff. exists (v, y). auto. }
    pose proof Sv as [S1 S2].
    assert (B : (y <= aD st v)%N). { apply Y3. apply (g_reach _ _ _ _ _ _ _ _ _ _ _ _ HG). auto. }
    destruct (frontier (pl:=def_pl) jz Hs ltac:(reflexivity) st v y HG HA Y1 Y2) as [F|(z & dz & Hq & HD & R1 & R2)].
    - intros; left; discriminate.
    - lia.
    - destruct (aQ st z) as [k|] eqn:Ek; [|congruence]. pose proof (Z1 z k Ek) as L1.
      destruct (key0 (pl:=def_pl) jz Hs ltac:(reflexivity) (Jz_A tt) ltac:(reflexivity) st z k HG HA Ek) as [-> _].
      pose proof (Z2 v Sv) as L2. apply (reach_walk n links _ _ _ _) in R2. destruct R2 as (l & _ & ->). lia.
  Qed.
  Lemma side_root d ord st : OI d ord st -> ts_get N INF (d_dist d) s = Some 0%N.
  Proof using WF Hs.
    intros HO. destruct HO as [HR HG HJ _ _ _ _ _]. rewrite (ts_get_spec N INF n _ _ s (r_dist n d st HR)), (proj2 (Nat.ltb_lt s n) Hs).
    pose proof (proj2 HJ) as HA. f_equal. rewrite <- HA. apply (g_s _ _ _ _ _ _ _ _ _ _ _ _ HG).
  Qed.
  Lemma side_ord d ord st v x : OI d ord st -> In (v, x) ord -> v < n /\ (x < INF)%N /\ is_dist arc s v x.
  Proof using WF Hs. intros HO Hin. destruct (o_lab _ _ _ _ _ _ _ _ _ _ HO v x Hin) as [E Hv]. split; auto. apply (earliest_some n links WF s Hs v x); auto. Qed.
  Lemma side_ready d ord st : OI d ord st -> Ready n d.
  Proof using. intros HO. eapply R_Ready. apply HO. Qed.

  Lemma side_init d : Ready n d -> exists d' st, dij_init d s 0 = Some d' /\ OI d' [] st /\ (M n st < dij_fuel n)%N.
  Proof using WF Hs.
    intros HR. destruct (OInv_init n links fst def_lk def_pl (snb links) sslk (snb_links n links WF) (snb_hd n links WF) (snb_lk n links WF) (sslk_mono n links) (sslk_ext n links) s Hs tt d HR) as (d' & pr & E1 & O1).
    exists d', (initA s 0 pr). split; auto. split; auto. apply (M_init (pl:=def_pl) jz Hs ltac:(reflexivity)).
  Qed.
  Lemma side_step d ord st : OI d ord st ->
    (exists d', settle links fst def_lk def_pl all_edges no_cb zero_get d tt = Some (d', tt, None) /\ OI d' ord st /\
       forall v y, (y < INF)%N -> is_dist arc s v y -> In v (map fst ord)) \/
    exists u x d' st', settle links fst def_lk def_pl all_edges no_cb zero_get d tt = Some (d', tt, Some u) /\ u < n /\ ts_get N INF (d_dist d') u = Some x /\ OI d' (ord ++ [(u, x)]) st' /\
      (M n st' < M n st)%N /\ (forall v y, (y < INF)%N -> is_dist arc s v y -> ~ In v (map fst ord) -> (x <= y)%N).
  Proof using WF Hs.
    intros HO.
    destruct (OInv_step n links fst def_lk def_pl (snb links) sslk (snb_links n links WF) (snb_hd n links WF) (snb_lk n links WF) (sslk_mono n links) (sslk_ext n links) s Hs tt d ord st HO) as [(d2 & F1 & O2 & C)|(u & y & d2 & st2 & F1 & Hu & Fy & O2 & M2 & X)].
    - left. exists d2. split; auto. split; auto. intros v y Hy Hd. apply (C v y). apply (earliest_some n links WF s Hs v y). auto.
    - right. exists u, y, d2, st2. split; [|split; [|split; [|split; [|split]]]]; auto. intros v z Hz Hd. apply X. apply (earliest_some n links WF s Hs v z). auto.
  Qed.
  Lemma dist_exists v l : v < n -> walk arc s v l -> (l < INF)%N -> exists y, (y < INF)%N /\ is_dist arc s v y.
  Proof using WF Hs.
    intros Hv Hl L. destruct (alt_row_ok n links (plain_new n) s WF) as (_ & ds & _ & _ & Ld & Hd); auto. { apply (sv_new_ok n); auto. }
    destruct (nth_error ds v) as [y|] eqn:Ey. 2:{ apply nth_error_None in Ey. lia. }
    apply Hd in Ey. apply capd_walk in Ey. destruct Ey as (Y1 & Y2 & Y3). exists y. pose proof (Y3 l Hl). assert (y < INF)%N by lia. split; auto. split; auto.
  Qed.
End Side.

Section Query.
  Variable n : nat.
  Variables lf lb : nat -> option (list (nat * N)).
  Hypothesis WFf : wf_links n lf.
  Hypothesis WFb : wf_links n lb.

  (** one search of the query: settled nodes, progress and done flag *)
  Record Dir (links : nat -> option (list (nat * N))) (s : nat) (tent : N) (g : list (nat * N) * ast unit) (dd : chdir) : Prop := {
    di_O : OInv n fst def_pl (snb links) sslk s tt (fst (fst dd)) (fst g) (snd g);
    di_far : forall v y, (y < INF)%N -> is_dist (garc links) s v y -> ~ In v (map fst (fst g)) -> (snd (fst dd) <= y)%N;
    di_done : snd dd = true -> (tent <= snd (fst dd))%N \/ forall v y, (y < INF)%N -> is_dist (garc links) s v y -> In v (map fst (fst g)) }.
  Definition MD (g : list (nat * N) * ast unit) (done : bool) : N := (M n (snd g) + if done then 0 else 1)%N.

  (** the tentative distance *)
  Definition Tent (s t : nat) (of ob : list (nat * N)) (tm : N * nat) : Prop :=
    (fst tm <= INF)%N /\
    ((fst tm < INF)%N -> exists a b, walk (garc lf) s (snd tm) a /\ walk (garc lb) t (snd tm) b /\ fst tm = (a + b)%N) /\
    forall v a b, In (v, a) of -> In (v, b) ob -> (fst tm <= a + b)%N.

  Lemma advance_ok links olinks s t g og dd od tm : wf_links n links -> wf_links n olinks -> s < n -> t < n ->
    Dir links s (fst tm) g dd -> OInv n fst def_pl (snb olinks) sslk t tt od (fst og) (snd og) -> snd dd = false -> (fst tm <= INF)%N ->
    exists dd' tm' g', ch_advance links t dd od tm = Some (dd', tm') /\ Dir links s (fst tm') g' dd' /\ (MD g' (snd dd') < MD g (snd dd))%N /\
      (fst tm' <= fst tm)%N /\
      (tm' = tm \/ exists a b, walk (garc links) s (snd tm') a /\ walk (garc olinks) t (snd tm') b /\ fst tm' = (a + b)%N) /\
      forall v a b, In (v, a) (fst g') -> ~ In (v, a) (fst g) -> In (v, b) (fst og) -> (fst tm' <= a + b)%N.
  Proof using.
    intros WF WFo Hs Ht [HO HF HD] OO ND HT. destruct dd as ((d & p) & done), g as (ord & st), og as (oo & ost). cbn [fst snd] in *. subst done. unfold ch_advance.
    destruct (side_step n links WF s Hs d ord st HO) as [(d' & E & O' & C)|(u & x & d' & st' & E & Hu & Ex & O' & ML & FX)]; rewrite E; cbn [bind].
    - exists (d', p, true), tm, (ord, st). split; auto. split. { split; cbn [fst snd]; auto. } split. { unfold MD; cbn [fst snd]. lia. } split; [lia|]. split; auto. cbn [fst]. intros; contradiction.
    - rewrite Ex. cbn [bind]. destruct (side_get n olinks WFo t Ht od oo ost OO u Hu) as (z & Ez & Z1 & Z2 & Z3). rewrite Ez. cbn [bind].
      destruct (side_ord n links WF s Hs d' _ st' u x O') as (_ & X1 & X2). { apply in_or_app; right; left; auto. }
      rewrite cadd_ok by (unfold INF, U32 in *; lia). cbn [bind].
      set (tm' := if (x + z <? fst tm)%N then _ else tm).
      assert (T1 : (fst tm' <= fst tm)%N /\ (fst tm' <= x + z)%N) by (unfold tm'; destruct (x + z <? fst tm)%N eqn:E1; cbn [fst]; lia).
      exists (d', x, if u =? t then true else false), tm', (ord ++ [(u, x)], st'). split; auto. split.
      + split; cbn [fst snd]; auto.
        * intros v y Hy Hd Hn. apply (FX v y Hy Hd). intros Hin. apply Hn. rewrite map_app. apply in_or_app; auto.
        * destruct (u =? t) eqn:Eu; [|discriminate]. intros _. left. apply Nat.eqb_eq in Eu. subst u. pose proof (side_root n olinks WFo t Ht od oo ost OO). assert (z = 0%N) by congruence. lia.
      + split. { unfold MD; cbn [fst snd]. destruct (u =? t); lia. } split; [lia|]. split.
        * unfold tm'. destruct (x + z <? fst tm)%N eqn:E1; auto. right. exists x, z. cbn [fst snd]. split; [apply X2|]. split; [|auto]. apply Z2. lia.
        * cbn [fst]. intros v a b Hin Hn Hb. apply in_app_or in Hin. destruct Hin as [Hin|[[= -> ->]|[]]]; [contradiction|]. specialize (Z3 b Hb). lia.
  Qed.

  Lemma Dir_le links s tent tent' g dd : (tent' <= tent)%N -> Dir links s tent g dd -> Dir links s tent' g dd.
  Proof using. intros L [A B C]. split; auto. intros D. destruct (C D) as [C'|C']; auto. left. lia. Qed.

  (** when the loop ends *)
  Lemma loop_end s t gf gb f b tm : s < n -> t < n -> Dir lf s (fst tm) gf f -> Dir lb t (fst tm) gb b -> Tent s t (fst gf) (fst gb) tm ->
    ((snd (fst f) <? fst tm)%N || (snd (fst b) <? fst tm)%N) && negb (snd f && snd b) = false -> best (garc lf) (garc lb) s t (fst tm).
  Proof using WFf WFb.
    intros Hs Ht [OF FF DF] [OB FB DB] (T1 & T2 & T3) E. split; auto. split. { intros H. destruct (T2 H) as (a & b' & Wa & Wb & Eq). exists (snd tm), a, b'. auto. }
    assert (F : (fst tm <= snd (fst f))%N \/ forall v y, (y < INF)%N -> is_dist (garc lf) s v y -> In v (map fst (fst gf))).
    { destruct (snd f) eqn:E1; auto. left. rewrite andb_true_r in E. lia. }
    assert (B : (fst tm <= snd (fst b))%N \/ forall v y, (y < INF)%N -> is_dist (garc lb) t v y -> In v (map fst (fst gb))).
    { destruct (snd b) eqn:E1; auto. left. rewrite andb_false_r, andb_true_r in E. lia. }
    clear DF DB E. intros l (m & a & c & Wa & Wc & ->). destruct (N.lt_ge_cases (a + c) (fst tm)) as [L|L]; auto. exfalso.
    assert (Hm : m < n) by exact (walk_lt n lf WFf s m a Hs Wa).
    destruct (dist_exists n lf WFf s Hs m a Hm Wa ltac:(lia)) as (a' & A1 & A2). destruct (dist_exists n lb WFb t Ht m c Hm Wc ltac:(lia)) as (c' & C1 & C2).
    pose proof (proj2 A2 a Wa) as LA. pose proof (proj2 C2 c Wc) as LC.
    assert (IF : In m (map fst (fst gf))).
    { destruct F as [F|F]; [|exact (F m a' A1 A2)]. destruct (in_dec Nat.eq_dec m (map fst (fst gf))) as [|Hn]; auto. specialize (FF m a' A1 A2 Hn). lia. }
    assert (IB : In m (map fst (fst gb))).
    { destruct B as [B|B]; [|exact (B m c' C1 C2)]. destruct (in_dec Nat.eq_dec m (map fst (fst gb))) as [|Hn]; auto. specialize (FB m c' C1 C2 Hn). lia. }
    apply in_map_iff in IF, IB. destruct IF as ((m1 & a1) & E1 & IF), IB as ((m2 & c1) & E2 & IB). cbn [fst] in E1, E2. subst m1 m2.
    pose proof (T3 m a1 c1 IF IB). destruct (side_ord n lf WFf s Hs _ _ _ m a1 OF IF) as (_ & _ & D1). destruct (side_ord n lb WFb t Ht _ _ _ m c1 OB IB) as (_ & _ & D2).
    pose proof (proj2 D1 a Wa). pose proof (proj2 D2 c Wc). lia.
  Qed.

  Lemma pairN_dec (x y : nat * N) : {x = y} + {x <> y}.
  Proof using. decide equality; [apply N.eq_dec|apply Nat.eq_dec]. Qed.

  Lemma ch_distance_ok ranks sv from to s t : Ready n (hs_fw sv) -> Ready n (hs_bw sv) -> nth_error ranks from = Some s -> nth_error ranks to = Some t -> s < n -> t < n ->
    exists sv' tent, ch_distance n ranks lf lb sv from to = Some (sv', if (tent =? INF)%N then None else Some tent) /\ best (garc lf) (garc lb) s t tent /\
      ((tent < INF)%N -> exists a b, walk (garc lf) s (hs_meet sv') a /\ walk (garc lb) t (hs_meet sv') b /\ tent = (a + b)%N) /\
      Ready n (hs_fw sv') /\ Ready n (hs_bw sv').
  Proof using WFf WFb.
    intros RF RB Es Et Hs Ht. unfold ch_distance. rewrite Es, Et. cbn [bind].
    destruct (side_init n lf WFf s Hs (hs_fw sv) RF) as (fd & stf & E1 & OF & MF). rewrite E1. cbn [bind].
    destruct (side_init n lb WFb t Ht (hs_bw sv) RB) as (bd & stb & E2 & OB & MB). rewrite E2. cbn [bind].
    set (I := fun (g : (list (nat * N) * ast unit) * (list (nat * N) * ast unit) * bool * bool) '((f, b, tm) : chdir * chdir * (N * nat)) =>
      let '(gf, gb, cf, cb) := g in Dir lf s (fst tm) gf f /\ Dir lb t (fst tm) gb b /\ Tent s t (fst gf) (fst gb) tm /\ cf = snd f /\ cb = snd b).
    set (Q := fun '((f, b, tm) : chdir * chdir * (N * nat)) => best (garc lf) (garc lb) s t (fst tm) /\
      ((fst tm < INF)%N -> exists a b, walk (garc lf) s (snd tm) a /\ walk (garc lb) t (snd tm) b /\ fst tm = (a + b)%N) /\ Ready n (fst (fst f)) /\ Ready n (fst (fst b))).
    set (MM := fun g : (list (nat * N) * ast unit) * (list (nat * N) * ast unit) * bool * bool => let '(gf, gb, cf, cb) := g in (MD gf cf + MD gb cb)%N).
    destruct (loopN_ghost (ch_step lf lb s t) I Q MM (ch_fuel n) (([], stf), ([], stb), false, false) ((fd, 0%N, false), (bd, 0%N, false), (INF, hs_meet sv)))
      as (((f & b) & tm) & E & Q1 & Q2 & Q3 & Q4).
    - intros (((gf & gb) & cf) & cb) ((f & b) & tm) (DF & DB & HT & -> & ->). unfold ch_step.
      destruct f as ((fd1 & fp) & fdone) eqn:Ef, b as ((bd1 & bp) & bdone) eqn:Eb. rewrite <- Ef, <- Eb in *. cbn [fst snd].
      destruct (((fp <? fst tm)%N || (bp <? fst tm)%N) && negb (fdone && bdone)) eqn:EC.
      + destruct (bdone || ((fp <=? bp)%N && negb fdone)) eqn:ED.
        * assert (fdone = false). { destruct fdone; auto. destruct bdone; cbn in *; [rewrite andb_false_r in EC|rewrite andb_false_r in ED]; discriminate. } subst fdone.
          destruct (advance_ok lf lb s t gf gb f bd1 tm WFf WFb Hs Ht DF) as (f' & tm' & gf' & A1 & A2 & A3 & A4 & A5 & A6).
          { pose proof (di_O _ _ _ _ _ DB) as X. rewrite Eb in X. exact X. } { rewrite Ef; auto. } { apply HT. }
          rewrite A1. cbn [bind]. eexists; split; [reflexivity|]. exists (gf', gb, snd f', snd b). split.
          -- split; auto. split. { eapply Dir_le; eauto. } split; auto. destruct HT as (T1 & T2 & T3). split; [lia|]. split.
             ++ intros H. destruct A5 as [->|(a & c & W1 & W2 & W3)]; auto. exists a, c. auto.
             ++ intros v a c Ha Hc. destruct (in_dec pairN_dec (v, a) (fst gf)) as [Hin|Hn]. { specialize (T3 v a c Hin Hc). lia. } apply (A6 v a c Ha Hn Hc).
          -- unfold MM. lia.
        * assert (bdone = false) by (destruct bdone; auto; discriminate). subst bdone.
          destruct (advance_ok lb lf t s gb gf b fd1 tm WFb WFf Ht Hs DB) as (b' & tm' & gb' & A1 & A2 & A3 & A4 & A5 & A6).
          { pose proof (di_O _ _ _ _ _ DF) as X. rewrite Ef in X. exact X. } { rewrite Eb; auto. } { apply HT. }
          rewrite A1. cbn [bind]. eexists; split; [reflexivity|]. exists (gf, gb', snd f, snd b'). split.
          -- split. { eapply Dir_le; eauto. } split; auto. split; auto. destruct HT as (T1 & T2 & T3). split; [lia|]. split.
             ++ intros H. destruct A5 as [->|(a & c & W1 & W2 & W3)]; auto. exists c, a. split; auto. split; auto. lia.
             ++ intros v a c Ha Hc. destruct (in_dec pairN_dec (v, c) (fst gb)) as [Hin|Hn]. { specialize (T3 v a c Ha Hin). lia. } specialize (A6 v c a Hc Hn Ha). lia.
          -- unfold MM. lia.
      + eexists; split; [reflexivity|]. split. { eapply loop_end; eauto. rewrite Ef, Eb. cbn [fst snd]. auto. } split; [apply HT|].
        split. { eapply side_ready. apply (di_O _ _ _ _ _ DF). } { eapply side_ready. apply (di_O _ _ _ _ _ DB). }
    - split; [|split; [|split; [|split]]]; auto.
      + split; cbn [fst snd]; auto; [lia|discriminate].
      + split; cbn [fst snd]; auto; [lia|discriminate].
      + split; [cbn; lia|]. split; [cbn; lia|]. cbn. intros v a b [].
    - unfold MM, MD, ch_fuel. cbn [snd]. lia.
    - rewrite E. destruct f as ((fd1 & fp) & fdone), b as ((bd1 & bp) & bdone), tm as (tent & m). cbn [bind fst snd] in *.
      exists (mkHS fd1 bd1 m), tent. split; auto.
  Qed.

  Lemma ch_history_ok ranks qs sv : Ready n (hs_fw sv) -> Ready n (hs_bw sv) ->
    (forall s t, In (s, t) qs -> (exists x, nth_error ranks s = Some x /\ x < n) /\ exists y, nth_error ranks t = Some y /\ y < n) ->
    exists sv', ch_history n ranks lf lb sv qs = Some sv' /\ Ready n (hs_fw sv') /\ Ready n (hs_bw sv').
  Proof using WFf WFb.
    intros RF RB HQ. unfold ch_history.
    match goal with |- context [foldM ?f _ _] => destruct (foldM_inv f (fun _ sv => Ready n (hs_fw sv) /\ Ready n (hs_bw sv)) qs sv) as (sv' & E & H); auto end.
    - intros pre (s & t) post sv1 EQ (R1 & R2). destruct (HQ s t) as ((x & Ex & Hx) & (y & Ey & Hy)). { rewrite EQ. apply in_or_app; right; left; auto. }
      destruct (ch_distance_ok ranks sv1 s t x y R1 R2 Ex Ey Hx Hy) as (sv2 & tent & E & _ & _ & R3 & R4). rewrite E. cbn [bind]. eauto.
    - exists sv'. auto.
  Qed.
End Query.

(** * Paths *)
Lemma loop_pos_none {S R} (step : S -> option (S + R)) p : forall s, step s = None -> loop_pos p step s = None.
Proof. induction p as [p IH|p IH|]; intros s E; cbn [loop_pos]; [rewrite E|rewrite IH by auto|]; auto. Qed.
Lemma loopN_none {S R} (step : S -> option (S + R)) fuel s : step s = None -> loopN fuel step s = None.
Proof. intros E. destruct fuel; cbn [loopN]; auto. rewrite loop_pos_none; auto. Qed.
Lemma loop_pos_inr {S R} (step : S -> option (S + R)) p : forall s r, step s = Some (inr r) -> loop_pos p step s = Some (inr r).
Proof. induction p as [p IH|p IH|]; intros s r E; cbn [loop_pos]; [rewrite E|rewrite (IH s r) by auto|]; auto. Qed.

Definition loop_free (links : nat -> option (list (nat * N))) : Prop := forall u ls w, links u = Some ls -> ~ In (u, w) ls.

Lemma pos_of_in ls v p : pos_of ls v = Some p -> exists w, In (v, w) ls.
Proof.
  revert p. induction ls as [|[h w] ls IH]; intros p; cbn [pos_of]; [discriminate|]. destruct (Nat.eqb_spec h v) as [->|Ne]. { intros _. exists w. left; auto. }
  destruct (pos_of ls v) as [q|]; [|discriminate]. intros _. destruct (IH q eq_refl) as (w' & H). exists w'. right; auto.
Qed.
Lemma edge_ix_loop first links u : loop_free links -> edge_ix first links u u = None.
Proof.
  intros H. unfold edge_ix. destruct (links u) as [ls|] eqn:E; auto. cbn [bind]. destruct (nth_error first u); auto. cbn [bind].
  destruct (pos_of ls u) as [p|] eqn:Ep; auto. apply pos_of_in in Ep as (w & Hin). destruct (H u ls w E Hin).
Qed.
Lemma walk_back_ok fuel n first links mids pred meet stop acc : loop_free links -> ch_walk_back fuel n first links mids pred meet stop = Some acc -> meet = stop /\ acc = [meet].
Proof.
  intros HL E. unfold ch_walk_back in E. destruct (Nat.eqb_spec meet stop) as [->|Ne].
  - split; auto. destruct fuel as [|p]; [discriminate|]. cbn [loopN] in E. rewrite (loop_pos_inr _ p [stop] [stop]) in E. { injection E as <-. auto. } cbn [hd_error bind]. rewrite Nat.eqb_refl. auto.
  - exfalso. rewrite loopN_none in E; [discriminate|]. cbn [hd_error bind]. apply Nat.eqb_neq in Ne. rewrite Ne. destruct (nth_error pred meet) as [[next []]|] eqn:Ep; auto. cbn [bind].
    rewrite loopN_none; auto. cbn [ch_unpack_step hd_error bind]. rewrite Ep. cbn [bind]. rewrite edge_ix_loop; auto.
Qed.
