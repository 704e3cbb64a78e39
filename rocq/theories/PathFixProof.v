(** Local optimality, the naive search and fixing paths. *)
From Coq Require Import Permutation Sorting.Sorted.
From Verif Require Import Base BitVec SpecGraph LoopProof GraphProof Graph GraphSpecProof PLF Dijkstra CCHContractProof CCHMetricProof PropsBidir SpecUBS UBS UBSFilterProof UBSScanProof UBSTreeProof UBSProof PathPot SpecPathPot PathPotProof PathPotView CUBSProof SpecPathFix PathFix.

Lemma fold_min (f : prange -> N) evs : forall v, let r := fold_left (fun v r => N.min v (f r)) evs v in (r <= v)%N /\ (forall e, In e evs -> (r <= f e)%N) /\ (r = v \/ exists e, In e evs /\ r = f e).
Proof.
  induction evs as [|e evs IH]; intros v; cbn. { split; [lia|]. split; auto. intros e []. }
  destruct (IH (N.min v (f e))) as (A & B & C). split; [lia|]. split. { intros e' [<-|H]; [lia|auto]. }
  destruct C as [C|(e' & H & C)]; [|right; exists e'; auto]. destruct (N.le_gt_cases v (f e)); [left; lia|right; exists e; split; auto; lia].
Qed.
Lemma minimal_below (R : prange -> Prop) : (forall r, R r -> fst r < snd r) -> forall q, R q -> ~ ~ exists q', inclusion_minimal R q' /\ fst q <= fst q' /\ snd q' <= snd q.
Proof.
  intros HR. assert (G : forall k q, snd q - fst q <= k -> R q -> ~ ~ exists q', inclusion_minimal R q' /\ fst q <= fst q' /\ snd q' <= snd q).
  { induction k as [|k IH]; intros q Hk Hq. { apply HR in Hq. lia. } intros NE. apply NE. exists q. split; [|lia]. split; auto. intros q' Hq' H1 H2.
    pose proof (HR _ Hq). pose proof (HR _ Hq').
    destruct (Nat.eq_dec (snd q' - fst q') (snd q - fst q)) as [E|Hne]. { destruct q, q'; cbn in *. f_equal; lia. }
    exfalso. apply (IH q'); auto. { lia. } intros (z & Z1 & Z2 & Z3). apply NE. exists z. split; auto. lia. }
  intros q. apply (G _ q (le_n _)).
Qed.

Section Search.
  Variable adj : list (list (nat * N)).
  Variable madj : list (list (nat * N)).
  Variables order rks : list nat.
  Variable g : fograph N.
  Notation n := (length adj).
  Notation arc := (adj_arc madj).
  Notation M := (rank_arc order arc).
  Hypothesis Ln : length madj = n.
  Hypothesis HV : valid_adj madj.
  Hypothesis HF : fits_u32 madj.
  Hypothesis HW : forall l v w, In l madj -> In (v, w) l -> (w <= INF)%N.
  Hypothesis Hg : from_adjacency_lists madj = Some g.
  Hypothesis HO : node_order (length madj) order rks.
  Hypothesis Hpos : positive madj.
  Variable dbg : bool.
  Variables It Is : ppot -> Prop.
  Hypothesis HTt : tree_for adj dbg M It.
  Hypothesis HTs : tree_for adj dbg (flip_arc M) Is.
  Notation OK := (CUOK adj It Is).

  Lemma prep rk orig : length rk = n -> all_none rk = true -> NoDup orig -> Forall (fun v => v < n) orig -> exists path pr pr',
    mapM (nth_error rks) orig = Some path /\ Forall2 (same order) path orig /\ Forall (fun v => v < n) path /\ NoDup path /\ note_ranks path rk = Some (pr, []) /\ length pr = n /\
    (forall i, i < length path -> nth_error pr (nth i path 0) = Some (Some i)) /\ (forall v, v < n -> ~ In v path -> nth_error pr v = Some None) /\
    clear_ranks path pr = Some pr' /\ length pr' = n /\ all_none pr' = true.
  Proof.
    intros U5 U6 NDo Hon.
    destruct (sp_ex madj order rks HO orig ltac:(rewrite Ln; exact Hon)) as (path & Em & SP).
    pose proof (sp_lt madj order rks HO _ _ SP) as Hpn. rewrite Ln in Hpn. pose proof (proj2 (sp_nodup madj order rks HO _ _ SP) NDo) as ND.
    destruct (note_ok n path Hpn rk U5 U6) as ([pr vio] & E & [N1 N2 N3 N4]). cbn [fst snd] in *.
    assert (Ev : vio = []). { destruct vio as [|r vio]; auto. exfalso. destruct (proj1 (N3 r) (or_introl eq_refl)) as [(Hlt & v & A & B & _) _]. rewrite NoDup_nth_error in ND. assert (fst r = snd r); [|lia]. apply ND; [eapply nth_error_Some_lt; eauto|congruence]. }
    rewrite Ev in E. clear Ev N3 N4.
    assert (Hcl : forall v, cached pr v -> In v path). { intros v (i & Hi). assert (Hv : v < n) by (apply nth_error_Some_lt in Hi; lia). destruct (N2 v Hv) as [[A _]|(j & _ & A & B & _)]; [congruence|]. eapply nth_error_In; eauto. }
    destruct (clear_ok n path pr Hpn N1 Hcl) as (pr' & Ec & C1 & C2). exists path, pr, pr'. do 6 (split; [auto|]).
    split.
    { intros i Hi. pose proof (nth_error_nth' path 0 Hi) as Ei. destruct (N2 (nth i path 0)) as [[_ A]|(j & A & B & C & _)]. { rewrite Forall_forall in Hpn. apply Hpn. apply nth_In. auto. } { exfalso. apply (A i Hi Ei). }
      assert (j = i); [|subst; auto]. rewrite NoDup_nth_error in ND. apply ND; [auto|]. rewrite Ei. auto. }
    split; auto. intros v Hv Hni. destruct (N2 v Hv) as [[A _]|(j & _ & _ & A & _)]; auto. exfalso. apply Hni. eapply nth_error_In; eauto.
  Qed.

  (** ** Local optimality *)
  Lemma nonshortest_bad path dists orig r y : Forall2 (same order) path orig -> sums arc orig dists -> sums M path dists ->
    nonshortest arc orig r y <-> bad M path dists (fun y d => negb (y =? d)%N) r /\ y = (nth (snd r) dists 0 - nth (fst r) dists 0)%N.
  Proof.
    intros SP So SM. destruct r as [a b]. unfold nonshortest, bad. cbn [fst snd]. pose proof (sp_len order _ _ SP) as Lp. split.
    - intros (Hab & u & v & d & Ha & Hb & P & Hd & Ht). pose proof (nth_error_Some_lt _ _ _ Hb). destruct (sums_plen arc orig dists a b So ltac:(lia)) as [P' _]. pose proof (plen_det _ _ _ P _ P') as Ey. split; [|auto].
      split; [lia|]. exists d. split. { apply (is_dist_same madj order rks HV HO _ _ _ _ _ (sp_nth order _ _ a SP ltac:(lia)) (sp_nth order _ _ b SP ltac:(lia))). rewrite (nth_error_nth _ _ 0 Ha), (nth_error_nth _ _ 0 Hb). auto. }
      apply negb_true_iff. apply N.eqb_neq. lia.
    - intros ((Hab & d & Hd & Ht) & ->). split; [lia|]. apply negb_true_iff in Ht. apply N.eqb_neq in Ht.
      exists (nth a orig 0), (nth b orig 0), d. split; [apply nth_error_nth'; lia|]. split; [apply nth_error_nth'; lia|]. split. { apply (sums_plen arc orig dists a b So). lia. }
      assert (Hd' : is_dist arc (nth a orig 0) (nth b orig 0) d) by (apply (is_dist_same madj order rks HV HO _ _ _ _ _ (sp_nth order _ _ a SP ltac:(lia)) (sp_nth order _ _ b SP ltac:(lia))); auto).
      split; auto. pose proof (proj2 Hd' _ (sums_walk arc orig dists So a b ltac:(lia) ltac:(lia))). lia.
  Qed.
  Lemma cubs_local_ok u orig x : OK u -> NoDup orig -> Forall (fun v => v < n) orig -> plen arc orig x -> (x < INF)%N ->
    exists u' lo, cubs_local dbg g rks u orig = Some (u', (lo, x)) /\ OK u' /\ locally_optimal_up_to arc orig x lo.
  Proof.
    intros [U1 U2 U3 U4 U5 U6] NDo Hon P Hx. unfold cubs_local.
    destruct (prep (cu_ranks u) orig U5 U6 NDo Hon) as (path & pr & pr' & Em & SP & Hpn & ND & En & N1 & Hpr & Hpo & Ec & C1 & C2). rewrite Em. cbn [bind]. unfold dassert. rewrite U6. cbn [negb]. rewrite andb_false_r. rewrite En. cbn [bind length Nat.eqb guard].
    pose proof (sp_len order _ _ SP) as Lp.
    destruct (path_dists_ok madj g HV HF HW Hg dbg orig x P Hx) as (dists & Ed & Sd & Hd). pose proof (sp_sums madj order _ _ _ SP Sd) as SM. rewrite Ed. cbn [bind].
    assert (Lo : 0 < length orig) by (destruct P; cbn; lia).
    rewrite (nth_error_nth' dists 0%N) by (rewrite (proj1 Sd); lia). cbn [bind]. rewrite (proj1 Sd), Hd. rewrite <- Lp in Hd. rewrite U5.
    destruct (cch_tree_ok adj madj order Ln HW dbg It Is HTt HTs path dists pr x Hx SM Hd Hpn Hpr N1 Hpo N lo_found (fun y d => negb (y =? d)%N) (fun v _ y => N.min v y)) with (t := cu_t u) (s := cu_s u) (cache := cu_cache u) (v := x)
      as (t' & s' & cache' & evs & Et & R1 & R2 & R3 & R4 & R5 & R6); auto.
    { intros v a b d _ _ Hlt. unfold lo_found. destruct (N.eqb_spec (nth b dists 0 - nth a dists 0)%N d); cbn [negb]; auto. }
    { intros y. rewrite N.eqb_refl. auto. } { intros y d k Hk Hy _. apply negb_true_iff. apply N.eqb_neq. lia. }
    rewrite Et. cbn [bind]. rewrite Ec. cbn [bind]. eexists _, _. split; [reflexivity|]. split; [constructor; auto|].
    destruct (fold_min (fun r => (nth (snd r) dists 0 - nth (fst r) dists 0)%N) evs x) as (F1 & F2 & F3). cbv beta zeta in F1, F2, F3. match type of F1 with (?F <= _)%N => change (locally_optimal_up_to arc orig x F); generalize dependent F end. intros ff _ F1 F2 F3. split; [exact F1|]. split.
    - intros r y Hr. apply (nonshortest_bad path dists orig r y SP Sd SM) in Hr. destruct Hr as [Hb ->]. destruct (N.le_gt_cases ff (nth (snd r) dists 0 - nth (fst r) dists 0)%N) as [|Hgt]; auto. exfalso.
      apply (minimal_below (bad M path dists (fun y d => negb (y =? d)%N)) ltac:(intros q [Hq _]; lia) r Hb). intros (q & Hq & Q1 & Q2). specialize (F2 q (R6 q Hq)).
      destruct Hq as [[Hq _] _], Hb as [Hb _]. destruct (sums_plen M path dists (fst r) (fst q) SM ltac:(lia)), (sums_plen M path dists (snd q) (snd r) SM ltac:(lia)). lia.
    - destruct F3 as [->|(e & He & ->)]; auto. right. exists e. apply (nonshortest_bad path dists orig e _ SP Sd SM). split; auto. rewrite Forall_forall in R5. auto.
  Qed.

  (** ** The naive search *)
  Variable sort : list prange -> list prange.
  Hypothesis Hsort : cmp_sort rg_ltb sort.
  Variable thr : N -> N.
  Hypothesis Hthr : forall a b, (a <= b)%N -> (thr a <= thr b)%N.
  Lemma naive_scan_ok path dists i (K : ppot -> Prop) D : sums M path dists -> NoDup path -> i < length path ->
    (forall j, i <= j < length path -> is_dist M (nth i path 0) (nth j path 0) (D (nth j path 0))) ->
    (forall q j, K q -> i <= j < length path -> exists q', pp_dist q (nth j path 0) = Some (q', D (nth j path 0)) /\ K q') ->
    forall js p, K p -> (forall j, In j js -> i < j < length path) ->
    exists p' o, naive_scan dbg thr dists p (nth i dists 0%N) (map (fun j => (j, nth j path 0)) js) = Some (p', o) /\ K p' /\
      match o with
      | Some j => bad M path dists (fun y d => (thr d <? y - d)%N) (i, j) /\ exists js1 js2, js = js1 ++ j :: js2 /\ forall j', In j' js1 -> ~ bad M path dists (fun y d => (thr d <? y - d)%N) (i, j')
      | None => forall j, In j js -> ~ bad M path dists (fun y d => (thr d <? y - d)%N) (i, j)
      end.
  Proof.
    intros SM ND Hi HD HK. induction js as [|j js IH]; intros p Kp Hjs; cbn [map naive_scan]. { exists p, None. split; auto. }
    assert (Hj : i < j < length path) by (apply Hjs; cbn; auto). destruct (HK p j Kp ltac:(lia)) as (q & E & Kq). rewrite E. cbn [bind]. rewrite (nth_error_nth' dists 0%N) by (rewrite (proj1 SM); lia). cbn [bind].
    destruct (sums_plen M path dists i j SM ltac:(lia)) as [_ Hle]. unfold csubN at 1. rewrite (proj2 (N.leb_le _ _) Hle). cbn [bind].
    pose proof (HD j ltac:(lia)) as Hd. set (d := D (nth j path 0)) in *. pose proof (proj2 Hd _ (sums_walk M path dists SM i j ltac:(lia) ltac:(lia))) as Hdl.
    assert (Hp : (0 < d)%N). { apply (M_dist_pos adj madj order Ln HW Hpos thr Hthr (nth i path 0) (nth j path 0)); auto. intros Eq. apply NoDup_nth in Eq; auto; lia. }
    unfold dassert. rewrite (proj2 (N.leb_le _ _) Hdl), (proj2 (N.ltb_lt _ _) Hp). cbn [negb andb]. rewrite andb_false_r. unfold csubN. rewrite (proj2 (N.leb_le _ _) Hdl). cbn [bind].
    assert (Hb : bad M path dists (fun y d => (thr d <? y - d)%N) (i, j) <-> (thr d <? nth j dists 0 - nth i dists 0 - d)%N = true).
    { unfold bad. cbn [fst snd]. split. { intros (_ & d' & Hd' & Ht). rewrite (is_dist_det _ _ _ _ _ Hd Hd'). auto. } intros Ht. split; [lia|]. exists d. auto. }
    destruct (thr d <? nth j dists 0 - nth i dists 0 - d)%N eqn:Et.
    - exists q, (Some j). split; auto. split; auto. split; [apply Hb; auto|]. exists [], js. split; auto. 
    - destruct (IH q Kq ltac:(intros; apply Hjs; cbn; auto)) as (p' & o & E' & K' & Ho). exists p', o. split; auto. split; auto. assert (Hnb : ~ bad M path dists (fun y d => (thr d <? y - d)%N) (i, j)) by (intros H; apply Hb in H; discriminate).
      destruct o as [j0|].
      + destruct Ho as (B & js1 & js2 & -> & N1). split; auto. exists (j :: js1), js2. split; auto. intros j' [<-|H]; auto.
      + intros j' [<-|H]; auto.
  Qed.
  Lemma combine_seq (path : list nat) : combine (seq 0 (length path)) path = map (fun j => (j, nth j path 0)) (seq 0 (length path)).
  Proof.
    apply list_ext. intros i. destruct (Nat.lt_ge_cases i (length path)) as [Hi|Hi].
    - rewrite (nth_error_nth' _ (0, 0)) by (rewrite combine_length, seq_length; lia). rewrite combine_nth by apply seq_length. rewrite seq_nth by auto. rewrite nth_error_map, (nth_error_nth' _ 0) by (rewrite seq_length; auto). rewrite seq_nth by auto. reflexivity.
    - rewrite (proj2 (nth_error_None _ _)) by (rewrite combine_length, seq_length; lia). rewrite (proj2 (nth_error_None _ _)) by (rewrite map_length, seq_length; lia). auto.
  Qed.
  Lemma skipn_seq' k : forall s m, skipn k (seq s m) = seq (s + k) (m - k).
  Proof. induction k as [|k IH]; intros s m. { rewrite Nat.add_0_r, Nat.sub_0_r. auto. } destruct m as [|m]; cbn [seq skipn Nat.sub]; auto. rewrite IH. f_equal; lia. Qed.
  Lemma firstn_seq' k : forall s m, k <= m -> firstn k (seq s m) = seq s k.
  Proof. induction k as [|k IH]; intros s m Hk; auto. destruct m as [|m]; [lia|]. cbn [seq firstn]. f_equal. apply IH. lia. Qed.
  Notation nbad path dists := (bad M path dists (fun y d => (thr d <? y - d)%N)).
  Lemma naive_rows_ok path dists x : sums M path dists -> nth (length path - 1) dists 0%N = x -> (x < INF)%N -> NoDup path -> Forall (fun v => v < n) path ->
    forall is p vio, Is p -> (forall i, In i is -> i < length path) ->
    exists p' evs, foldM (naive_row dbg thr path dists) (map (fun i => (i, nth i path 0)) is) (p, vio) = Some (p', vio ++ evs) /\ Is p' /\ Forall (nbad path dists) evs /\
      forall i j, In i is -> inclusion_minimal (nbad path dists) (i, j) -> In (i, j) evs.
  Proof.
    intros SM Hlast Hx ND Hpn. rewrite Forall_forall in Hpn.
    assert (Hlt : forall i j, i <= j -> j < length path -> (nth j dists 0 - nth i dists 0 < INF)%N).
    { intros i j Hij Hj. destruct (sums_plen M path dists j (length path - 1) SM ltac:(lia)). lia. }
    induction is as [|i is IH]; intros p vio Hp His; cbn [map foldM]. { exists p, []. rewrite app_nil_r. split; [auto|]. split; [auto|]. split; [auto|]. intros i j []. }
    assert (Hi : i < length path) by (apply His; cbn; auto). unfold naive_row at 1. cbn [fst snd].
    assert (Hn : forall j, j < length path -> nth j path 0 < n) by (intros j Hj; apply Hpn; apply nth_In; auto).
    destruct (HTs (nth i path 0) p (Hn i Hi) Hp) as (p1 & D & K & E & K1 & KI & H1). rewrite E. cbn [bind]. rewrite (nth_error_nth' dists 0%N) by (rewrite (proj1 SM); lia). cbn [bind].
    assert (H2 : forall j, i <= j < length path -> walk (flip_arc M) (nth j path 0) (nth i path 0) (nth j dists 0 - nth i dists 0)%N) by (intros j Hj; apply walk_flip; apply (sums_walk M path dists SM); lia).
    destruct (naive_scan_ok path dists i K D SM ND Hi) with (js := seq (i + 1) (length path - (i + 1))) (p := p1) as (p2 & o & E2 & K2 & Ho); auto.
    { intros j Hj. destruct (H1 _ _ (Hn j ltac:(lia)) (H2 j Hj) ltac:(apply Hlt; lia)) as (A & _). apply is_dist_flip in A. exact A. }
    { intros q j Kq Hj. destruct (H1 _ _ (Hn j ltac:(lia)) (H2 j Hj) ltac:(apply Hlt; lia)) as (_ & H3 & _). destruct (H3 q Kq) as (q' & A & B & _). eauto. }
    { intros j Hj. apply in_seq in Hj. lia. }
    rewrite combine_seq, skipn_map, skipn_seq'. cbn [Nat.add] in *. rewrite E2. cbn [bind].
    destruct (IH p2 (match o with Some j => vio ++ [(i, j)] | None => vio end) (KI _ K2) ltac:(intros; apply His; cbn; auto)) as (p' & evs & E3 & I3 & B3 & M3).
    rewrite E3. destruct o as [j|].
    - destruct Ho as (Hb & js1 & js2 & Ejs & Hjs). exists p', ((i, j) :: evs). rewrite <- app_assoc. split; auto. split; auto. split; auto. intros i' j' [<-|Hin] Hm; [|right; auto].
      left. apply Hm; cbn [fst snd]; auto. destruct Hm as [Hm1 Hm2]. pose proof Hm1 as (Hr & _). cbn [fst snd] in Hr. assert (Hin : In j' (seq (i + 1) (length path - (i + 1)))) by (apply in_seq; lia). rewrite Ejs in Hin. apply in_app_or in Hin.
      destruct Hin as [Hin|[->|Hin]]; [exfalso; apply (Hjs j'); auto|lia|].
      assert (SS : StronglySorted lt (seq (i + 1) (length path - (i + 1)))).
      { generalize (length path - (i + 1)). generalize (i + 1). clear. intros s m. revert s. induction m as [|m IH]; intros s; cbn; constructor; auto. apply Forall_forall. intros y Hy. apply in_seq in Hy. lia. }
      rewrite Ejs in SS. clear - SS Hin. induction js1 as [|a js1 IH]; cbn in SS; inversion SS as [|? ? S1 F1]; subst; auto. rewrite Forall_forall in F1. specialize (F1 _ Hin). lia.
    - exists p', evs. split; auto. split; auto. split; auto. intros i' j' [<-|Hin] Hm; auto. exfalso. destruct Hm as [Hm _]. apply (Ho j'); auto. destruct Hm as [Hr _]. cbn [fst snd] in Hr. apply in_seq. lia.
  Qed.
  Lemma cubs_naive_ok u orig x : OK u -> NoDup orig -> Forall (fun v => v < n) orig -> plen arc orig x -> (x < INF)%N ->
    exists u' r, cubs_naive dbg g rks sort thr u orig = Some (u', r) /\ OK u' /\ lists_minimal (violates arc thr orig) r.
  Proof.
    intros [U1 U2 U3 U4 U5 U6] NDo Hon P Hx. unfold cubs_naive.
    destruct (prep (cu_ranks u) orig U5 U6 NDo Hon) as (path & pr & pr' & Em & SP & Hpn & ND & En & N1 & Hpr & Hpo & Ec & C1 & C2).
    pose proof (sp_len order _ _ SP) as Lp.
    destruct (path_dists_ok madj g HV HF HW Hg dbg orig x P Hx) as (dists & Ed & Sd & Hd). pose proof (sp_sums madj order _ _ _ SP Sd) as SM. rewrite Ed. cbn [bind]. rewrite Em. cbn [bind]. rewrite En. cbn [bind]. rewrite Ec. cbn [bind].
    assert (Lo : 0 < length orig) by (destruct P; cbn; lia). rewrite <- Lp in Hd, Lo. rewrite (proj2 (Nat.ltb_lt _ _) Lo). cbn [guard bind].
    rewrite combine_seq, firstn_map, firstn_seq' by lia.
    destruct (naive_rows_ok path dists x SM Hd Hx ND Hpn (seq 0 (length path - 1)) (cu_s u) [] U2) as (p' & evs & E & I1 & B1 & M1). { intros i Hi. apply in_seq in Hi. lia. }
    rewrite E. cbn [bind app]. rewrite Forall_forall in B1.
    destruct (filter_minimal (violates arc thr orig) sort evs Hsort) as (out & Eo & LM). { intros r [H _]. auto. }
    { intros r Hr. apply (sp_violates madj order rks HV HO _ _ thr r SP). apply (bad_violates_gen M path dists SM). auto. }
    { intros [a b] Hr. assert (Hm : inclusion_minimal (nbad path dists) (a, b)).
      { revert Hr. apply minimal_ext. intros q. rewrite (bad_violates_gen M path dists SM thr q). apply (sp_violates madj order rks HV HO _ _ thr q SP). }
      apply M1; auto. destruct Hm as [[Hm _] _]. cbn [fst snd] in Hm. apply in_seq. lia. }
    rewrite Eo. cbn [bind]. eexists _, _. split; [reflexivity|]. split; auto. constructor; auto.
  Qed.

  (** ** Fixing paths *)
  Lemma cheapest_ex u v w : arc u v w -> exists w', cheapest arc u v w' /\ (w' <= w)%N.
  Proof.
    unfold cheapest, adj_arc. generalize (nth u madj []). clear. intros l. revert w. induction l as [|[v' w1] l IH]; intros w H; [destruct H|].
    assert (Hd : (exists w0, In (v, w0) l) \/ forall w0, ~ In (v, w0) l).
    { clear. induction l as [|[v' w1] l IH]; [right; auto|]. destruct IH as [(w0 & H)|H]; [left; exists w0; cbn; auto|]. destruct (Nat.eq_dec v' v) as [->|Ne]; [left; exists w1; cbn; auto|]. right. intros w0 [E|E]; [congruence|eapply H; eauto]. }
    destruct Hd as [(w0 & H0)|Hn].
    - destruct (IH w0 H0) as (w2 & (A & B) & _). destruct (Nat.eq_dec v' v) as [->|Ne].
      + exists (N.min w1 w2). split. { split. { destruct (N.min_spec w1 w2) as [[_ ->]|[_ ->]]; cbn; auto. } intros w' [[= ->]|E]; [lia|specialize (B _ E); lia]. } destruct H as [[= ->]|E]; [lia|specialize (B _ E); lia].
      + exists w2. split. { split; [cbn; auto|]. intros w' [E|E]; [congruence|auto]. } destruct H as [E|E]; [congruence|auto].
    - destruct H as [[= -> ->]|E]; [|exfalso; eapply Hn; eauto]. exists w. split; [|lia]. split; [cbn; auto|]. intros w' [[= ->]|E]; [lia|exfalso; eapply Hn; eauto].
  Qed.
  Lemma npath_plen s p t l : npath arc s p t l -> exists y, plen arc p y /\ (y <= l)%N.
  Proof.
    induction 1 as [u|u v t w l p Ha Hp (y & P & L)]. { exists 0%N. split; [constructor|lia]. } destruct (cheapest_ex _ _ _ Ha) as (w' & C & Lw). inversion Hp; subst; (exists (w' + y)%N; split; [constructor; auto|lia]).
  Qed.
  Lemma npath_ends s p t l : npath arc s p t l -> hd_error p = Some s /\ nth_error p (length p - 1) = Some t /\ hd_error (rev p) = Some t.
  Proof.
    induction 1 as [u|u v t w l p Ha Hp (H1 & H2 & H3)]; [cbn; auto|]. split; auto. destruct p as [|a p]; [discriminate|]. split. { cbn [length] in *. replace (S (S (length p)) - 1) with (S (length p)) by lia. cbn [nth_error]. replace (S (length p) - 1) with (length p) in H2 by lia. exact H2. }
    cbn [rev] in *. destruct (rev p ++ [a]) as [|z q] eqn:E; [discriminate|]. cbn. auto.
  Qed.
  Lemma npath_lt s p t l : npath arc s p t l -> s < n -> Forall (fun v => v < n) p.
  Proof.
    induction 1 as [u|u v t w l p Ha Hp IH]; intros Hs; constructor; auto. apply IH. unfold adj_arc in Ha. rewrite <- Ln. eapply HV; [|exact Ha]. eapply in_nth_list; eauto.
  Qed.
  Lemma sums_npath orig dists i j : sums arc orig dists -> i <= j -> j < length orig -> npath arc (nth i orig 0) (nth i orig 0 :: firstn (j - i) (skipn (S i) orig)) (nth j orig 0) (nth j dists 0 - nth i dists 0)%N.
  Proof.
    intros Hs Hij Hj. remember (j - i) as k. revert i Hij Heqk. induction k as [|k IH]; intros i Hij Hk.
    - assert (i = j) by lia. subst. rewrite N.sub_diag. cbn [firstn]. constructor.
    - destruct Hs as (L & Z & S1). destruct (S1 i ltac:(lia)) as (w & [HA _] & E). specialize (IH (S i) ltac:(lia) ltac:(lia)). destruct (sums_plen arc orig dists (S i) j (conj L (conj Z S1)) ltac:(lia)).
      rewrite (skipn_at orig (S i)) by lia. cbn [firstn]. replace (nth j dists 0 - nth i dists 0)%N with (w + (nth j dists 0 - nth (S i) dists 0))%N by lia. econstructor; eauto.
  Qed.
  Lemma follow_fix p e re D x l : tpath n M re D (gpp p) x l -> same order re e -> forall u fuel, same order x u -> length l <= S fuel ->
    exists q, fix_follow order rks fuel p u e = Some q /\ (D re <= D x)%N /\ npath arc u (u :: q) e (D x - D re).
  Proof.
    intros T Se. induction T as [Hr|x y w l Hx Hxn Hp Ha HD Hl IH]; intros u fuel Su Lf.
    - assert (u = e) by (eapply same_inj; eauto). subst u. exists []. rewrite N.sub_diag. split; [|split; [lia|constructor]]. destruct fuel; cbn [fix_follow]; rewrite Nat.eqb_refl; auto.
    - destruct (tpath_hd _ _ _ _ _ _ _ Hl) as (q & Eq). cbn [length] in Lf. destruct fuel as [|fuel]; [rewrite Eq in Lf; cbn [length] in Lf; lia|].
      destruct Ha as (u' & v & Su' & Sv & Ha). assert (u' = u) by (eapply same_inj; eauto). subst u'. destruct (IH v fuel Sv ltac:(lia)) as (q' & E & L & P).
      exists (v :: q'). cbn [fix_follow]. destruct (Nat.eqb_spec u e) as [->|Ne]. { exfalso. apply Hx. apply (same_inj' madj order rks HO _ _ e); auto. }
      destruct HO as (_ & _ & O1 & _). rewrite (O1 _ _ Su). cbn [bind]. rewrite (gpp_pred _ _ _ Hp). cbn [bind]. unfold same in Sv. rewrite Sv. cbn [bind]. rewrite E. cbn [bind]. split; auto. split; [lia|].
      replace (D x - D re)%N with (w + (D y - D re))%N by lia. econstructor; eauto.
  Qed.

  Section Orig.
    Variable orig : list nat.
    Variable dists : list N.
    Variable x : N.
    Hypothesis So : sums arc orig dists.
    Hypothesis Hlast : nth (length orig - 1) dists 0%N = x.
    Hypothesis Hx : (x < INF)%N.
    Hypothesis Hon : Forall (fun v => v < n) orig.
    Notation X i := (nth i orig 0).
    Notation dd i := (nth i dists 0%N).
    Definition imp (r : prange) : Prop := fst r < snd r < length orig /\ exists d, is_dist arc (X (fst r)) (X (snd r)) d /\ (d < dd (snd r) - dd (fst r))%N.
    (** [fixed] replaces the first [pushed] nodes, [c] shorter *)
    Definition done (c : N) (fixed : list nat) (pushed : nat) : Prop :=
      pushed = 0 /\ fixed = [] /\ c = 0%N \/ 0 < pushed <= length orig /\ exists l, npath arc (X 0) fixed (X (pushed - 1)) l /\ (l + c <= dd (pushed - 1))%N.
    Lemma done_extend c fixed pushed a : done c fixed pushed -> pushed <= a + 1 -> a < length orig ->
      slice orig pushed (a + 1) = Some (firstn (a + 1 - pushed) (skipn pushed orig)) /\ exists l, npath arc (X 0) (fixed ++ firstn (a + 1 - pushed) (skipn pushed orig)) (X a) l /\ (l + c <= dd a)%N.
    Proof.
      intros HD Hp Ha. split. { unfold slice. rewrite (proj2 (Nat.leb_le _ _)) by lia. rewrite (proj2 (Nat.leb_le _ _)) by lia. reflexivity. }
      destruct HD as [(-> & -> & ->)|(Hr & l & P & L)].
      - pose proof (sums_npath orig dists 0 a So ltac:(lia) Ha) as P. exists (dd a - dd 0)%N. split; [|lia]. cbn [app]. replace (a + 1 - 0) with (S (a - 0)) by lia. rewrite (skipn_at orig 0) by lia. cbn [firstn]. exact P.
      - pose proof (sums_npath orig dists (pushed - 1) a So ltac:(lia) Ha) as P2. replace (S (pushed - 1)) with pushed in P2 by lia. replace (a - (pushed - 1)) with (a + 1 - pushed) in P2 by lia.
        destruct (sums_plen arc orig dists (pushed - 1) a So ltac:(lia)). eexists. split; [eapply npath_app; eauto|lia].
    Qed.
    Lemma fix_seg_ok p c fixed pushed r : It p -> done c fixed pushed -> imp r -> pushed <= fst r + 1 ->
      exists p' fixed', fix_seg dbg order rks orig (p, fixed, pushed) r = Some (p', fixed', snd r + 1) /\ It p' /\ done 1 fixed' (snd r + 1).
    Proof.
      intros Hp HD (Hr & d & Hd & Hlt) Hpu. destruct (done_extend c fixed pushed (fst r) HD Hpu ltac:(lia)) as (Es & l & P & L). unfold fix_seg. rewrite Es. cbn [bind].
      set (f1 := fixed ++ _) in *. rewrite (nth_error_nth' orig 0 (n := snd r)) by lia. cbn [bind]. rewrite Forall_forall in Hon.
      destruct (same_ex madj order rks HO (X (snd r)) ltac:(rewrite Ln; apply Hon, nth_In; lia)) as (e & Ee & Se). destruct (same_ex madj order rks HO (X (fst r)) ltac:(rewrite Ln; apply Hon, nth_In; lia)) as (b & Eb & Sb).
      rewrite Ee. cbn [bind]. rewrite (nth_error_nth' orig 0 (n := fst r)) by lia. cbn [bind]. rewrite Eb. cbn [bind].
      destruct (same_lt madj order rks HO _ _ Se) as [Le _], (same_lt madj order rks HO _ _ Sb) as [Lb _]. rewrite Ln in Le, Lb.
      destruct (HTt e p Le Hp) as (p1 & D & K & E1 & K1 & KI & H1). rewrite E1. cbn [bind].
      assert (W : walk M b e d) by (apply (walk_same madj order rks HV HO _ _ _ _ _ Sb Se), Hd).
      assert (Hdi : (d < INF)%N). { destruct (sums_plen arc orig dists (snd r) (length orig - 1) So ltac:(lia)). lia. }
      destruct (H1 b d Lb W Hdi) as (Hdist & _ & H3). destruct (H3 p1 K1) as (p2 & path & E2 & K2 & _ & T). rewrite E2. cbn [bind].
      destruct (npath_ends _ _ _ _ P) as (_ & Hl & _). rewrite Hl. cbn [bind].
      destruct HO as (_ & Lr & _). destruct (follow_fix p2 _ e D b path T Se (X (fst r)) (length rks) Sb) as (q & Eq & LD & Pq). { pose proof (tpath_len _ _ _ _ _ _ _ T). lia. }
      rewrite Eq. cbn [bind]. eexists _, _. split; [reflexivity|]. split; auto. right. split; [lia|]. replace (snd r + 1 - 1) with (snd r) by lia. eexists. split; [eapply npath_app; eauto|].
      assert (d = D b). { apply (is_dist_same madj order rks HV HO _ _ _ _ _ Sb Se) in Hdist. eapply is_dist_det; eauto. } lia.
    Qed.
    Lemma fix_segs_ok : forall rs un p c fixed pushed, It p -> done c fixed pushed -> pushed <= un + 1 -> (forall r, In r rs -> imp r) ->
      exists p' fixed' pushed', foldM (fix_seg dbg order rks orig) (disjoint un rs) (p, fixed, pushed) = Some (p', fixed', pushed') /\ It p' /\
        (disjoint un rs = [] /\ fixed' = fixed /\ pushed' = pushed \/ done 1 fixed' pushed').
    Proof.
      induction rs as [|r rs IH]; intros un p c fixed pushed Hp HD Hu Hi; cbn [disjoint]. { exists p, fixed, pushed. split; [reflexivity|]. auto. }
      destruct (Nat.leb_spec un (fst r)) as [Hle|Hgt].
      - cbn [foldM]. destruct (fix_seg_ok p c fixed pushed r Hp HD (Hi r (or_introl eq_refl)) ltac:(lia)) as (p1 & f1 & E & I1 & D1). rewrite E. cbn [bind].
        destruct (IH (snd r) p1 1%N f1 (snd r + 1) I1 D1 ltac:(lia) ltac:(intros; apply Hi; cbn; auto)) as (p2 & f2 & pu2 & E2 & I2 & H2). exists p2, f2, pu2. split; auto. split; auto. right. destruct H2 as [(_ & -> & ->)|]; auto.
      - apply (IH un p c); auto. intros; apply Hi; cbn; auto.
    Qed.
  End Orig.

  Variable sort_start : list prange -> list prange.
  Hypothesis Hss : cmp_sort (fun a b => fst a <? fst b) sort_start.
  Lemma fix_once_ok u orig x : OK u -> Forall (fun v => v < n) orig -> plen arc orig x -> (x < INF)%N ->
    exists u' o, fix_once dbg g order rks sort sort_start thr u orig = Some (u', o) /\ OK u' /\
      match o with
      | None => fine arc thr orig
      | Some p => ~ fine arc thr orig /\ same_ends orig p /\ Forall (fun v => v < n) p /\ exists y, plen arc p y /\ (y < x)%N
      end.
  Proof.
    intros HU Hon P Hx. unfold fix_once. destruct (path_dists_ok madj g HV HF HW Hg dbg orig x P Hx) as (dists & _ & So & Hl).
    assert (Lo : 0 < length orig) by (destruct P; cbn; lia).
    assert (Hf : exists u' r, cubs_find dbg g rks sort thr u orig = Some (u', r) /\ OK u' /\ (forall q, In q r -> imp orig dists q) /\ (r = [] -> fine arc thr orig) /\ (r <> [] -> ~ fine arc thr orig)).
    { destruct (ListDec.NoDup_dec Nat.eq_dec orig) as [ND|ND].
      - destruct (cubs_find_simple adj madj order rks g Ln HV HF HW Hg HO Hpos dbg It Is HTt HTs sort Hsort thr Hthr u orig HU ND Hon (or_intror (ex_intro _ x (conj P Hx)))) as (u' & r & E & HU' & _ & LM).
        exists u', r. split; auto. split; auto. split; [|split].
        + intros [a b] Hq. apply LM in Hq. destruct Hq as [(Hab & v1 & v2 & y & d & H1 & H2 & H3 & H4 & H5) _]. cbn [fst snd] in *. pose proof (nth_error_Some_lt _ _ _ H2). split; cbn [fst snd]; [lia|]. exists d.
          rewrite (nth_error_nth _ _ 0 H1), (nth_error_nth _ _ 0 H2). split; auto. destruct (sums_plen arc orig dists a b So ltac:(lia)) as [P' _]. rewrite (plen_det _ _ _ H3 _ P') in H5. lia.
        + intros ->. split; auto. intros q Hq. apply (minimal_below (violates arc thr orig) ltac:(intros z [Hz _]; exact Hz) q Hq). intros (z & Hz & _). apply LM in Hz. destruct Hz.
        + intros Hr [_ Hn]. destruct r as [|q r]; auto. apply (Hn q). apply (proj1 (LM q)). cbn; auto.
      - destruct (cubs_find_repeat adj madj order rks g Ln HW HO dbg It Is sort thr u orig HU ND Hon) as (u' & r & E & HU' & Hne & _ & LM).
        exists u', r. split; auto. split; auto. split; [|split; [intros; contradiction|intros _ [H _]; contradiction]].
        intros [a b] Hq. apply LM in Hq. destruct Hq as (Hab & v & H1 & H2 & _). cbn [fst snd] in *. pose proof (nth_error_Some_lt _ _ _ H2). split; cbn [fst snd]; [lia|]. exists 0%N.
        rewrite (nth_error_nth _ _ 0 H1), (nth_error_nth _ _ 0 H2). split. { split; [constructor|lia]. } destruct So as (L & Z & S1). destruct (S1 a ltac:(lia)) as (w & [HA _] & Ew).
        pose proof (Hpos _ _ _ (in_nth_list _ _ _ HA) HA). destruct (sums_plen arc orig dists (S a) b (conj L (conj Z S1)) ltac:(lia)). lia. }
    destruct Hf as (u' & r & E & HU' & Hi & F1 & F2). rewrite E. cbn [bind]. destruct r as [|r0 r]. { exists u', None. split; auto. }
    destruct (fix_segs_ok orig dists x So Hl Hx Hon (sort_start (r0 :: r)) 0 (cu_t u') 0%N [] 0 (co_t _ _ _ _ HU')) as (p' & f & pu & Ef & Ip & Hd); auto. { left. auto. }
    { lia. }
    { intros q Hq. apply Hi. destruct (Hss (r0 :: r)) as [Pm _]. eapply Permutation_in; [symmetry; exact Pm|auto]. }
    rewrite Ef. cbn [bind].
    assert (Hd1 : done orig dists 1 f pu). { destruct Hd as [(Hnil & _)|]; auto. exfalso. destruct (Hss (r0 :: r)) as [Pm _]. destruct (sort_start (r0 :: r)) as [|q qs]; [|discriminate]. apply Permutation_length in Pm. discriminate. }
    destruct (done_extend orig dists x So Hl Hx 1%N f pu (length orig - 1) Hd1) as (Es & l & Pn & L); [|lia|].
    { destruct Hd1 as [(-> & _)|(? & _)]; lia. }
    replace (length orig - 1 + 1) with (length orig) in Es, Pn by lia. rewrite Es. cbn [bind]. eexists _, _. split; [reflexivity|]. split. { destruct HU'. constructor; auto. }
    split. { apply F2. discriminate. } assert (H0 : nth 0 orig 0 < n). { rewrite Forall_forall in Hon. apply Hon, nth_In. lia. }
    split; [|split; [eapply npath_lt; eauto|]].
    - destruct (npath_ends _ _ _ _ Pn) as (A & _ & C). pose proof (sums_npath orig dists 0 (length orig - 1) So ltac:(lia) ltac:(lia)) as Po. destruct (npath_ends _ _ _ _ Po) as (A' & _ & C').
      assert (Eo : nth 0 orig 0 :: firstn (length orig - 1 - 0) (skipn 1 orig) = orig). { destruct orig as [|v o]; [cbn in Lo; lia|]. cbn [nth skipn length]. f_equal. apply firstn_all2. cbn [length]. lia. }
      rewrite Eo in A', C'. split; congruence.
    - destruct (npath_plen _ _ _ _ Pn) as (y & Py & Ly). exists y. split; auto. lia.
  Qed.
  Lemma fix_paths_ok u orig x : OK u -> Forall (fun v => v < n) orig -> plen arc orig x -> (x < INF)%N ->
    exists u' o, fix_paths dbg g order rks sort sort_start thr u orig = Some (u', o) /\ OK u' /\
      match o with
      | None => fine arc thr orig
      | Some p => ~ fine arc thr orig /\ fine arc thr p /\ same_ends orig p /\ exists y, plen arc p y /\ (y < x)%N
      end.
  Proof.
    intros HU Hon P Hx. unfold fix_paths. set (cur := fun o : option (list nat) => match o with Some p => p | None => orig end).
    match goal with |- context [loopN INF ?st _] => destruct (loopN_ghost st
      (fun y '(u, o) => OK u /\ Forall (fun v => v < n) (cur o) /\ plen arc (cur o) y /\ (y <= x)%N /\ same_ends orig (cur o) /\ match o with Some _ => ~ fine arc thr orig /\ (y < x)%N | None => True end)
      (fun '(u, o) => OK u /\ match o with None => fine arc thr orig | Some p => ~ fine arc thr orig /\ fine arc thr p /\ same_ends orig p /\ exists y, plen arc p y /\ (y < x)%N end)
      (fun y => y) INF x (u, None)) as ([u' o] & E & H) end.
    - intros y [u1 o] (U1 & Fo & Py & Ly & SE & Ho). destruct (fix_once_ok u1 (cur o) y U1 Fo Py ltac:(lia)) as (u2 & o2 & E & U2 & H2). change (match o with Some p => p | None => orig end) with (cur o). rewrite E. cbn [bind].
      destruct o2 as [p|].
      + destruct H2 as (Nf & SE2 & Fp & y2 & Py2 & Ly2). eexists. split; [reflexivity|]. cbn beta iota. exists y2. split; [|lia]. cbn [cur]. split; auto. split; auto. split; auto. split; [lia|]. split. { destruct SE, SE2. split; congruence. }
        split; [|lia]. destruct o as [p0|]; [tauto|auto].
      + eexists. split; [reflexivity|]. cbn beta iota. split; auto. destruct o as [p0|]; auto. cbn [cur] in *. destruct Ho. split; auto. split; auto. split; auto. exists y. auto.
    - cbn [cur]. split; auto. split; auto. split; auto. split; [lia|]. split; auto. split; auto.
    - lia.
    - exists u', o. split; [exact E|]. exact H.
  Qed.
End Search.
