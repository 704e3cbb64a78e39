(** Invariants of a Dijkstra search that walks through nodes of low degree without queueing them. *)
From Verif Require Import Base SpecPQ SpecGraph IndexHeap IndexHeapProof TsVec TsVecProof Dijkstra LoopProof DijkstraRef DijkstraProof DijServer PLF TopoDij.

(** * Single updates of the search state *)
Section RSteps.
  Context {P : Type}.
  Variable n : nat.
  Notation R := (@R P n).

  Lemma R_label d st v x pp : R d st -> v < n -> (x < aD st v)%N ->
    exists t pr, ts_modify N INF (d_dist d) v (fun l => if (x <? l)%N then x else l) = Some t /\ ts_get N INF t v = Some x /\
      set_at (d_pred d) v pp = Some pr /\ R (mkDij t pr (d_queue d)) (mkA (fupd (aD st) v x) (fupd (aD st) v x) (fupd (aP st) v pp) (aQ st)).
  Proof.
    intros [RD RL RP RH RQ] Hv Hx.
    destruct (ts_modify_spec N INF n (d_dist d) (aD st) v (fun l => if (x <? l)%N then x else l) RD Hv) as (t & Et & RT).
    assert (RT' : TInv N INF n t (fupd (aD st) v x)). { eapply TInv_ext; [|exact RT]. intros i Hi. cbn beta. unfold fupd. apply N.ltb_lt in Hx. rewrite Hx. auto. }
    rewrite set_at_lt by lia. exists t, (upd (d_pred d) v pp). split; auto. split.
    { rewrite (ts_get_spec N INF n _ _ v RT'). rewrite (proj2 (Nat.ltb_lt _ _) Hv), fupd_eq. auto. }
    split; auto. split; cbn [d_dist d_pred d_queue aD aP aQ]; auto. { rewrite upd_length; auto. }
    intros w Hw. rewrite nth_error_upd. unfold fupd. rewrite (Nat.eqb_sym w). destruct (Nat.eqb_spec v w) as [->|]; cbn [andb]; auto.
    destruct (Nat.ltb_spec w (length (d_pred d))); [auto|lia].
  Qed.

  Lemma R_nolabel d st v x : R d st -> v < n -> (aD st v <= x)%N ->
    exists t, ts_modify N INF (d_dist d) v (fun l => if (x <? l)%N then x else l) = Some t /\ R (mkDij t (d_pred d) (d_queue d)) st.
  Proof.
    intros [RD RL RP RH RQ] Hv Hx.
    destruct (ts_modify_spec N INF n (d_dist d) (aD st) v (fun l => if (x <? l)%N then x else l) RD Hv) as (t & Et & RT).
    exists t. split; auto. split; cbn [d_dist d_pred d_queue]; auto.
    eapply TInv_ext; [|exact RT]. intros i Hi. cbn. destruct (Nat.eqb_spec i v) as [->|]; auto. destruct (N.ltb_spec x (aD st v)); auto. lia.
  Qed.

  Lemma R_get d st v : R d st -> v < n -> ts_get N INF (d_dist d) v = Some (aD st v).
  Proof. intros HR Hv. rewrite (ts_get_spec N INF n _ _ v (r_dist n d st HR)). rewrite (proj2 (Nat.ltb_lt _ _) Hv). auto. Qed.

  Lemma R_contains d st v : R d st -> v < n -> hcontains (d_queue d) v = Some (match aQ st v with Some _ => true | None => false end).
  Proof. intros [RD RL RP RH RQ] Hv. rewrite (hcontains_abs state st_idx st_ltb n) by auto. rewrite RQ. destruct (aQ st v); auto. Qed.

  Lemma R_queue d st v k : R d st -> v < n -> (forall k', aQ st v = Some k' -> (k <= k')%N) ->
    exists c q, hcontains (d_queue d) v = Some c /\
      (if c : bool then hdecrease state st_idx st_ltb (d_queue d) (k, v) else hpush state st_idx st_ltb (d_queue d) (k, v)) = Some q /\
      R (mkDij (d_dist d) (d_pred d) q) (mkA (aD st) (aD st) (aP st) (fupd (aQ st) v (Some k))).
  Proof.
    intros HR Hv Hk. rewrite (R_contains d st v HR Hv). destruct HR as [RD RL RP RH RQ].
    destruct (aQ st v) as [k'|] eqn:Hq.
    - destruct (hdecrease_spec state st_idx st_ltb st_order n (d_queue d) (k, v) (k', v) RH) as (q & Eq & Iq & Aq).
      { cbn. rewrite RQ, Hq. auto. } { specialize (Hk k' eq_refl). unfold st_ltb; cbn [fst snd]. rewrite Nat.ltb_irrefl, andb_false_r, orb_false_r. lia. }
      exists true, q. split; auto. split; auto. split; cbn [d_dist d_pred d_queue aD aP aQ]; auto.
      intros w. rewrite Aq. unfold put, fupd; cbn. rewrite RQ. destruct (Nat.eqb_spec w v) as [->|]; auto.
    - destruct (hpush_spec state st_idx st_ltb st_order n (d_queue d) (k, v) RH) as (q & Eq & Iq & Aq); auto.
      { cbn. rewrite RQ, Hq. auto. }
      exists false, q. split; auto. split; auto. split; cbn [d_dist d_pred d_queue aD aP aQ]; auto.
      intros w. rewrite Aq. unfold put, fupd; cbn. rewrite RQ. destruct (Nat.eqb_spec w v) as [->|]; auto.
  Qed.

  Lemma R_pop d st : R d st ->
    (hpop state st_idx st_ltb (d_queue d) = Some (d_queue d, None) /\ forall v, aQ st v = None) \/
    exists q u k, hpop state st_idx st_ltb (d_queue d) = Some (q, Some (k, u)) /\ aQ st u = Some k /\ u < n /\
      (forall v k', aQ st v = Some k' -> (k <= k')%N) /\ R (mkDij (d_dist d) (d_pred d) q) (popA st u).
  Proof.
    intros HR. pose proof HR as [RD RL RP RH RQ].
    destruct (hpop_spec state st_idx st_ltb st_order n (d_queue d) RH) as [[EP ED]|(q & [k u] & EP & Iq & Hmin & Aq)].
    - left. split; [auto|]. intros v. destruct (aQ st v) as [k|] eqn:Hq; auto. specialize (RQ v). rewrite Hq in RQ. cbn in RQ.
      unfold abs in RQ. rewrite ED in RQ. destruct (nth_error (positions (d_queue d)) v) as [[i|]|]; try discriminate. destruct i; discriminate.
    - right. destruct Hmin as [Hm1 Hm2]. cbn [st_idx snd] in Hm1. rewrite RQ in Hm1. unfold st_idx in Hm1; cbn [snd] in Hm1. destruct (aQ st u) as [k0|] eqn:Hq; cbn in Hm1; [|discriminate]. injection Hm1 as ->.
      exists q, u, k. split; auto. split; auto. split. { apply (R_queue_lt n d st u k HR Hq). } split.
      + intros v k' Hk'. specialize (Hm2 v (k', v)). rewrite RQ, Hk' in Hm2. specialize (Hm2 eq_refl). unfold st_ltb in Hm2; cbn [fst snd] in Hm2. lia.
      + split; cbn [d_dist d_pred d_queue popA aD aP aQ]; auto. intros v. rewrite Aq. unfold del, fupd, st_idx; cbn. rewrite RQ. destruct (v =? u); auto.
  Qed.

  Lemma R_peek d st : R d st ->
    match hpeek (d_queue d) with
    | None => forall v, aQ st v = None
    | Some (k, u) => aQ st u = Some k /\ forall v k', aQ st v = Some k' -> (k <= k')%N
    end.
  Proof.
    intros HR. pose proof HR as [_ _ _ RH RQ]. unfold hpeek. destruct (nth_error (data (d_queue d)) 0) as [[k u]|] eqn:Er.
    - pose proof (inv_wf _ _ _ _ _ RH) as W. split.
      + assert (X : abs state (d_queue d) u = Some (k, u)). { apply (abs_In' state st_idx); auto. split; auto. eapply nth_error_In; eauto. }
        rewrite RQ in X. destruct (aQ st u) as [k'|]; cbn in X; congruence.
      + intros v k' Hq. assert (X : abs state (d_queue d) v = Some (k', v)) by (rewrite RQ, Hq; auto).
        apply (abs_In' state st_idx) in X; auto. destruct X as [X _]. apply In_nth_error in X. destruct X as (j & Hj).
        pose proof (root_min state st_idx st_ltb st_order (data (d_queue d)) ltac:(apply RH) j (k, u) (k', v) Er Hj) as Y.
        unfold st_ltb in Y; cbn [fst snd] in Y. lia.
    - intros v. destruct (aQ st v) as [k|] eqn:Hq; auto. specialize (RQ v). rewrite Hq in RQ. cbn in RQ.
      apply (abs_In' state st_idx) in RQ; [|apply RH]. destruct (data (d_queue d)); [destruct RQ as [[] _]|discriminate].
  Qed.
  Lemma R_ext d st st' : R d st -> (forall v, v < n -> aD st' v = aD st v /\ aP st' v = aP st v) -> (forall v, aQ st' v = aQ st v) -> R d st'.
  Proof.
    intros [RD RL RP RH RQ] H HQ. split; auto.
    - eapply TInv_ext; [|exact RD]. intros i Hi. symmetry. apply H; auto.
    - intros v Hv. rewrite RP by auto. f_equal. symmetry. apply H; auto.
    - intros v. rewrite RQ, HQ. auto.
  Qed.
End RSteps.

(** * The arcs through which a skipped node is left *)
Section Others.
  Context {A : Type}.
  Variable hd : A -> nat.
  Definition others (u : nat) (ls : list A) : list A := filter (fun b => negb (hd b =? u)) ls.

  Lemma last_other_spec u ls : length (others u ls) <= 1 -> others u ls = match last_other hd u ls with Some a => [a] | None => [] end.
  Proof.
    unfold last_other. assert (G : forall o, fold_left (fun o a => if negb (hd a =? u) then Some a else o) ls o = fold_left (fun o a => Some a) (others u ls) o).
    { induction ls as [|a ls IH]; intros o; cbn [fold_left others filter]; auto. rewrite IH. unfold others. destruct (negb (hd a =? u)); auto. }
    rewrite G. destruct (others u ls) as [|a [|b l]]; cbn; auto. lia.
  Qed.
  Lemma first_others_spec u ls : length (others u ls) <= 2 ->
    others u ls = match first_others hd u ls with (Some a, Some b) => [a; b] | (Some a, None) => [a] | (None, _) => [] end /\
    (fst (first_others hd u ls) = None -> snd (first_others hd u ls) = None).
  Proof.
    unfold first_others. set (F := fun '(f, g) (a : A) => _).
    assert (G : forall o, fold_left F ls o = fold_left (fun '(f, g) a => match f with None => (Some a, g) | Some _ => (f, Some a) end) (others u ls) o).
    { induction ls as [|a ls IH]; intros (f & g); cbn [fold_left others filter]; auto. rewrite IH. unfold F, others. destruct (negb (hd a =? u)); auto. }
    rewrite G. destruct (others u ls) as [|a [|b [|c l]]]; cbn; try lia; (split; [auto|]); intros; try discriminate; auto.
  Qed.
  Lemma others_in u ls a : In a (others u ls) <-> In a ls /\ hd a <> u.
  Proof. unfold others. rewrite filter_In, negb_true_iff, Nat.eqb_neq. tauto. Qed.
End Others.

(** * The search *)
Section Topo.
  Context {A P E : Type}.
  Variable n : nat.
  Variable links : nat -> option (list A).
  Variable hd : A -> nat.
  Variable lk : nat -> N -> A -> option N.
  Variable pl : A -> P.
  Variable sdeg : nat -> option symdeg.
  Variables skip2 skip3 : bool.
  Variable pot : E -> nat -> option (E * option N).
  Variable nb : nat -> list A.
  Variable slk : nat -> N -> A -> N.
  Variable pi : nat -> option N.
  Variable s : nat.
  Variable d0 : N.
  Variable J0 : E -> Prop.
  Hypothesis HS : search_ok n links hd lk all_edges no_cb pot nb slk pi s d0 (fun _ _ e => J0 e).
  Hypothesis Hs : s < n.
  Hypothesis Hd0 : (d0 < INF)%N.
  (** what the reported degrees must mean for the search: coming from [u], a node of degree two is left through
      at most one arc, a node of degree three through at most two *)
  Hypothesis Hsd : forall v, v < n -> sdeg v <> None.
  Hypothesis Hdeg2 : forall u a, u < n -> In a (nb u) -> skip2 = true -> sdeg (hd a) = Some LessEqTwo -> length (others hd u (nb (hd a))) <= 1.
  Hypothesis Hdeg3 : forall u a, u < n -> In a (nb u) -> skip3 = true -> sdeg (hd a) = Some Three -> length (others hd u (nb (hd a))) <= 2.
  (** the part of the graph the search can reach, closed under arcs; the labels [fD] and predecessors [fP] of other nodes
      (left behind by earlier searches) are never touched; [Cl]: nodes whose arcs are claimed to be relaxed once they have
      left the queue; [ps]: predecessor entry of the source *)
  Variable V : nat -> bool.
  Variables (fD : nat -> N) (fP : nat -> nat * P) (Cl : nat -> Prop) (ps : nat * P).
  Hypothesis HVs : V s = true.
  Hypothesis HVc : forall u a, u < n -> V u = true -> In a (nb u) -> V (hd a) = true.
  Set Default Proof Using "All".

  Let thd := Hhd n links hd lk pl all_edges no_cb pot nb slk pi s d0 _ HS Hs Hd0.
  Let text := Hext n links hd lk pl all_edges no_cb pot nb slk pi s d0 _ HS Hs Hd0.
  Let tlk := Hlk n links hd lk pl all_edges no_cb pot nb slk pi s d0 _ HS Hs Hd0.
  Let tmono := Hmono n links hd lk pl all_edges no_cb pot nb slk pi s d0 _ HS Hs Hd0.
  Let tpi := Hpi n links hd lk pl all_edges no_cb pot nb slk pi s d0 _ HS Hs Hd0.
  Let tlinks := Hlinks n links hd lk pl all_edges no_cb pot nb slk pi s d0 _ HS Hs Hd0.
  Let ttree := tree_update n links hd lk pl all_edges no_cb pot nb slk pi s d0 _ HS Hs Hd0.

  Notation gst := (gstep n hd all_edges nb slk).
  Notation reach' := (reach gst).
  Notation tree' := (tree n hd pl all_edges nb slk s).

  (** the state of the whole search data, given that of the part *)
  Definition merge (st : ast P) : ast P :=
    mkA (fun v => if V v then aD st v else fD v) (fun v => if V v then aD st v else fD v) (fun v => if V v then aP st v else fP v) (aQ st).
  Definition RV (d : dij P) (st : ast P) : Prop := R n d (merge st).
  Lemma V_label d st v x pp : RV d st -> v < n -> V v = true -> (x < aD st v)%N ->
    exists t pr, ts_modify N INF (d_dist d) v (fun l => if (x <? l)%N then x else l) = Some t /\ ts_get N INF t v = Some x /\
      set_at (d_pred d) v pp = Some pr /\ RV (mkDij t pr (d_queue d)) (mkA (fupd (aD st) v x) (fupd (aD st) v x) (fupd (aP st) v pp) (aQ st)).
  Proof.
    intros HR Hv HVv Hx. destruct (R_label n d (merge st) v x pp HR Hv) as (t & pr & E1 & E2 & E3 & R1). { cbn [merge aD]. rewrite HVv. auto. }
    exists t, pr. split; auto. split; auto. split; auto. eapply R_ext; [exact R1| |auto]. intros y Hy. cbn [merge aD aP]. unfold fupd.
    destruct (Nat.eqb_spec y v) as [->|]; auto. rewrite HVv. auto.
  Qed.
  Lemma V_nolabel d st v x : RV d st -> v < n -> V v = true -> (aD st v <= x)%N ->
    exists t, ts_modify N INF (d_dist d) v (fun l => if (x <? l)%N then x else l) = Some t /\ RV (mkDij t (d_pred d) (d_queue d)) st.
  Proof. intros HR Hv HVv Hx. apply (R_nolabel n d (merge st) v x HR Hv). cbn [merge aD]. rewrite HVv. auto. Qed.
  Lemma V_get d st v : RV d st -> v < n -> ts_get N INF (d_dist d) v = Some (if V v then aD st v else fD v).
  Proof. intros HR Hv. apply (R_get n d (merge st) v HR Hv). Qed.
  Lemma V_get' d st v : RV d st -> v < n -> V v = true -> ts_get N INF (d_dist d) v = Some (aD st v).
  Proof. intros HR Hv HVv. rewrite (V_get d st v HR Hv), HVv. auto. Qed.
  Lemma V_contains d st v : RV d st -> v < n -> hcontains (d_queue d) v = Some (match aQ st v with Some _ => true | None => false end).
  Proof. intros HR Hv. apply (R_contains n d (merge st) v HR Hv). Qed.
  Lemma V_queue d st v k : RV d st -> v < n -> (forall k', aQ st v = Some k' -> (k <= k')%N) ->
    exists c q, hcontains (d_queue d) v = Some c /\
      (if c : bool then hdecrease state st_idx st_ltb (d_queue d) (k, v) else hpush state st_idx st_ltb (d_queue d) (k, v)) = Some q /\
      RV (mkDij (d_dist d) (d_pred d) q) (mkA (aD st) (aD st) (aP st) (fupd (aQ st) v (Some k))).
  Proof. intros HR Hv Hk. destruct (R_queue n d (merge st) v k HR Hv Hk) as (c & q & E1 & E2 & R1). exists c, q. auto. Qed.
  Lemma V_pop d st : RV d st ->
    (hpop state st_idx st_ltb (d_queue d) = Some (d_queue d, None) /\ forall v, aQ st v = None) \/
    exists q u k, hpop state st_idx st_ltb (d_queue d) = Some (q, Some (k, u)) /\ aQ st u = Some k /\ u < n /\
      (forall v k', aQ st v = Some k' -> (k <= k')%N) /\ RV (mkDij (d_dist d) (d_pred d) q) (popA st u).
  Proof.
    intros HR. destruct (R_pop n d (merge st) HR) as [X|(q & u & k & E1 & E2 & E3 & E4 & R1)]; [left; auto|right]. exists q, u, k. repeat (split; [assumption|]).
    eapply R_ext; [exact R1| |]; auto.
  Qed.
  Lemma V_peek d st : RV d st ->
    match hpeek (d_queue d) with
    | None => forall v, aQ st v = None
    | Some (k, u) => aQ st u = Some k /\ forall v k', aQ st v = Some k' -> (k <= k')%N
    end.
  Proof. intros HR. apply (R_peek n d (merge st) HR). Qed.
  Lemma reach_V v d : reach' s d0 v d -> V v = true.
  Proof. induction 1 as [|v d y dd H IH (Hv & a & Ha & _ & <- & _)]; auto. apply (HVc v a); auto. Qed.

  (** skipped even if queued (only the source may be queued) *)
  Definition skipped (v : nat) : Prop := skip2 = true /\ sdeg v = Some LessEqTwo.

  Record TopoInv (pend : list (nat * A)) (st : ast P) : Prop := {
    t_D : forall v, (d0 <= aD st v <= INF)%N;
    t_s : aD st s = d0;
    t_out : forall v, n <= v -> aD st v = INF /\ aQ st v = None;
    t_reach : forall v, (aD st v < INF)%N -> reach' s d0 v (aD st v);
    t_key : forall v k, aQ st v = Some k -> (aD st v < INF)%N /\
      ((exists p, pi v = Some p /\ k = p + aD st v)%N \/ v = s /\ k = d0);
    t_nq : forall v, aQ st v <> None -> v = s \/ ~ skipped v;
    t_sp : aP st s = ps;
    t_closed : forall v a, Cl v -> v < n -> (aD st v < INF)%N -> aQ st v = None -> pi v <> None \/ v = s ->
      In a (nb v) -> In (v, a) pend \/ (aD st (hd a) <= slk v (aD st v) a)%N;
    t_tree : forall v, (aD st v < INF)%N -> tree' (aD st) (aP st) v;
    t_pend : forall v a, In (v, a) pend -> v < n /\ In a (nb v) /\ (aD st v < INF)%N }.

  Lemma t_V pend st v : TopoInv pend st -> (aD st v < INF)%N -> V v = true.
  Proof. intros T H. apply (reach_V v (aD st v)). apply (t_reach _ _ T v H). Qed.

  (** an arc that does not improve its head *)
  Lemma T_keep u a pend st : TopoInv ((u, a) :: pend) st -> (aD st (hd a) <= slk u (aD st u) a)%N -> TopoInv pend st.
  Proof.
    intros T H. destruct T. split; auto.
    - intros v b H0 H1 H2 H3 H4 H5. destruct (t_closed0 v b H0 H1 H2 H3 H4 H5) as [[[= <- <-]|X]|X]; auto.
    - intros v b H1. apply t_pend0. right; auto.
  Qed.

  (** an arc that improves its head *)
  Lemma T_improve u a pend st x Q' new : TopoInv ((u, a) :: pend) st -> slk u (aD st u) a = x -> (x < aD st (hd a))%N ->
    (forall y, y <> hd a -> Q' y = aQ st y) ->
    (forall b, In b new -> In b (nb (hd a))) ->
    (new = [] /\ ~ skipped (hd a) /\ (exists p, pi (hd a) = Some p /\ Q' (hd a) = Some (p + x)%N) \/
     Q' (hd a) = None /\ aQ st (hd a) = None /\ (pi (hd a) = None \/ forall b, In b (nb (hd a)) -> hd b <> u -> In b new)) ->
    let st' := mkA (fupd (aD st) (hd a) x) (fupd (aD st) (hd a) x) (fupd (aP st) (hd a) (u, pl a)) Q' in
    TopoInv (map (pair (hd a)) new ++ pend) st' /\ (M n st' + (if match Q' (hd a) with Some _ => true | None => false end then 1 else 2) <= M n st)%N.
  Proof.
    intros T Hsx Hlt HQ Hnew Hcase st'. set (v := hd a) in *.
    destruct (t_pend _ _ T u a ltac:(left; auto)) as (Hu & Ha & HDu).
    assert (Hv : v < n) by (apply (thd u a); auto).
    pose proof (text u a (aD st u) Hu Ha) as Xu.
    pose proof (t_D _ _ T) as TD. pose proof (TD v) as TDv.
    assert (HxI : (x < INF)%N) by lia.
    assert (Hvs : v <> s). { intros E1. rewrite E1 in Hlt. rewrite (t_s _ _ T) in Hlt. specialize (TD u). lia. }
    assert (Huv : u <> v). { intros E1. rewrite <- E1 in Hlt. lia. }
    split.
    - split; cbn [aD aA aP aQ st'].
      + intros y. unfold fupd. destruct (y =? v). { specialize (TD u). lia. } apply TD.
      + rewrite fupd_neq by auto. apply (t_s _ _ T).
      + intros y Hy. destruct (t_out _ _ T y Hy). rewrite fupd_neq, HQ by lia. auto.
      + intros y. destruct (Nat.eq_dec y v) as [->|Hy]. 2:{ rewrite fupd_neq by auto. apply (t_reach _ _ T). }
        rewrite fupd_eq. intros _. eapply reach_snoc. { apply (t_reach _ _ T u); auto. } split; auto. exists a. auto.
      + intros y k. destruct (Nat.eq_dec y v) as [->|Hy].
        * rewrite fupd_eq. destruct Hcase as [(_ & _ & p & Hp & ->)|(-> & _)]; [|discriminate]. intros [= <-]. split; auto. left. eauto.
        * rewrite fupd_neq, HQ by auto. apply (t_key _ _ T).
      + intros y. destruct (Nat.eq_dec y v) as [->|Hy].
        * destruct Hcase as [(_ & C & _)|(-> & _)]; auto; intros; congruence.
        * rewrite HQ by auto. apply (t_nq _ _ T).
      + rewrite fupd_neq by auto. apply (t_sp _ _ T).
      + intros y b H0 H1 H2 H3 H4 H5. destruct (Nat.eq_dec y v) as [->|Hy].
        * rewrite fupd_eq in *. destruct Hcase as [(_ & _ & p & _ & C)|(_ & _ & [C|C])]; [congruence|destruct H4; congruence|].
          destruct (Nat.eq_dec (hd b) u) as [Eb|Nb].
          -- right. rewrite Eb, fupd_neq by auto. pose proof (text v b x Hv H5). lia.
          -- left. apply in_or_app. left. apply in_map. auto.
        * rewrite (fupd_neq _ v y) in * by auto. rewrite HQ in H3 by auto.
          assert (LE : forall z, (fupd (aD st) v x z <= aD st z)%N). { intros z. unfold fupd. destruct (Nat.eqb_spec z v) as [->|]; lia. }
          specialize (LE (hd b)). destruct (t_closed _ _ T y b H0 H1 H2 H3 H4 H5) as [[[= <- <-]|X]|X].
          -- right. fold v. rewrite fupd_eq. lia.
          -- left. apply in_or_app. auto.
          -- right. lia.
      + intros y Hy. apply (ttree (aD st) (aP st) u a v x); auto.
        * intros z. apply TD.
        * apply (t_s _ _ T).
        * apply TDv.
        * apply (t_tree _ _ T); auto.
        * destruct (Nat.eq_dec y v) as [->|Hyv]; auto. right. rewrite fupd_neq in Hy by auto. apply (t_tree _ _ T); auto.
      + intros y b Hin. apply in_app_or in Hin. destruct Hin as [Hin|Hin].
        * apply in_map_iff in Hin. destruct Hin as (b' & [= <- <-] & Hb). rewrite fupd_eq. auto.
        * destruct (t_pend _ _ T y b ltac:(right; auto)) as (B1 & B2 & B3). split; auto. split; auto. unfold fupd. destruct (y =? v); auto.
    - cbn [aQ st']. unfold M. pose proof (sumN_change n (Me st') (Me st) v Hv) as X.
      assert (Y : forall j, j <> v -> Me st' j = Me st j). { intros j Hj. unfold Me, st'; cbn [aD aQ]. rewrite fupd_neq, HQ by auto. auto. }
      specialize (X Y). assert (Z1 : Me st' v = (2 * x + match Q' v with Some _ => 1 | None => 0 end)%N) by (unfold Me, st'; cbn [aD aQ]; rewrite fupd_eq; auto).
      assert (Z2 : (2 * aD st v <= Me st v)%N) by (unfold Me; lia). destruct (Q' v); lia.
  Qed.

  (** ** one iteration of the chain loop *)
  Notation cstep' := (chain_step links hd lk pl sdeg skip2 skip3 no_cb pot).
  (** the pending arcs a chain state stands for *)
  Definition chain_of (st : ast P) (c : option (cstep P)) (three : option (nat * A)) (had : bool) (stack : list (nat * A)) : Prop :=
    match c with
    | None => three = None /\ stack = []
    | Some cs => exists u a x, cs = mkCS (u, pl a) (hd a) x /\ lk u (aD st u) a = Some x /\ In a (nb u) /\
        stack = (u, a) :: match three with Some wa => [wa] | None => [] end /\ (had = false -> three = None)
    end.

  Lemma take_three_ok d (e : E) st c three had stack rest : RV d st ->
    TopoInv (stack ++ rest) st ->
    (match c with
     | Some cs => chain_of st c three had stack
     | None => stack = match three with Some wa => [wa] | None => [] end
     end) ->
    exists c' three' had', take_three hd lk pl d e c three had = Some (d, e, c', three', had') /\ chain_of st c' three' had' stack.
  Proof.
    intros HR T Hc. unfold take_three. destruct c as [cs|].
    { exists (Some cs), three, had. auto. }
    destruct three as [(w & b)|].
    - subst stack. destruct (t_pend _ _ T w b ltac:(left; auto)) as (Hw & Hb & HDw).
      rewrite (V_get' d st w HR Hw (t_V _ _ w T HDw)). cbn [bind]. destruct (tlk w b (aD st w) Hw Hb eq_refl HDw) as (x & Ex & _). rewrite Ex. cbn [bind].
      eexists; eexists; eexists. split; [reflexivity|]. cbn. exists w, b, x. auto.
    - exists None, None, had. cbn. auto.
  Qed.

  (** pending arcs stay pending while other arcs are handled: split off the rest *)
  Lemma chain_step_ok d e st cs three had stack rest : RV d st -> TopoInv (stack ++ rest) st -> J0 e -> chain_of st (Some cs) three had stack ->
    exists d' e' c' three' had' st' stack', cstep' d e cs three had = Some (d', e', c', three', had') /\
      RV d' st' /\ TopoInv (stack' ++ rest) st' /\ J0 e' /\ chain_of st' c' three' had' stack' /\
      (M n st' + N.of_nat (length stack') < M n st + N.of_nat (length stack))%N /\ (M n st' <= M n st)%N.
  Proof.
    intros HR T HJ (u & a & x & -> & Ex & Ha & -> & Hhad). unfold chain_step. cbn [cs_node cs_dist cs_prev fst].
    set (v := hd a) in *. set (tl := match three with Some wa => [wa] | None => [] end) in *.
    assert (Hu : u < n) by (apply (t_pend _ _ T u a); left; auto).
    assert (HDu : (aD st u < INF)%N) by (apply (t_pend _ _ T u a); left; auto).
    assert (Hv : v < n) by (apply (thd u a); auto).
    destruct (tlk u a (aD st u) Hu Ha eq_refl HDu) as (x' & Ex' & Hx1 & Hx2). rewrite Ex in Ex'. injection Ex' as <-.
    pose proof (t_D _ _ T v) as TDv.
    assert (HVv : V v = true) by (apply (HVc u a); auto; apply (t_V _ _ u T HDu)).
    rewrite (V_get' d st v HR Hv HVv). cbn [bind].
    destruct (N.ltb_spec x (aD st v)) as [Hlt|Hge].
    2:{ destruct (V_nolabel d st v x HR Hv HVv Hge) as (t & Et & R1). rewrite Et. cbn [bind].
        assert (T1 : TopoInv (tl ++ rest) st).
        { apply (T_keep u a); auto. fold v. destruct (N.lt_ge_cases (slk u (aD st u) a) INF) as [C|C]; [rewrite <- Hx1; auto|lia]. }
        destruct (take_three_ok (mkDij t (d_pred d) (d_queue d)) e st None three had tl rest R1 T1 eq_refl) as (c' & three' & had' & E1 & C1).
        exists (mkDij t (d_pred d) (d_queue d)), e, c', three', had', st, tl. rewrite E1. split; auto. split; auto. split; auto. split; auto. split; auto. cbn [length]. lia. }
    assert (Hxe : slk u (aD st u) a = x). { destruct (N.lt_ge_cases (slk u (aD st u) a) INF) as [C|C]; [rewrite Hx1; auto|specialize (Hx2 C); lia]. }
    assert (Hvs : v <> s). { intros E1. rewrite E1 in Hlt. rewrite (t_s _ _ T) in Hlt. pose proof (text u a (aD st u) Hu Ha). pose proof (t_D _ _ T u). lia. }
    destruct (V_label d st v x (u, pl a) HR Hv HVv Hlt) as (t & pr & Et & Egt & Epr & R1). rewrite Et. cbn [bind]. rewrite Egt. cbn [bind].
    set (d1 := mkDij t pr (d_queue d)) in *.
    set (st1 := mkA (fupd (aD st) v x) (fupd (aD st) v x) (fupd (aP st) v (u, pl a)) (aQ st)) in *.
    (* endpoints *)
    assert (END : ~ skipped v -> forall had1, (had1 = false -> three = None) ->
      exists d' e' c' three' had' st' stack',
        (pr <- set_at (d_pred d) v (u, pl a) ;; '(e1, b) <- no_cb e v x ;;
            if (b : bool) then
              '(e2, p) <- pot e1 v ;;
              match p with
              | Some p =>
                  k <- cadd p x ;;
                  c <- hcontains (d_queue d) v ;;
                  q <- (if (c : bool) then hdecrease state st_idx st_ltb (d_queue d) (k, v) else hpush state st_idx st_ltb (d_queue d) (k, v)) ;;
                  take_three hd lk pl (mkDij t pr q) e2 None three had1
              | None => take_three hd lk pl (mkDij t pr (d_queue d)) e2 None three had1
              end
            else take_three hd lk pl (mkDij t pr (d_queue d)) e1 None three had1) = Some (d', e', c', three', had') /\
      RV d' st' /\ TopoInv (stack' ++ rest) st' /\ J0 e' /\ chain_of st' c' three' had' stack' /\
      (M n st' + N.of_nat (length stack') < M n st + N.of_nat (length ((u, a) :: tl)))%N /\ (M n st' <= M n st)%N).
    { intros Hns had1 Hh1. rewrite Epr. cbn [bind]. unfold no_cb. cbn [bind].
      destruct (HJpot n links hd lk pl all_edges no_cb pot nb slk pi s d0 _ HS Hs Hd0 (aD st) (aD st) e v HJ Hv) as (e2 & Epot & HJ2). rewrite Epot. cbn [bind].
      destruct (pi v) as [p|] eqn:Hpv.
      - assert (EW : cadd p x = Some (p + x)%N). { apply cadd_ok. pose proof (tpi v p Hpv). lia. } rewrite EW. cbn [bind].
        assert (Hk : forall k', aQ st1 v = Some k' -> (p + x <= k')%N).
        { intros k' Hk'. destruct (t_key _ _ T v k' Hk') as [_ [(p' & Hp' & ->)|(C & _)]]; [|congruence]. assert (p' = p) by congruence. lia. }
        destruct (V_queue d1 st1 v (p + x)%N R1 Hv Hk) as (c & q & Ec & Eq & R2). cbn [d1 d_queue] in Ec, Eq. rewrite Ec. cbn [bind]. rewrite Eq. cbn [bind].
        destruct (T_improve u a (tl ++ rest) st x (fupd (aQ st) v (Some (p + x)%N)) [] T Hxe Hlt) as [T2 M2].
        { intros y Hy. apply fupd_neq. auto. } { intros b []. } { left. split; auto. split; auto. exists p. fold v. rewrite fupd_eq. auto. }
        fold v in T2, M2. rewrite fupd_eq in M2. cbn [map app] in T2.
        change (d_dist d1) with t in R2. change (d_pred d1) with pr in R2. cbn [st1 aD aP aQ] in R2.
        destruct (take_three_ok _ e2 _ None three had1 tl rest R2 T2 eq_refl) as (c' & three' & had' & E1 & C1).
        do 7 eexists. split; [exact E1|]. split; [exact R2|]. split; [exact T2|]. split; auto. split; [exact C1|]. cbn [length]. lia.
      - assert (Hqv : aQ st v = None). { destruct (aQ st v) as [k|] eqn:Hqv; auto. destruct (t_key _ _ T v k Hqv) as [_ [(p' & Hp' & _)|(C & _)]]; congruence. }
        destruct (T_improve u a (tl ++ rest) st x (aQ st) [] T Hxe Hlt) as [T2 M2]; auto.
        { intros b []. }
        fold v in T2, M2. cbn [map app] in T2.
        destruct (take_three_ok _ e2 _ None three had1 tl rest R1 T2 eq_refl) as (c' & three' & had' & E1 & C1).
        do 7 eexists. split; [exact E1|]. split; [exact R1|]. split; [exact T2|]. split; auto. split; [exact C1|]. cbn [length]. fold st1 in M2. rewrite Hqv in M2. lia. }
    (* nodes that are walked through *)
    assert (SKIP : forall f g had1, aQ st v = None -> (f = None -> g = None) -> (had1 = false -> three = None) ->
      others hd u (nb v) = match f, g with Some b, Some c => [b; c] | Some b, None => [b] | None, _ => [] end ->
      (match g with Some _ => three = None /\ had1 = true | None => True end) ->
      let three1 := match g with Some b => Some (v, b) | None => three end in
      exists d' e' c' three' had' st' stack',
        (pr <- set_at (d_pred d) v (u, pl a) ;;
         match f with
         | Some a => y <- lk v x a ;; take_three hd lk pl (mkDij t pr (d_queue d)) e (Some (mkCS (v, pl a) (hd a) y)) three1 had1
         | None => take_three hd lk pl (mkDij t pr (d_queue d)) e None three1 had1
         end) = Some (d', e', c', three', had') /\
      RV d' st' /\ TopoInv (stack' ++ rest) st' /\ J0 e' /\ chain_of st' c' three' had' stack' /\
      (M n st' + N.of_nat (length stack') < M n st + N.of_nat (length ((u, a) :: tl)))%N /\ (M n st' <= M n st)%N).
    { intros f g had1 Hq Hfg Hh1 Ho Hg three1. rewrite Epr. cbn [bind].
      assert (Hin : forall b, In b (others hd u (nb v)) -> In b (nb v)) by (intros b Hb; apply others_in in Hb; tauto).
      destruct (T_improve u a (tl ++ rest) st x (aQ st) (others hd u (nb v)) T Hxe Hlt) as [T2 M2]; auto.
      { right. split; auto. split; auto. right. intros b Hb1 Hb2. apply others_in. auto. }
      fold v in T2, M2. fold st1 in T2, M2. rewrite Hq in M2.
      destruct f as [b|].
      - assert (Hb : In b (nb v)). { apply Hin. rewrite Ho. destruct g; left; auto. }
        destruct (tlk v b x Hv Hb eq_refl) as (y & Ey & _). { lia. } rewrite Ey. cbn [bind].
        set (stack := (v, b) :: match three1 with Some wa => [wa] | None => [] end).
        assert (ES : map (pair v) (others hd u (nb v)) ++ tl ++ rest = stack ++ rest).
        { rewrite Ho. unfold stack, three1, tl. destruct g as [c|]; cbn [map app]; auto. destruct Hg as [-> _]. auto. }
        rewrite ES in T2.
        destruct (take_three_ok d1 e st1 (Some (mkCS (v, pl b) (hd b) y)) three1 had1 stack rest R1 T2) as (c' & three' & had' & E1 & C1).
        { cbn. exists v, b, y. split; auto. split. { rewrite fupd_eq. auto. } split; auto. split; auto. unfold three1. intros Hh. destruct g; auto. destruct Hg; congruence. }
        do 7 eexists. split; [exact E1|]. split; [exact R1|]. split; [exact T2|]. split; auto. split; [exact C1|].
        unfold stack, tl, three1. cbn [length]. destruct g as [c|], three; cbn [length]; try lia.
      - assert (E3 : three1 = three) by (unfold three1; rewrite Hfg; auto). rewrite E3. rewrite Ho in T2. cbn [map app] in T2.
        destruct (take_three_ok d1 e st1 None three had1 tl rest R1 T2 eq_refl) as (c' & three' & had' & E1 & C1).
        do 7 eexists. split; [exact E1|]. split; [exact R1|]. split; [exact T2|]. split; auto. split; [exact C1|]. cbn [length]. lia. }
    destruct (sdeg v) as [[| |]|] eqn:Hsv; cbn [bind].
    - destruct skip2 eqn:Hk2; cbn [negb].
      + rewrite (tlinks v Hv). cbn [bind].
        assert (Hq : aQ st v = None). { destruct (aQ st v) as [k|] eqn:Hqv; auto. destruct (t_nq _ _ T v) as [C|C]; [congruence|congruence|]. destruct C. split; auto. }
        apply (SKIP (last_other hd u (nb v)) None had Hq); auto.
        rewrite (last_other_spec hd u (nb v)). { destruct (last_other hd u (nb v)); auto. } apply (Hdeg2 u a); auto.
      + apply END; auto. intros [C _]. congruence.
    - assert (Hns : ~ skipped v) by (intros [_ C]; congruence).
      destruct (negb skip3 || had) eqn:Hk3; cbn [bind]. { apply END; auto. }
      apply orb_false_iff in Hk3. destruct Hk3 as [Hk3 ->]. apply negb_false_iff in Hk3. pose proof (Hhad eq_refl) as H3.
      rewrite (V_contains d st v HR Hv) in END |- *. cbn [bind] in END |- *.
      destruct (aQ st v) as [k|] eqn:Hqv; cbn [bind] in END |- *. { apply END; auto. }
      unfold no_cb. cbn [bind]. rewrite (tlinks v Hv). cbn [bind].
      pose proof (first_others_spec hd u (nb v) (Hdeg3 u a Hu Ha Hk3 Hsv)) as [FO1 FO2].
      destruct (first_others hd u (nb v)) as [f g]. cbn [fst snd] in FO2. cbn [bind].
      apply (SKIP f g true); auto. destruct g; auto.
    - apply END; auto. intros [_ C]. congruence.
    - destruct (Hsd v Hv Hsv).
  Qed.

  Lemma M_bound pend st : TopoInv pend st -> (M n st + 2 <= N.of_nat n * (2 * INF + 1))%N.
  Proof.
    intros T. unfold M. set (c := (2 * INF + 1)%N). set (g := fun i => if i =? s then c else Me st i).
    assert (X : (sumN n g <= N.of_nat n * c)%N).
    { apply sumN_const. intros i Hi. unfold g. destruct (i =? s); [lia|]. unfold Me, c. pose proof (t_D _ _ T i). destruct (aQ st i); lia. }
    pose proof (sumN_change n (Me st) g s Hs) as Y.
    assert (Z : forall j, j <> s -> Me st j = g j). { intros j Hj. unfold g. rewrite (proj2 (Nat.eqb_neq _ _) Hj). auto. }
    specialize (Y Z). assert (W1 : g s = c) by (unfold g; rewrite Nat.eqb_refl; auto).
    assert (W2 : (Me st s <= 2 * d0 + 1)%N). { unfold Me. rewrite (t_s _ _ T). destruct (aQ st s); lia. }
    unfold c in *. lia.
  Qed.

  Notation edge' := (topo_edge n links hd lk pl sdeg skip2 skip3 no_cb pot).
  Lemma topo_edge_ok d e st u a rest : RV d st -> TopoInv ((u, a) :: rest) st -> J0 e ->
    exists d' e' st', edge' u (d, e) a = Some (d', e') /\ RV d' st' /\ TopoInv rest st' /\ J0 e' /\ (M n st' <= M n st)%N.
  Proof.
    intros HR T HJ. unfold topo_edge.
    destruct (t_pend _ _ T u a ltac:(left; auto)) as (Hu & Ha & HDu).
    rewrite (V_get' d st u HR Hu (t_V _ _ u T HDu)). cbn [bind]. destruct (tlk u a (aD st u) Hu Ha eq_refl HDu) as (x & Ex & _). rewrite Ex. cbn [bind].
    match goal with |- context [loopN _ ?f _] => set (step := f) end.
    set (I := fun (g : ast P * list (nat * A)) '(d, e, c, three, had) => RV d (fst g) /\ TopoInv (snd g ++ rest) (fst g) /\ J0 e /\
       chain_of (fst g) c three had (snd g) /\ (M n (fst g) <= M n st)%N).
    set (Q := fun '(d', e') => exists st', RV d' st' /\ TopoInv rest st' /\ J0 e' /\ (M n st' <= M n st)%N).
    destruct (loopN_ghost step I Q (fun g => M n (fst g) + N.of_nat (length (snd g)))%N (dij_fuel n) (st, [(u, a)])
      (d, e, Some (mkCS (u, pl a) (hd a) x), None, false)) as ((d' & e') & E1 & st' & H).
    - intros (st1 & stack) ((((d1 & e1) & c) & three) & had) (R1 & T1 & J1 & C1 & M1). cbn [fst snd] in *. unfold step.
      destruct c as [cs|].
      + destruct (chain_step_ok d1 e1 st1 cs three had stack rest R1 T1 J1 C1) as (d2 & e2 & c2 & three2 & had2 & st2 & stack2 & E2 & R2 & T2 & J2 & C2 & M2 & M3).
        rewrite E2. cbn [bind]. eexists; split; [reflexivity|]. exists (st2, stack2). unfold I. cbn [fst snd]. split; [|lia]. repeat (split; [assumption|]). lia.
      + destruct C1 as [-> ->]. eexists; split; [reflexivity|]. exists st1. auto.
    - cbn [I fst snd]. split; auto. split; auto. split; auto. split; [|lia]. exists u, a, x. auto.
    - cbn [fst snd length]. pose proof (M_bound _ _ T). unfold dij_fuel. lia.
    - exists d', e', st'. rewrite E1. tauto.
  Qed.

  Lemma topo_edges_ok u todo : forall d e st rest, RV d st -> TopoInv (map (pair u) todo ++ rest) st -> J0 e ->
    exists d' e' st', foldM (edge' u) todo (d, e) = Some (d', e') /\ RV d' st' /\ TopoInv rest st' /\ J0 e' /\ (M n st' <= M n st)%N.
  Proof.
    induction todo as [|a todo IH]; intros d e st rest HR T HJ; cbn [foldM map app] in *. { exists d, e, st. repeat (split; [assumption || reflexivity|]). lia. }
    destruct (topo_edge_ok d e st u a _ HR T HJ) as (d1 & e1 & st1 & E1 & R1 & T1 & J1 & M1). rewrite E1. cbn [bind].
    destruct (IH d1 e1 st1 rest R1 T1 J1) as (d2 & e2 & st2 & E2 & R2 & T2 & J2 & M2). exists d2, e2, st2. repeat (split; [assumption|]). lia.
  Qed.

  Notation settle' := (topo_settle n links hd lk pl sdeg skip2 skip3 no_cb pot).
  Lemma topo_settle_ok d e st : RV d st -> TopoInv [] st -> J0 e ->
    ((forall v, aQ st v = None) /\ exists d', settle' d e = Some (d', e, None) /\ RV d' st) \/
    exists u d' e' st', settle' d e = Some (d', e', Some u) /\ RV d' st' /\ TopoInv [] st' /\ J0 e' /\ (M n st' < M n st)%N.
  Proof.
    intros HR T HJ. unfold topo_settle. destruct (V_pop d st HR) as [[EP HN]|(q & u & k & EP & Hq & Hu & Hmin & R1)]; rewrite EP; cbn [bind].
    - left. split; auto. eexists; split; [reflexivity|]. destruct HR; split; auto.
    - right. rewrite (tlinks u Hu). cbn [bind].
      destruct (t_key _ _ T u k Hq) as [HDu _].
      assert (T1 : TopoInv (map (pair u) (nb u) ++ []) (popA st u)).
      { rewrite app_nil_r. destruct T. split; cbn [popA aD aA aP aQ]; auto.
        - intros v Hv. destruct (t_out0 v Hv). unfold fupd. destruct (v =? u); auto.
        - intros v k'. unfold fupd. destruct (v =? u); [discriminate|]. apply t_key0.
        - intros v. unfold fupd. destruct (v =? u); [congruence|]. apply t_nq0.
        - intros v a H0 H1 H2 H3 H4 H5. destruct (Nat.eq_dec v u) as [->|Hne]. { left. apply in_map. auto. }
          rewrite fupd_neq in H3 by auto. destruct (t_closed0 v a H0 H1 H2 H3 H4 H5) as [[]|X]; auto.
        - intros v a Hin. apply in_map_iff in Hin. destruct Hin as (b & [= <- <-] & Hb). auto. }
      destruct (topo_edges_ok u (nb u) _ e _ [] R1 T1 HJ) as (d' & e' & st' & E1 & R2 & T2 & J2 & M2). rewrite E1. cbn [bind].
      exists u, d', e', st'. repeat (split; [assumption || reflexivity|]).
      pose proof (sumN_change n (Me (popA st u)) (Me st) u Hu) as X. unfold M in *.
      assert (Y : forall j, j <> u -> Me (popA st u) j = Me st j). { intros j Hj. unfold Me, popA; cbn [aD aQ]. rewrite fupd_neq by auto. auto. }
      specialize (X Y). assert (Z1 : Me (popA st u) u = (2 * aD st u)%N) by (unfold Me; cbn [popA aD aQ]; rewrite fupd_eq; lia).
      assert (Z2 : Me st u = (2 * aD st u + 1)%N) by (unfold Me; rewrite Hq; lia). lia.
  Qed.

  Lemma TopoInv_init pr : ps = (s, snd (pr s)) -> TopoInv [] (initA s d0 pr).
  Proof.
    intros Hps. split; cbn [initA aD aA aP aQ].
    - intros v. unfold fupd. destruct (v =? s); lia.
    - apply fupd_eq.
    - intros v Hv. rewrite !fupd_neq by lia. auto.
    - intros v. unfold fupd. destruct (Nat.eqb_spec v s) as [->|]; [|lia]. constructor.
    - intros v k. unfold fupd. destruct (Nat.eqb_spec v s) as [->|]; [|discriminate]. intros [= <-]. auto.
    - intros v. unfold fupd. destruct (Nat.eqb_spec v s) as [->|]; auto; congruence.
    - rewrite Nat.eqb_refl. auto.
    - intros v a _ H1 H2 H3. unfold fupd in H2, H3. destruct (Nat.eqb_spec v s); [discriminate|lia].
    - intros v. unfold fupd at 1. destruct (Nat.eqb_spec v s) as [->|]; [|lia]. constructor.
    - intros v a [].
  Qed.
  (** the source alone is labelled and queued *)
  Definition startA (pr : nat -> nat * P) : ast P := mkA (fupd (fun _ => INF) s d0) (fupd (fun _ => INF) s d0) pr (fupd (fun _ => None) s (Some d0)).
  Lemma TopoInv_start pr : pr s = ps -> TopoInv [] (startA pr).
  Proof.
    intros Hps. split; cbn [startA aD aA aP aQ].
    - intros v. unfold fupd. destruct (v =? s); lia.
    - apply fupd_eq.
    - intros v Hv. rewrite !fupd_neq by lia. auto.
    - intros v. unfold fupd. destruct (Nat.eqb_spec v s) as [->|]; [|lia]. constructor.
    - intros v k. unfold fupd. destruct (Nat.eqb_spec v s) as [->|]; [|discriminate]. intros [= <-]. auto.
    - intros v. unfold fupd. destruct (Nat.eqb_spec v s) as [->|]; auto; congruence.
    - auto.
    - intros v a _ H1 H2 H3. unfold fupd in H2, H3. destruct (Nat.eqb_spec v s); [discriminate|lia].
    - intros v. unfold fupd at 1. destruct (Nat.eqb_spec v s) as [->|]; [|lia]. constructor.
    - intros v a [].
  Qed.

  Lemma topo_frontier st v d : (forall x, Cl x) -> TopoInv [] st -> (d < INF)%N -> reach' s d0 v d ->
    (forall x dx, reach' s d0 x dx -> reach' x dx v d -> pi x <> None \/ x = s) ->
    (aD st v <= d)%N \/ exists x dx k, aQ st x = Some k /\ (aD st x <= dx)%N /\ reach' s d0 x dx /\ reach' x dx v d.
  Proof.
    intros HCl T. intros Hd H. revert Hd. induction H as [|v d y d' H IH Hst]; intros Hd Hpn.
    - left. rewrite (t_s _ _ T). lia.
    - pose proof Hst as (Hv & a & Ha & Hep & Hh & Hsl). pose proof (text v a d Hv Ha) as X.
      destruct IH as [IH|(x & dx & k & H1 & H2 & H3 & H4)].
      + lia.
      + intros x dx R1 R2. apply (Hpn x dx R1). econstructor; eauto.
      + destruct (aQ st v) as [k|] eqn:Hq.
        * right. exists v, d, k. split; [auto|]. split; [auto|]. split; [auto|]. eapply reach_snoc; [apply reach_nil|exact Hst].
        * left. pose proof (tmono v a (aD st v) d Hv Ha IH).
          destruct (t_closed _ _ T v a (HCl v) Hv) as [[]|C]; auto. { lia. } { apply (Hpn v d H). eapply reach_snoc; [apply reach_nil|exact Hst]. }
          rewrite Hh in C. lia.
      + right. exists x, dx, k. repeat (split; [assumption|]). econstructor; eauto.
  Qed.

  (** paths read off the predecessors *)
  Lemma topo_chain st v : TopoInv [] st -> (aD st v < INF)%N ->
    exists p q x, chain s (aP (merge st)) v p q /\ (x <= aD st v)%N /\ reach_path P (gstepl n hd pl all_edges nb slk) s d0 v x p q /\ forall y, In y p -> V y = true /\ y < n.
  Proof.
    intros T HD. pose proof (t_s _ _ T) as HDs.
    destruct (tree_chain HS Hs Hd0 _ _ _ (t_tree _ _ T v HD) HDs) as (p & q & x & C & L & RP).
    pose proof (rp_lt HS Hs Hd0 _ _ _ _ RP) as LT.
    assert (LV : forall v d p q, reach_path P (gstepl n hd pl all_edges nb slk) s d0 v d p q -> forall y, In y p -> V y = true).
    { clear -HVs HVc. intros v d p q H. induction H as [|v d l y d' p q H IH (Hv & a & Ha & _ & <- & _)]; intros z Hz. { destruct Hz as [<-|[]]; auto. }
      apply in_app_or in Hz. destruct Hz as [Hz|[<-|[]]]; auto. apply (HVc v a); auto. apply IH. clear -H. inversion H; subst; [left; auto|apply in_or_app; right; left; auto]. }
    exists p, q, x. split; [|split; [auto|split; [auto|split; [eapply LV; eauto|auto]]]].
    specialize (LV _ _ _ _ RP). clear -C LV. induction C as [|v u l p q Hv E1 C IH]; [constructor|]. refine (DijkstraProof.chain_step _ _ v u l p q Hv _ _).
    - cbn [merge aP]. rewrite (LV v); auto. apply in_or_app. right; left; auto.
    - apply IH. intros y Hy. apply LV. apply in_or_app; auto.
  Qed.
  Lemma topo_paths_ok (d : dij P) st v : RV d st -> TopoInv [] st -> (aD st v < INF)%N ->
    exists p q x, node_path d s v = Some p /\ edge_path d s v = Some q /\ (x <= aD st v)%N /\
      reach_path P (gstepl n hd pl all_edges nb slk) s d0 v x p q /\ NoDup p.
  Proof.
    intros HR T HD. destruct (topo_chain st v T HD) as (p & q & x & C & L & RP & LT).
    pose proof (chain_nodup n links hd lk pl all_edges no_cb pot nb slk pi s d0 _ HS Hs Hd0 _ _ _ _ C) as ND.
    pose proof (chain_len n links hd lk pl all_edges no_cb pot nb slk pi s d0 _ HS Hs Hd0 _ _ _ _ C) as CL.
    assert (Hlen : length p <= n). { rewrite <- (seq_length n 0). apply NoDup_incl_length; auto. intros y Hy. apply in_seq. specialize (LT y Hy). lia. }
    destruct (back_chain n links hd lk pl all_edges no_cb pot nb slk pi s d0 _ HS Hs Hd0 d (merge st) v p q HR C ltac:(intros; apply LT; auto) (length (d_pred d))) as [E1 E2]. { rewrite (r_plen n d _ HR). lia. }
    exists p, q, x. unfold node_path, edge_path. rewrite E1, E2. cbn [bind]. rewrite !rev_involutive. auto.
  Qed.

  (** ** the query loop *)
  Notation loop' := (skip_loop n links hd lk pl sdeg skip2 skip3 pot).
  Definition label_of (st : ast P) (v : nat) : N := aD (merge st) v.
  Lemma skip_loop_ok t tp cap d e st0 : RV d st0 -> TopoInv [] st0 -> J0 e -> t < n -> (label_of st0 t <= INF)%N -> (tp + INF < U32)%N ->
    exists d' e' st', loop' t tp cap d e = Some (d', e') /\ RV d' st' /\ TopoInv [] st' /\ J0 e' /\
      forall v k, aQ st' v = Some k -> (label_of st' t + tp <= k \/ cap < k)%N.
  Proof.
    intros HR HT HJ Ht Hlt Htp. unfold skip_loop. set (step := fun _ : dij P * E => _).
    set (I := fun st '(d, e) => RV d st /\ TopoInv [] st /\ J0 e).
    set (Q := fun '(d', e') => exists st', RV d' st' /\ TopoInv [] st' /\ J0 e' /\ forall v k, aQ st' v = Some k -> (label_of st' t + tp <= k \/ cap < k)%N).
    assert (HL : forall st, TopoInv [] st -> (label_of st t <= INF)%N).
    { intros st T. unfold label_of in *. cbn [merge aD] in *. destruct (V t); auto. apply (t_D _ _ T t). }
    destruct (loopN_ghost step I Q (fun st => M n st) (dij_fuel n) st0 (d, e)) as ((d' & e') & E1 & st' & H).
    - intros st (d1 & e1) (R1 & T1 & J1). unfold step.
      destruct (topo_settle_ok d1 e1 st R1 T1 J1) as [(HQ & d2 & E2 & R2)|(u & d2 & e2 & st2 & E2 & R2 & T2 & J2 & M2)]; rewrite E2; cbn [bind].
      + eexists; split; [reflexivity|]. exists st. split; auto. split; auto. split; auto. intros v k. rewrite HQ. discriminate.
      + pose proof (V_peek d2 st2 R2) as PK. destruct (hpeek (d_queue d2)) as [(k & w)|].
        * rewrite (V_get d2 st2 t R2 Ht). cbn [bind]. change (if V t then aD st2 t else fD t) with (label_of st2 t). pose proof (HL st2 T2). rewrite cadd_ok by lia. cbn [bind].
          destruct ((label_of st2 t + tp <=? k)%N || (cap <? k)%N) eqn:Ec.
          -- eexists; split; [reflexivity|]. exists st2. split; auto. split; auto. split; auto. intros v k' Hk'. destruct PK as [_ PK]. specialize (PK v k' Hk').
             apply orb_true_iff in Ec. destruct Ec as [Ec|Ec]; lia.
          -- eexists; split; [reflexivity|]. exists st2. cbn. auto.
        * eexists; split; [reflexivity|]. exists st2. cbn. auto.
    - cbn. auto.
    - cbn. pose proof (M_bound _ _ HT). unfold dij_fuel. lia.
    - exists d', e', st'. auto.
  Qed.

  (** labels at the end of a query whose keys are all at least [aD t + tp] or above [cap] *)
  Lemma topo_exact t tp cap st : (forall x, Cl x) -> TopoInv [] st -> admissible n hd all_edges nb slk pi s d0 t -> pi t = Some tp ->
    (forall v k, aQ st v = Some k -> (aD st t + tp <= k \/ cap < k)%N) ->
    forall dd, reach' s d0 t dd -> (dd < INF)%N -> (dd + tp <= cap)%N -> (aD st t <= dd)%N.
  Proof.
    intros HCl T Hadm Htp Hstop dd Hr Hdd Hcap.
    destruct (topo_frontier st t dd HCl T Hdd Hr) as [F|(y & dy & k & Hqy & HDy & Ry & Ry2)]; auto.
    { intros y dy Ry Ry2. destruct (Hadm y dy dd Ry Ry2 Hdd) as (p & -> & _). left; discriminate. }
    destruct (Hadm y dy dd Ry Ry2 Hdd) as (p & Hp & Hle). specialize (Hle tp Htp).
    assert (k <= p + dy)%N.
    { destruct (t_key _ _ T y k Hqy) as [_ [(p' & E2 & ->)|(-> & ->)]]; [assert (p' = p) by congruence; lia|]. pose proof (t_D _ _ T s). lia. }
    destruct (Hstop y k Hqy); lia.
  Qed.
End Topo.
