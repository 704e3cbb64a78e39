(** Refinement of the Dijkstra model to a search over functions (labels, predecessors, queue keys). *)
From Verif Require Import Base SpecPQ IndexHeap IndexHeapProof TsVec TsVecProof Dijkstra LoopProof.

Lemma st_order : order_laws st_ltb.
Proof.
  unfold st_ltb. split.
  - intros [k v]; cbn [fst snd]. rewrite N.ltb_irrefl, Nat.ltb_irrefl, andb_false_r. auto.
  - intros [k1 v1] [k2 v2]; cbn [fst snd]. intros H. apply orb_true_iff in H. rewrite andb_true_iff in H.
    apply orb_false_iff. rewrite andb_false_iff. lia.
  - intros [k1 v1] [k2 v2] [k3 v3]; cbn [fst snd]. rewrite !orb_false_iff, !andb_false_iff. lia.
Qed.

(** [aA] is a ghost: the label at the last time the improve callback accepted the node. *)
Record ast (P : Type) := mkA { aD : nat -> N; aA : nat -> N; aP : nat -> nat * P; aQ : nat -> option N }.
Arguments mkA {P}. Arguments aD {P}. Arguments aA {P}. Arguments aP {P}. Arguments aQ {P}.

Section Ref.
  Context {A P E : Type}.
  Variable n : nat.
  Variable links : nat -> option (list A).
  Variable hd : A -> nat.
  Variable lk : nat -> N -> A -> option N.
  Variable pl : A -> P.
  Variable epred : A -> bool.
  Variable cb : E -> nat -> N -> option (E * bool).
  Variable pot : E -> nat -> option (E * option N).

  Record R (d : dij P) (st : ast P) : Prop := {
    r_dist : TInv N INF n (d_dist d) (aD st);
    r_plen : length (d_pred d) = n;
    r_pred : forall v, v < n -> nth_error (d_pred d) v = Some (aP st v);
    r_heap : Inv state st_idx st_ltb n (d_queue d);
    r_queue : forall v, abs state (d_queue d) v = option_map (fun k => (k, v)) (aQ st v) }.

  Lemma R_queue_lt d st v k : R d st -> aQ st v = Some k -> v < n.
  Proof using Type.
    clear links hd lk pl epred cb pot.
    intros [_ _ _ [L W _] Q] H. specialize (Q v). rewrite H in Q. cbn in Q. unfold abs in Q.
    destruct (nth_error (positions (d_queue d)) v) eqn:F; [|discriminate]. apply nth_error_Some_lt in F. lia.
  Qed.

  Definition relaxA (u : nat) (st : ast P * E) (a : A) : option (ast P * E) :=
    let '(s, e) := st in
    if negb (epred a) then Some (s, e) else
    x <- lk u (aD s u) a ;;
    _ <- guard (hd a <? n) ;;
    if (x <? aD s (hd a))%N then
      '(e1, b) <- cb e (hd a) x ;;
      if (b : bool) then
        '(e2, p) <- pot e1 (hd a) ;;
        match p with
        | Some p =>
            kn <- cadd p x ;;
            _ <- guard (match aQ s (hd a) with Some k => (kn <=? k)%N | None => true end) ;;
            Some (mkA (fupd (aD s) (hd a) x) (fupd (aA s) (hd a) x) (fupd (aP s) (hd a) (u, pl a)) (fupd (aQ s) (hd a) (Some kn)), e2)
        | None => Some (mkA (fupd (aD s) (hd a) x) (fupd (aA s) (hd a) x) (fupd (aP s) (hd a) (u, pl a)) (aQ s), e2)
        end
      else Some (mkA (fupd (aD s) (hd a) x) (aA s) (fupd (aP s) (hd a) (u, pl a)) (aQ s), e1)
    else Some (s, e).

  Lemma relax_refines d st u a e st' e' : R d st -> u < n -> relaxA u (st, e) a = Some (st', e') ->
    exists d', relax hd lk pl epred cb pot u (d, e) a = Some (d', e') /\ R d' st'.
  Proof.
    intros HR Hu. unfold relaxA, relax. destruct (negb (epred a)). { intros [= <- <-]. eauto. }
    destruct HR as [RD RL RP RH RQ].
    rewrite (ts_get_spec N INF n _ _ u RD). rewrite (proj2 (Nat.ltb_lt _ _) Hu). cbn [bind].
    destruct (lk u (aD st u) a) as [x|]; cbn [bind]; [|discriminate].
    destruct (Nat.ltb_spec (hd a) n) as [Hv|Hv]; cbn [guard bind]; [|discriminate].
    rewrite (ts_get_spec N INF n _ _ (hd a) RD). rewrite (proj2 (Nat.ltb_lt _ _) Hv). cbn [bind].
    destruct (ts_modify_spec N INF n (d_dist d) (aD st) (hd a) (fun l => if (x <? l)%N then x else l) RD Hv) as (t & Et & RT).
    rewrite Et. cbn [bind]. destruct (N.ltb_spec x (aD st (hd a))) as [Hx|Hx].
    2:{ intros [= <- <-]. eexists; split; [reflexivity|]. split; cbn [d_dist d_pred d_queue]; auto.
        eapply TInv_ext; [|exact RT]. intros i Hi. cbn. destruct (Nat.eqb_spec i (hd a)) as [->|]; auto. }
    rewrite set_at_lt by lia. cbn [bind]. rewrite (ts_get_spec N INF n _ _ (hd a) RT). rewrite (proj2 (Nat.ltb_lt _ _) Hv). cbn [bind].
    rewrite Nat.eqb_refl. cbn beta. pose proof (proj2 (N.ltb_lt _ _) Hx) as Hxb.
    assert (RT' : TInv N INF n t (fupd (aD st) (hd a) x)). { eapply TInv_ext; [|exact RT]. intros i Hi. cbn beta. unfold fupd. try rewrite Hxb. auto. }
    assert (RPr : forall v, v < n -> nth_error (upd (d_pred d) (hd a) (u, pl a)) v = Some (fupd (aP st) (hd a) (u, pl a) v)).
    { intros v Hv'. rewrite nth_error_upd. unfold fupd. rewrite (Nat.eqb_sym v). destruct (Nat.eqb_spec (hd a) v) as [->|]; cbn [andb]; auto.
      destruct (Nat.ltb_spec v (length (d_pred d))); [auto|lia]. }
    destruct (cb e (hd a) x) as [[e1 b]|]; cbn [bind]; [|discriminate].
    destruct b.
    2:{ intros [= <- <-]. eexists; split; [reflexivity|]. split; cbn [d_dist d_pred d_queue aD aP aQ]; auto. rewrite upd_length; auto. }
    destruct (pot e1 (hd a)) as [[e2 [p|]]|]; cbn [bind]; [| |discriminate].
    2:{ intros [= <- <-]. eexists; split; [reflexivity|]. split; cbn [d_dist d_pred d_queue aD aP aQ]; auto. rewrite upd_length; auto. }
    destruct (cadd p x) as [kn|]; cbn [bind]; [|discriminate].
    rewrite (hcontains_abs state st_idx st_ltb n) by auto. rewrite RQ. cbn [bind].
    destruct (aQ st (hd a)) as [k|] eqn:Hq; cbn [option_map].
    - destruct (N.leb_spec (kn) k) as [Hk|Hk]; cbn [guard bind]; [|discriminate]. intros [= <- <-].
      destruct (hdecrease_spec state st_idx st_ltb st_order n (d_queue d) (kn, hd a) (k, hd a) RH) as (q & Eq & Iq & Aq).
      { cbn. rewrite RQ, Hq. auto. } { unfold st_ltb; cbn [fst snd]. rewrite Nat.ltb_irrefl, andb_false_r, orb_false_r. lia. }
      rewrite Eq. cbn [bind]. eexists; split; [reflexivity|]. split; cbn [d_dist d_pred d_queue aD aP aQ]; auto. { rewrite upd_length; auto. }
      intros v. rewrite Aq. unfold put, fupd; cbn. rewrite RQ. destruct (Nat.eqb_spec v (hd a)) as [->|]; auto.
    - cbn [guard bind]. intros [= <- <-].
      destruct (hpush_spec state st_idx st_ltb st_order n (d_queue d) (kn, hd a) RH) as (q & Eq & Iq & Aq); auto.
      { cbn. rewrite RQ, Hq. auto. }
      rewrite Eq. cbn [bind]. eexists; split; [reflexivity|]. split; cbn [d_dist d_pred d_queue aD aP aQ]; auto. { rewrite upd_length; auto. }
      intros v. rewrite Aq. unfold put, fupd; cbn. rewrite RQ. destruct (Nat.eqb_spec v (hd a)) as [->|]; auto.
  Qed.

  Lemma relaxes_refine ls : forall d st u e st' e', R d st -> u < n -> foldM (relaxA u) ls (st, e) = Some (st', e') ->
    exists d', foldM (relax hd lk pl epred cb pot u) ls (d, e) = Some (d', e') /\ R d' st'.
  Proof.
    induction ls as [|a ls IH]; intros d st u e st' e' HR Hu; cbn [foldM]. { intros [= <- <-]. eauto. }
    destruct (relaxA u (st, e) a) as [[st1 e1]|] eqn:E1; cbn [bind]; [|discriminate]. intros E2.
    destruct (relax_refines d st u a e st1 e1 HR Hu E1) as (d1 & F1 & R1). rewrite F1. cbn [bind]. eapply IH; eauto.
  Qed.

  Definition popA (st : ast P) (u : nat) : ast P := mkA (aD st) (aA st) (aP st) (fupd (aQ st) u None).

  Lemma settle_refines d st e : R d st ->
    ((forall v, aQ st v = None) /\ exists d', settle links hd lk pl epred cb pot d e = Some (d', e, None) /\ R d' st) \/
    exists u k, aQ st u = Some k /\ (forall v k', aQ st v = Some k' -> (k < k')%N \/ k = k' /\ u <= v) /\
      forall ls st' e', links u = Some ls -> foldM (relaxA u) ls (popA st u, e) = Some (st', e') ->
        exists d', settle links hd lk pl epred cb pot d e = Some (d', e', Some u) /\ R d' st'.
  Proof.
    intros HR. pose proof HR as [RD RL RP RH RQ].
    destruct (hpop_spec state st_idx st_ltb st_order n (d_queue d) RH) as [[EP ED]|(q & [k u] & EP & Iq & Hmin & Aq)].
    - left. split.
      + intros v. destruct (aQ st v) as [k|] eqn:Hq; auto. specialize (RQ v). rewrite Hq in RQ. cbn in RQ.
        unfold abs in RQ. rewrite ED in RQ. destruct (nth_error (positions (d_queue d)) v) as [[i|]|]; try discriminate. destruct i; discriminate.
      + unfold settle. rewrite EP; cbn [bind]. eexists; split; [reflexivity|]. split; auto.
    - right. destruct Hmin as [Hm1 Hm2]. cbn [st_idx snd] in Hm1. rewrite RQ in Hm1. unfold st_idx in Hm1; cbn [snd] in Hm1. destruct (aQ st u) as [k0|] eqn:Hq; cbn in Hm1; [|discriminate]. injection Hm1 as ->.
      exists u, k. split; auto. split.
      + intros v k' Hk'. specialize (Hm2 v (k', v)). rewrite RQ, Hk' in Hm2. specialize (Hm2 eq_refl). unfold st_ltb in Hm2; cbn [fst snd] in Hm2. lia.
      + intros ls st' e' El Ef. unfold settle. rewrite EP; cbn [bind]. rewrite El; cbn [bind].
        assert (R1 : R (mkDij (d_dist d) (d_pred d) q) (popA st u)).
        { split; cbn [d_dist d_pred d_queue popA aD aP aQ]; auto. intros v. rewrite Aq. unfold del, fupd, st_idx; cbn. rewrite RQ. destruct (v =? u); auto. }
        assert (Hu : u < n) by (apply (R_queue_lt d st u k HR Hq)).
        destruct (relaxes_refine ls _ _ u e st' e' R1 Hu Ef) as (d' & F & R'). rewrite F. cbn [bind]. eauto.
  Qed.

  (** initialization *)
  Record Ready (d : dij P) : Prop := {
    rd_dist : exists a, TInv N INF n (d_dist d) a;
    rd_plen : length (d_pred d) = n;
    rd_heap : Inv state st_idx st_ltb n (d_queue d) }.
  Lemma R_Ready d st : R d st -> Ready d.
  Proof. intros [H1 H2 H3 H4 H5]. split; eauto. Qed.
  Lemma new_Ready p0 : Ready (dij_new n p0).
  Proof. split; cbn. - eexists. apply ts_new_inv. - apply repeat_length. - apply Inv_new. Qed.

  Definition initA (s : nat) (l0 : N) (pr : nat -> nat * P) : ast P :=
    mkA (fupd (fun _ => INF) s l0) (fupd (fun _ => INF) s l0) (fun v => if v =? s then (s, snd (pr s)) else pr v) (fupd (fun _ => None) s (Some l0)).

  Lemma init_refines d s l0 : Ready d -> s < n -> exists d' pr, dij_init d s l0 = Some d' /\ R d' (initA s l0 pr).
  Proof using Type.
    clear links hd lk pl epred cb pot.
    intros [[a HD] HL HH] Hs. unfold dij_init, hclear.
    destruct (hclear_spec state st_idx st_ltb n (d_queue d) HH) as (P' & EP & I' & A'). rewrite EP; cbn [bind].
    unfold add_start. cbn [d_queue d_dist d_pred].
    destruct (hpush_spec state st_idx st_ltb st_order n (mkHeap P' []) (l0, s) I') as (q & Eq & Iq & Aq); auto.
    rewrite Eq; cbn [bind]. pose proof (ts_reset_inv N INF n _ _ HD) as HR.
    destruct (ts_modify_spec N INF n _ _ s (fun _ => l0) HR Hs) as (t & Et & RT). rewrite Et; cbn [bind].
    destruct (nth_error_lt (d_pred d) s) as [[u0 p0] Hp]; [lia|]. rewrite Hp; cbn [bind]. rewrite set_at_lt by lia. cbn [bind].
    eexists. exists (fun v => nth v (d_pred d) (0, p0)). split; [reflexivity|].
    split; cbn [d_dist d_pred d_queue initA aD aP aQ]; auto.
    - rewrite upd_length; auto.
    - intros v Hv. rewrite nth_error_upd. rewrite (nth_error_nth _ _ _ Hp). cbn [snd]. rewrite (Nat.eqb_sym v).
      destruct (Nat.eqb_spec s v) as [->|]; cbn [andb]. { destruct (Nat.ltb_spec v (length (d_pred d))); [auto|lia]. }
      apply nth_error_nth_some. lia.
    - intros v. rewrite Aq. unfold put, fupd, st_idx; cbn [snd]. rewrite A'. destruct (Nat.eqb_spec v s) as [->|]; auto.
  Qed.
End Ref.
