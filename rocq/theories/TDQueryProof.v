(** Evaluation on TD graphs, live overlays, FIFO, and time-dependent queries. *)
From Verif Require Import Base SpecBits BitVec SpecPQ SpecGraph IndexHeap IndexHeapProof TsVec TsVecProof Graph GraphProof Dijkstra LoopProof DijkstraRef DijkstraProof DijServer DijServerProof SpecTTF PLF PLFProof PLFRange PLFAverage TDGraph TDGraphProof.

(** ** Overlays *)
Lemma overlay_fifo pred o soon : fifo pred -> fifo (overlay pred o soon).
Proof.
  intros F t t' L. unfold overlay. destruct o as [lv|]; [|apply F; auto].
  pose proof (F t t' L). destruct (t <? soon)%N eqn:E1, (t' <? soon)%N eqn:E2; try lia.
  - pose proof (F soon t' ltac:(lia)). destruct (pred soon <? lv)%N eqn:E3; lia.
  - destruct (pred soon <? lv)%N eqn:E3; lia.
Qed.

Lemma pess_fifo pred o : fifo pred -> fifo (pess pred o).
Proof.
  intros F t t' L. unfold pess. destruct o as [(lv, soon)|]; [|apply F; auto].
  pose proof (F t t' L). destruct (soon <=? t)%N eqn:E1, (soon <=? t')%N eqn:E2; try lia.
  pose proof (F soon t' ltac:(lia)). lia.
Qed.

Section Eval.
  Variable bs : list N -> N -> option (nat + nat).
  Variable P : N.
  Variable debug : bool.
  Variable adj : td_adj.
  Hypothesis HB : nbs_contract bs.
  Hypothesis HP : (0 < P)%N.
  Hypothesis HW : wf_td P INF adj.

  Notation g := (td_of adj).
  Notation n := (length adj).

  Lemma arc_lt u e v f : arc_at adj u e v f -> u < n /\ nth_error (concat adj) e = Some (v, f).
  Proof using HB HP HW debug.
    intros (k & Hk & ->). destruct (Nat.lt_ge_cases u n) as [Hu|Hu].
    - split; auto. rewrite (nth_error_nth' adj [] Hu : nth_error adj u = Some (nth u adj [])) || idtac.
      rewrite <- Hk. apply (nth_concat adj u (nth u adj []) k).
      + apply nth_error_nth'; auto.
      + apply nth_error_Some_lt in Hk. auto.
    - rewrite nth_overflow in Hk by auto. destruct k; discriminate.
  Qed.

  Lemma plf_new_ok f : valid_ttf P f -> (forall p, In p f -> (fst p + snd p < INF)%N) -> plf_new P debug (map fst f) (map snd f) = Some tt.
  Proof using HB HP HW debug.
    intros HV HS. unfold plf_new. destruct debug; auto. rewrite !map_length, Nat.eqb_refl. cbn [guard bind].
    pose proof (f_nonempty bs P f HB HP HV HS). destruct (length f =? 0) eqn:E; [lia|]. cbn [negb guard bind].
    destruct (vt_end _ _ HV) as (p0 & p & E0 & El & W & O).
    destruct (vt_start _ _ HV) as (w0 & E0'). rewrite E0 in E0'. inversion E0'; subst p0. clear E0'.
    rewrite !nth_error_map, E0, El. cbn [option_map fst snd bind guard].
    replace (0 =? 0)%N with true by auto. cbn [guard bind]. cbn [snd] in W. rewrite W, N.eqb_refl. cbn [guard bind].
    assert (forallb (fun d => (d <? P)%N) (firstn (length f - 1) (map fst f)) = true) as ->.
    { apply forallb_forall. intros x Hx. apply In_nth_error in Hx. destruct Hx as (i & Hi). rewrite nth_error_firstn' in Hi.
      destruct (i <? length f - 1) eqn:Ei; [|discriminate]. rewrite nth_error_map in Hi. destruct (nth_error f i) as [q|] eqn:Eq; inversion Hi; subst.
      destruct O as [O|O]; [lia|]. destruct (pt_asc bs P f HB HP HV HS i (length f - 1) q p) as (A & _); auto; [lia|]. apply N.ltb_lt. lia. }
    cbn [guard bind].
    rewrite windows2_split. assert (forall p q, consec f p q -> (fst p < fst q /\ fst p + snd p <= fst q + snd q /\ fst p + snd p < INF /\ fst q + snd q < INF)%N) as C.
    { intros a b H1. split; [eapply vt_asc; eauto|]. split; [eapply vt_fifo; eauto|]. destruct H1 as (i & A & B). apply nth_error_In in A, B. split; apply HS; auto. }
    clear - C. induction f as [|p [|q r] IH]; auto. cbn [windows2 map foldM].
    destruct (C p q ltac:(exists 0; auto)) as (C1 & C2 & C3 & C4). cbn [fst snd]. destruct (fst p <? fst q)%N eqn:E1; [|lia]. cbn [guard bind].
    rewrite !cadd_ok by (unfold INF, U32 in *; lia). cbn [bind]. destruct (fst p + snd p <=? fst q + snd q)%N eqn:E2; [|lia]. cbn [guard bind].
    apply IH. intros a b (i & A & B). apply C. exists (S i). auto.
  Qed.

  Lemma td_ttf_ok u e v f : arc_at adj u e v f -> td_ttf P debug g e = Some (map fst f, map snd f).
  Proof using HB HP HW debug.
    intros H. destruct (HW _ _ _ _ H) as (_ & HV & HS). destruct (arc_lt _ _ _ _ H) as (_ & En).
    assert (nth_error (map snd (concat adj)) e = Some f) as Ef by (rewrite nth_error_map, En; auto).
    unfold td_ttf, td_of. cbn [td_first_ipp td_dt td_tt]. pose proof (nth_error_Some_lt _ _ _ Ef).
    rewrite (offs_nth _ e) by (apply Nat.lt_le_incl; auto). cbn [bind]. replace (e + 1) with (S e) by lia. rewrite (offs_nth _ (S e)) by auto. cbn [bind].
    rewrite (slice_app fst _ _ _ f) by (apply slice_concat; auto). cbn [bind].
    rewrite (slice_app snd _ _ _ f) by (apply slice_concat; auto). cbn [bind].
    rewrite plf_new_ok by auto. auto.
  Qed.

  Variable pred : nat -> N -> N.
  Hypothesis HPr : td_pred P adj pred.

  Lemma pred_eval u e v f t : arc_at adj u e v f -> plf_eval bs P debug (map fst f) (map snd f) t = Some (pred e t).
  Proof using HB HP HW HPr debug.
    intros H. destruct (HW _ _ _ _ H) as (_ & HV & HS). destruct (eval_ok bs P debug f HB HP HV HS t) as (w & E & V). rewrite E. f_equal.
    apply (val_det bs P f HB HP HV HS (t mod P)%N); auto. apply (val_spec bs P f HB HP HV HS). apply HPr with (1 := H).
  Qed.
  Lemma td_eval_ok u e v f t : arc_at adj u e v f -> td_eval bs P debug g e t = Some (pred e t).
  Proof using HB HP HW HPr debug. intros H. unfold td_eval. rewrite (td_ttf_ok _ _ _ _ H). cbn [bind]. apply (pred_eval _ _ _ _ _ H). Qed.
  Lemma pred_fifo u e v f : arc_at adj u e v f -> fifo (pred e).
  Proof using HB HP HW HPr debug.
    intros H t t' L. destruct (HW _ _ _ _ H) as (_ & HV & HS). apply (eval_fifo bs P debug f HB HP HV HS t _ t'); auto; apply (pred_eval _ _ _ _ _ H).
  Qed.
  Lemma pred_lt u e v f t : arc_at adj u e v f -> (pred e t < INF)%N.
  Proof using HB HP HW HPr debug.
    intros H. destruct (HW _ _ _ _ H) as (_ & HV & HS). pose proof (HPr _ _ _ _ H t) as V. apply (val_spec bs P f HB HP HV HS) in V.
    pose proof (val_bounds bs P f HB HP HV HS _ _ 0%N (INF - 1)%N V) as B. enough (0 <= pred e t <= INF - 1)%N by (unfold INF in *; lia).
    apply B. intros p Hp. specialize (HS p Hp). unfold INF in *. lia.
  Qed.

  Lemma live_eval_ok soon live u e v f t o : arc_at adj u e v f -> nth_error live e = Some o ->
    (forall lv, o = Some lv -> lv <= INF)%N -> (soon <= INF)%N -> (t < INF)%N ->
    live_eval bs P debug g soon live e t = Some (overlay (pred e) o soon t).
  Proof using HB HP HW HPr debug.
    intros H Ho Hlv Hs Ht. unfold live_eval. rewrite (td_ttf_ok _ _ _ _ H). cbn [bind]. rewrite (pred_eval _ _ _ _ _ H). cbn [bind]. rewrite Ho. cbn [bind].
    destruct o as [lv|]; [|reflexivity]. specialize (Hlv lv eq_refl). unfold overlay. destruct (t <? soon)%N eqn:E1; auto.
    rewrite (pred_eval _ _ _ _ _ H). cbn [bind]. destruct (pred e soon <? lv)%N eqn:E2.
    - rewrite cadd_ok by (unfold INF, U32 in *; lia). auto.
    - unfold csubN, sat_add. destruct (soon <=? N.min (lv + t) U32MAX)%N eqn:E3; [|unfold INF, U32MAX in *; lia]. cbn [bind]. f_equal. f_equal. unfold INF, U32MAX in *. lia.
  Qed.

  Lemma pess_eval_ok live u e v f t o : arc_at adj u e v f -> nth_error live e = Some o ->
    (forall lv s, o = Some (lv, s) -> lv <= INF)%N -> 
    pess_eval bs P debug g live e t = Some (pess (pred e) o t).
  Proof using HB HP HW HPr debug.
    intros H Ho Hlv. unfold pess_eval. rewrite (td_ttf_ok _ _ _ _ H). cbn [bind]. rewrite (pred_eval _ _ _ _ _ H). cbn [bind]. rewrite Ho. cbn [bind].
    destruct o as [(lv, soon)|]; [|reflexivity]. specialize (Hlv lv soon eq_refl). unfold pess. destruct (soon <=? t)%N eqn:E1; cbn [bind].
    - f_equal. lia.
    - rewrite (pred_eval _ _ _ _ _ H). cbn [bind]. f_equal. f_equal. unfold sat_add, INF, U32MAX in *. lia.
  Qed.

  Lemma upper_bound_ok live u e v f now o : arc_at adj u e v f -> nth_error live e = Some o ->
    (forall lv s, o = Some (lv, s) -> lv <= INF)%N ->
    exists ub, pess_upper_bound bs P debug g live e now = Some ub /\ forall t, (now <= t)%N -> (pess (pred e) o t <= ub)%N.
  Proof using HB HP HW HPr debug.
    intros H Ho Hlv. unfold pess_upper_bound. rewrite (td_ttf_ok _ _ _ _ H). cbn [bind].
    destruct (HW _ _ _ _ H) as (_ & HV & HS).
    destruct (lmaxN_ok (map snd f)) as (ub & Eu & _ & Hu). { destruct f; [destruct (vt_start _ _ HV) as (? & ?); discriminate|discriminate]. }
    unfold plf_upper_bound. rewrite Eu. cbn [bind]. rewrite Ho. cbn [bind]. rewrite (pess_eval_ok live _ _ _ _ now o H Ho Hlv). cbn [bind]. eexists; split; [reflexivity|].
    assert (forall t, pred e t <= ub)%N as PU.
    { intros t. pose proof (HPr _ _ _ _ H t) as V. apply (val_spec bs P f HB HP HV HS) in V.
      apply (val_bounds bs P f HB HP HV HS _ _ 0%N ub V). intros p Hp. split; [lia|]. apply Hu. apply in_map; auto. }
    intros t Ht. pose proof (PU t). pose proof (PU now). destruct o as [(lv, soon)|]; cbn [pess]; [|lia].
    destruct (soon <=? t)%N eqn:E1, (soon <=? now)%N eqn:E2; lia.
  Qed.
End Eval.

(** ** Lower bounds of the pessimistic overlay *)
Section Lower.
  Variable bs : list N -> N -> option (nat + nat).
  Variable P : N.
  Variable debug : bool.
  Variable adj : td_adj.
  Hypothesis HB : nbs_contract bs.
  Hypothesis HP : (0 < P)%N.
  Hypothesis HW : wf_td P INF adj.
  Variable pred : nat -> N -> N.
  Hypothesis HPr : td_pred P adj pred.
  Notation g := (td_of adj).

  Lemma lrange_ok u e v f a b : arc_at adj u e v f -> (a < b < 2 * P)%N ->
    exists m, lower_bound_in_range bs P debug (map fst f) (map snd f) (a, b) = Some m /\ forall t, (a <= t <= b)%N -> (m <= pred e t)%N.
  Proof using HB HP HW HPr debug.
    intros H R. destruct (HW _ _ _ _ H) as (_ & HV & HS).
    destruct (one_or_more bs P f HB HP HV HS) as [(c & E)|L].
    - exists c. split; [unfold lower_bound_in_range, bound_in_range; rewrite E; reflexivity|].
      intros t _. pose proof (HPr _ _ _ _ H t) as V. apply (val_spec bs P f HB HP HV HS) in V. rewrite (val_len1 bs P f HB HP HV HS _ _ _ E V). lia.
    - destruct (lower_range bs P debug f HB HP HV HS L a b R) as (m & H1 & H2 & _). exists m. split; auto.
      intros t T. apply (H2 t); auto. apply (val_spec bs P f HB HP HV HS). apply (HPr _ _ _ _ H t).
  Qed.

  Lemma live_lower_ok live u e v f now until o : arc_at adj u e v f -> nth_error live e = Some o ->
    (forall lv s, o = Some (lv, s) -> lv <= INF)%N -> (now < until < 2 * P)%N -> (forall lv s, o = Some (lv, s) -> s <> until) ->
    exists lb, pess_live_lower_bound bs P debug g live e now until = Some lb /\
      forall t, (now <= t <= until)%N ->
        (match o with Some (lv, s) => if (s <? until)%N then N.min lv lb else lb | None => lb end <= pess (pred e) o t)%N.
  Proof using HB HP HW HPr debug.
    intros H Ho Hlv R Hne. unfold pess_live_lower_bound. rewrite (td_ttf_ok bs P debug adj HB HP HW _ _ _ _ H). cbn [bind]. rewrite Ho. cbn [bind].
    destruct o as [(lv, soon)|]; cbn [pess].
    - specialize (Hne lv soon eq_refl). specialize (Hlv lv soon eq_refl). destruct (soon <=? until)%N eqn:E1.
      + destruct (lrange_ok _ _ _ _ soon until H) as (m & E & M); [lia|]. exists m. split; auto. intros t T. destruct (soon <? until)%N eqn:E2; [|lia].
        pose proof (M soon ltac:(lia)). destruct (soon <=? t)%N eqn:E3; [pose proof (M t ltac:(lia)); lia|lia].
      + rewrite (pred_eval bs P debug adj HB HP HW pred HPr _ _ _ _ _ H). cbn [bind]. eexists; split; [reflexivity|]. intros t T. destruct (soon <? until)%N eqn:E2; [lia|].
        destruct (soon <=? t)%N eqn:E3; [lia|]. unfold sat_add, INF, U32MAX in *. lia.
    - destruct (lrange_ok _ _ _ _ now until H R) as (m & E & M). exists m. split; auto.
  Qed.

  Lemma switching_ok live u e v f lv soon : arc_at adj u e v f -> nth_error live e = Some (Some (lv, soon)) ->
    exists x, pess_switching bs P debug g live e = Some (Some x) /\ (x <= soon)%N /\
      forall t, (t < x -> pess (pred e) (Some (lv, soon)) t = N.max (pred e t) lv)%N /\
                (x <= t < soon -> soon - x <= lv - pred e soon -> pess (pred e) (Some (lv, soon)) t = N.max (pred e t) (N.min lv (pred e soon + (soon - t))))%N.
  Proof using HB HP HW HPr debug.
    intros H Ho. unfold pess_switching. rewrite Ho. cbn [bind]. rewrite (td_ttf_ok bs P debug adj HB HP HW _ _ _ _ H). cbn [bind].
    rewrite (pred_eval bs P debug adj HB HP HW pred HPr _ _ _ _ _ H). cbn [bind]. eexists; split; [reflexivity|]. split; [lia|].
    intros t. unfold pess. destruct (soon <=? t)%N eqn:E; split; intros; try lia; auto.
  Qed.
End Lower.

(** ** Queries *)
Section Query.
  Context {E : Type}.
  Variable adj : td_adj.
  Notation n := (length adj).
  Notation g := (td_of adj).
  Variable ev : nat -> N -> option N.
  Variable tt : nat -> N -> N.
  Hypothesis Hheads : forall u e v f, arc_at adj u e v f -> v < n.
  Hypothesis Hev : forall u e v f t, arc_at adj u e v f -> (t < INF)%N -> ev e t = Some (tt e t).
  Hypothesis Hle : forall u e v f t, arc_at adj u e v f -> (tt e t <= INF)%N.
  Hypothesis Hfifo : forall u e v f, arc_at adj u e v f -> fifo (tt e).

  Definition tnb (u : nat) : list (nat * nat) := combine (map fst (nth u adj [])) (seq (tlen (firstn u adj)) (length (nth u adj []))).
  Definition tslk (_ : nat) (d : N) (a : nat * nat) : N := (d + tt (snd a) d)%N.

  Lemma td_n_ok : td_n g = n.
  Proof. unfold td_n, td_of. cbn [td_first_out]. rewrite offs_len. lia. Qed.

  Lemma td_links_ok u : u < n -> td_links g u = Some (tnb u).
  Proof using Hheads Hev Hle Hfifo.
    intros Hu. unfold td_links, td_of. cbn [td_first_out td_head]. rewrite (offs_nth _ u) by lia. cbn [bind].
    replace (u + 1) with (S u) by lia. rewrite (offs_nth _ (S u)) by lia. cbn [bind].
    pose proof (nth_error_nth' adj [] Hu) as En. rewrite (slice_app fst _ _ _ (nth u adj [])) by (apply slice_concat; auto). cbn [bind].
    unfold tnb. rewrite (tlen_S _ _ _ En). do 3 f_equal. lia.
  Qed.

  Lemma combine_seq {A} (l : list A) s k x e : nth_error (combine l (seq s (length l))) k = Some (x, e) <-> nth_error l k = Some x /\ e = s + k.
  Proof.
    revert s k. induction l as [|y l IH]; intros s k; cbn [combine length seq].
    - destruct k; cbn; split; [discriminate|intros ([=] & _)|discriminate|intros ([=] & _)].
    - destruct k as [|k]; cbn [nth_error].
      + split; [intros [= -> ->]; split; auto; lia|intros ([= ->] & ->)]. f_equal. f_equal. lia.
      + rewrite IH. split; intros (A1 & ->); split; auto; lia.
  Qed.

  Lemma tnb_in u a : In a (tnb u) <-> exists f, arc_at adj u (snd a) (fst a) f.
  Proof using Hheads Hev Hle Hfifo.
    destruct a as (v, e). cbn [fst snd]. unfold tnb. split.
    - intros H. apply In_nth_error in H. destruct H as (k & H). rewrite <- (map_length fst) in H. apply combine_seq in H. destruct H as (H & ->).
      rewrite nth_error_map in H. destruct (nth_error (nth u adj []) k) as [(v', f)|] eqn:Ek; inversion H; subst. exists f, k. auto.
    - intros (f & k & Hk & ->). apply nth_error_In with (n := k). rewrite <- (map_length fst). apply combine_seq. split; auto. rewrite nth_error_map, Hk. auto.
  Qed.

  Lemma arc_u u e v f : arc_at adj u e v f -> u < n.
  Proof. intros (k & Hk & _). destruct (Nat.lt_ge_cases u n); auto. rewrite nth_overflow in Hk by auto. destruct k; discriminate. Qed.

  Notation gst := (gstep n fst all_edges tnb tslk).
  Lemma gst_step u d v d' : gst u d v d' <-> tt_step adj tt u d v d'.
  Proof using Hheads Hev Hle Hfifo.
    unfold gstep, tt_step, tslk. split.
    - intros (Hu & (v', e) & Ha & _ & Hh & Hd). apply tnb_in in Ha. destruct Ha as (f & Ha). cbn [fst snd] in *. subst. eauto.
    - intros (e & f & Ha & ->). split; [eapply arc_u; eauto|]. exists (v, e). split; [apply tnb_in; eauto|]. auto.
  Qed.
  Lemma reach_iff (st st' : nat -> N -> nat -> N -> Prop) s d0 v d : (forall u d v d', st u d v d' -> st' u d v d') -> reach st s d0 v d -> reach st' s d0 v d.
  Proof. intros H. induction 1; [constructor|econstructor; eauto]. Qed.
  Lemma earliest_iff (st st' : nat -> N -> nat -> N -> Prop) s d0 t r : (forall u d v d', st u d v d' <-> st' u d v d') -> earliest st s d0 t r -> earliest st' s d0 t r.
  Proof.
    intros H. assert (forall v d, reach st s d0 v d <-> reach st' s d0 v d) as R by (intros; split; apply reach_iff; intros; apply H; auto).
    unfold earliest. destruct r; [intros (A & B & C); split; auto; split; [apply R; auto|intros; apply C, R; auto]|intros A d' B; apply A, R; auto].
  Qed.




  Variable pinit : E -> nat -> option E.
  Variable pget : E -> nat -> option (E * option N).
  Variable T : nat -> Prop.
  Variable EI : E -> Prop.
  Variable ET : nat -> E -> Prop.
  Variable h : nat -> nat -> option N.
  Hypothesis HPot : pot_contract n T pinit pget EI ET h.

  Lemma s1 u : u < n -> td_links g u = Some (tnb u). Proof using Hheads Hev Hle Hfifo. apply td_links_ok. Qed.
  Lemma s2 u a : u < n -> In a (tnb u) -> fst a < n.
  Proof using Hheads Hev Hle Hfifo. intros _ H. apply tnb_in in H. destruct H as (f & H). eapply Hheads; eauto. Qed.
  Lemma s3 u a d : u < n -> In a (tnb u) -> (d < INF)%N ->
    exists x, td_lk ev u d a = Some x /\ ((tslk u d a < INF)%N -> x = tslk u d a) /\ ((INF <= tslk u d a)%N -> (INF <= x)%N).
  Proof using Hheads Hev Hle Hfifo.
    intros _ H Hd. apply tnb_in in H. destruct H as (f & H). unfold td_lk. rewrite (Hev _ _ _ _ _ H Hd). cbn [bind]. pose proof (Hle _ _ _ _ d H).
    unfold tslk. rewrite cadd_ok by (unfold INF, U32 in *; lia). eexists; split; [reflexivity|]. auto.
  Qed.
  Lemma s4 u a d d' : u < n -> In a (tnb u) -> (d <= d')%N -> (tslk u d a <= tslk u d' a)%N.
  Proof using Hheads Hev Hle Hfifo. intros _ H Hd. apply tnb_in in H. destruct H as (f & H). unfold tslk. apply (Hfifo _ _ _ _ H); auto. Qed.
  Lemma s5 u a d : u < n -> In a (tnb u) -> (d <= tslk u d a)%N.
  Proof. intros. unfold tslk. lia. Qed.

  Lemma td_query_ok sv s t dep : SvOK n EI sv -> s < n -> (dep < INF)%N -> T t ->
    (forall v p, h t v = Some p -> (p + INF <= U32)%N) ->
    (forall y dy d, reach (tt_step adj tt) s dep y dy -> reach (tt_step adj tt) y dy t d -> (d < INF)%N ->
       exists p, h t y = Some p /\ forall q, h t t = Some q -> (dy + p <= d + q)%N) ->
    exists sv' r, td_query pinit pget g ev sv s t dep = Some (sv', r) /\ SvOK n EI sv' /\ earliest (tt_step adj tt) s dep t r /\
      forall x, r = Some x -> exists p, sv_node_path sv' s t = Some p /\ NoDup p /\
        exists q, reach_path nat (fun u d e v d' => exists f, arc_at adj u e v f /\ d' = (d + tt e d)%N) s dep t x p q.
  Proof using Hheads Hev Hle Hfifo HPot.
    intros HSv Hs Hd HT Hp Hadm. unfold td_query. rewrite td_n_ok.
    destruct (sv_distance_ok n (td_links g) fst (td_lk ev) td_pl pinit pget tnb tslk T EI ET h s1 s2 s3 s4 s5 HPot sv s t dep HSv Hs Hd HT Hp)
      as (sv' & r & E1 & S1 & X1 & P1).
    { intros y dy d R1 R2 Hd'. apply (Hadm y dy d); auto; (eapply reach_iff; [|eassumption]); intros; apply gst_step; auto. }
    exists sv', r. split; auto. split; auto. split; [eapply earliest_iff; [|exact X1]; apply gst_step|].
    intros x ->. destruct (P1 x eq_refl) as (_ & _ & p & q & Ep & _ & RP & ND). exists p. split; auto. split; auto.
    clear - RP Hheads Hev Hle Hfifo. induction RP as [|v d l y d' p q RP (q' & IH) (Hv & (v', e) & Ha & _ & Hh & Hdd & _)].
    - exists []. constructor.
    - apply tnb_in in Ha. destruct Ha as (f & Ha). cbn [fst snd] in *. subst v'. exists (q' ++ [e]). econstructor; [exact IH|]. exists f. split; auto.
  Qed.

  (** any history of queries *)
  Hypothesis Hsmall : forall t v p, h t v = Some p -> (p + INF <= U32)%N.
  Hypothesis Hadm : forall t y dy d, T t -> reach (tt_step adj tt) y dy t d -> (d < INF)%N ->
    exists p, h t y = Some p /\ forall q, h t t = Some q -> (dy + p <= d + q)%N.
  Lemma td_history_ok qs sv : SvOK n EI sv -> (forall q, In q qs -> fst (fst q) < n /\ T (snd (fst q)) /\ (snd q < INF)%N) ->
    exists sv', td_history pinit pget g ev sv qs = Some sv' /\ SvOK n EI sv'.
  Proof using Hheads Hev Hle Hfifo HPot Hsmall Hadm.
    intros HS Hq. unfold td_history. apply foldM_inv with (I := fun _ sv => SvOK n EI sv); auto.
    intros pre ((s, t), dep) post sv1 Eq HS1. destruct (Hq (s, t, dep)) as (A & B & C). { rewrite Eq. apply in_or_app. right. left. auto. }
    cbn [fst snd] in *. destruct (td_query_ok sv1 s t dep HS1 A C B (Hsmall t)) as (sv' & r & E1 & S1 & _). { intros y dy d _ R D. apply Hadm; auto. }
    exists sv'. rewrite E1. auto.
  Qed.
  Lemma td_after_history qs sv s t dep : SvOK n EI sv -> (forall q, In q (qs ++ [(s, t, dep)]) -> fst (fst q) < n /\ T (snd (fst q)) /\ (snd q < INF)%N) ->
    exists sv1 sv2 r, td_history pinit pget g ev sv qs = Some sv1 /\ td_query pinit pget g ev sv1 s t dep = Some (sv2, r) /\
      earliest (tt_step adj tt) s dep t r /\
      forall x, r = Some x -> exists p, sv_node_path sv2 s t = Some p /\ NoDup p /\
        exists q, reach_path nat (fun u d e v d' => exists f, arc_at adj u e v f /\ d' = (d + tt e d)%N) s dep t x p q.
  Proof using Hheads Hev Hle Hfifo HPot Hsmall Hadm.
    intros HS Hq. destruct (td_history_ok qs sv HS) as (sv1 & E1 & S1). { intros q Q. apply Hq. apply in_or_app; auto. }
    destruct (Hq (s, t, dep)) as (A & B & C). { apply in_or_app. right. left. auto. } cbn [fst snd] in *.
    destruct (td_query_ok sv1 s t dep S1 A C B (Hsmall t)) as (sv' & r & E2 & S2 & X & PP). { intros y dy d _ R D. apply Hadm; auto. }
    exists sv1, sv', r. auto.
  Qed.
End Query.

(** Arrival is never before departure. *)
Lemma tt_reach_ge adj tt y dy t d : reach (tt_step adj tt) y dy t d -> (dy <= d)%N.
Proof. induction 1 as [|v d' y' d'' _ IH (e & f & _ & ->)]; lia. Qed.

(** ** The prediction as a function *)
Section Pred.
  Variable bs : list N -> N -> option (nat + nat).
  Variable P : N.
  Variable adj : td_adj.
  Hypothesis HB : nbs_contract bs.
  Hypothesis HP : (0 < P)%N.
  Hypothesis HW : wf_td P INF adj.
  Definition the_pred (e : nat) (t : N) : N := match td_eval bs P false (td_of adj) e t with Some w => w | None => 0%N end.
  Lemma the_pred_ok : td_pred P adj the_pred.
  Proof using HB HP HW.
    intros u e v f H t. destruct (HW _ _ _ _ H) as (_ & HV & HS). unfold the_pred, td_eval. rewrite (td_ttf_ok bs P false adj HB HP HW _ _ _ _ H). cbn [bind].
    destruct (eval_ok bs P false f HB HP HV HS t) as (w & E & V). rewrite E. apply (val_spec bs P f HB HP HV HS). auto.
  Qed.
  Lemma value_det u e v f t w w' : arc_at adj u e v f -> ttf_value P f t w -> ttf_value P f t w' -> w = w'.
  Proof using HB HP HW.
    intros H V V'. destruct (HW _ _ _ _ H) as (_ & HV & HS). apply (val_spec bs P f HB HP HV HS) in V, V'. apply (val_det bs P f HB HP HV HS _ _ _ V V').
  Qed.
  Lemma step_pred pred : td_pred P adj pred -> forall u d v d', tt_step adj pred u d v d' <-> td_step P adj u d v d'.
  Proof using HB HP HW.
    intros HPr u d v d'. split.
    - intros (e & f & H & ->). exists e, f, (pred e d). split; auto. split; auto. apply (HPr _ _ _ _ H).
    - intros (e & f & w & H & V & ->). exists e, f. split; auto. rewrite (value_det _ _ _ _ d w (pred e d) H V); auto. apply (HPr _ _ _ _ H).
  Qed.
End Pred.
