(** Bucket selection: what the run over the queue leaves in the buckets. *)
From Coq Require Import Permutation.
From Verif Require Import Base SpecPQ SpecGraph SpecCCH SpecCH IndexHeap IndexHeapProof Graph Dijkstra LoopProof CCHContractProof Bucket.

Lemma NoDup_app_intro {A} (l l' : list A) : NoDup l -> NoDup l' -> (forall x, In x l -> In x l' -> False) -> NoDup (l ++ l').
Proof. intros H1 H2 H3. induction H1 as [|x l Nx H1 IH]; cbn; auto. constructor. { intros Hin. apply in_app_or in Hin. destruct Hin as [Hin|Hin]; auto. apply (H3 x); auto. left; auto. } apply IH. intros y Hy. apply H3. right; auto. Qed.

Lemma nat_laws : order_laws Nat.ltb.
Proof. split; intros; repeat match goal with H : (_ <? _) = true |- _ => apply Nat.ltb_lt in H | H : (_ <? _) = false |- _ => apply Nat.ltb_ge in H end; apply Nat.ltb_ge; lia. Qed.

Notation qabs := (abs nat).
Notation QInv := (Inv nat nid Nat.ltb).
Lemma qself n q c x : QInv n q -> qabs q c = Some x -> x = c.
Proof. intros I H. apply (abs_In' nat nid) in H; [|apply (inv_wf _ _ _ _ _ I)]. apply H. Qed.
Definition qin (q : bqueue) (c : nat) : Prop := qabs q c <> None.

Lemma bq_push_ok n q c : QInv n q -> c < n -> ~ qin q c -> exists q', bq_push q c = Some q' /\ QInv n q' /\ forall d, qin q' d <-> qin q d \/ d = c.
Proof.
  intros I Hc NQ. destruct (hpush_spec nat nid Nat.ltb nat_laws n q c I) as (q' & E & I' & A); auto. { destruct (qabs q (nid c)) eqn:Q; auto. exfalso. apply NQ. unfold qin, nid in *. congruence. }
  exists q'. split; auto. split; auto. intros d. unfold qin. rewrite A. unfold put, nid. destruct (Nat.eqb_spec d c) as [->|Ne]; [intuition congruence|]. split; [auto|intros [H|H]; auto; lia].
Qed.
Lemma bq_push_unless_ok n q c : QInv n q -> c < n -> exists q', bq_push_unless q c = Some q' /\ QInv n q' /\ forall d, qin q' d <-> qin q d \/ d = c.
Proof.
  intros I Hc. unfold bq_push_unless, hpush_unless. rewrite (hcontains_abs nat nid Nat.ltb n q (nid c) I Hc). cbn [bind]. unfold nid at 1. destruct (qabs q c) as [x|] eqn:Q; cbn [negb].
  - exists q. split; auto. split; auto. intros d. split; auto. intros [H|H]; auto. subst. unfold qin. congruence.
  - destruct (bq_push_ok n q c I Hc) as (q' & E & I' & A). { unfold qin. congruence. } exists q'. auto.
Qed.

(** ** Noting arcs *)
Lemma note_fold n node ls : forall arr q, (forall c w, In (c, w) ls -> c < n) -> length arr = n -> QInv n q ->
  exists arr' q', foldM (bs_note node) ls (arr, q) = Some (arr', q') /\ length arr' = n /\ QInv n q' /\
    (forall c l', nth_error arr' c = Some l' -> exists l, nth_error arr c = Some l /\ forall x, In x l' <-> In x l \/ exists w, In (c, w) ls /\ x = (node, w)) /\
    (forall c, ~ In c (map fst ls) -> nth_error arr' c = nth_error arr c) /\
    forall c, qin q' c <-> qin q c \/ In c (map fst ls).
Proof.
  induction ls as [|[c0 w0] ls IH]; intros arr q HL LA I; cbn [foldM].
  - exists arr, q. split; auto. split; auto. split; auto. split. { intros c l' E. exists l'. split; auto. intros x. split; auto. intros [H|(w & [] & _)]; auto. } split; auto. intros c. cbn. tauto.
  - assert (Hc0 : c0 < n) by (eapply HL; left; eauto). unfold bs_note at 1. cbn [fst snd]. destruct (nth_error_lt arr c0) as (l0 & E0); [lia|]. rewrite E0. cbn [bind]. rewrite set_at_lt by lia. cbn [bind].
    destruct (bq_push_unless_ok n q c0 I Hc0) as (q1 & Eq & I1 & A1). rewrite Eq. cbn [bind].
    destruct (IH (upd arr c0 (l0 ++ [(node, w0)])) q1) as (arr' & q' & E & L' & I' & HA & HU & HQ); auto. { intros; eapply HL; right; eauto. } { rewrite upd_length; auto. }
    exists arr', q'. split; auto. split; auto. split; auto. split.
    { intros c l' El. destruct (HA c l' El) as (l1 & E1 & H1). destruct (Nat.eq_dec c c0) as [->|Ne].
      - rewrite nth_error_upd_eq in E1 by lia. injection E1 as <-. exists l0. split; auto. intros x. rewrite H1, in_app_iff. cbn. split.
        + intros [[H|[<-|[]]]|(w & Hw & ->)]; auto. { right. exists w0. auto. } right. exists w. auto.
        + intros [H|(w & [[= ->]|Hw] & ->)]; auto. right. eauto.
      - rewrite nth_error_upd_neq in E1 by auto. exists l1. split; auto. intros x. rewrite H1. split.
        + intros [H|(w & Hw & ->)]; auto. right. exists w. cbn. auto.
        + intros [H|(w & [[= -> _]|Hw] & ->)]; auto; try tauto. right. eauto. }
    split. { intros c Hc. cbn in Hc. rewrite HU by tauto. apply nth_error_upd_neq. intros ->. tauto. }
    intros c. rewrite HQ, A1. cbn. split; [intros [[H|H]|H]; auto|intros [H|[H|H]]; auto].
Qed.

(** ** Collecting the bucket entries of lower neighbours; [E] are the entries seen so far *)
Record Coll (n : nat) (E : list (nat * N)) (td : list N) (used : list nat) : Prop := {
  cl_len : length td = n;
  cl_td : forall i x, nth_error td i = Some x -> (x <= INF)%N /\ (x = INF \/ In (i, x) E) /\ forall x', In (i, x') E -> (x <= x')%N;
  cl_used : forall i, In i used <-> exists x, In (i, x) E;
  cl_nd : (forall i x, In (i, x) E -> (x < INF)%N) -> NoDup used }.
Lemma coll_one n w l : (w <= INF)%N -> (forall i d, In (i, d) l -> i < n /\ (d <= INF)%N) -> forall E td used, Coll n E td used ->
  exists td' used', foldM (bs_collect1 w) l (td, used) = Some (td', used') /\ Coll n (E ++ map (fun e => (fst e, (snd e + w)%N)) l) td' used'.
Proof.
  intros Hw. induction l as [|[i d] l IH]; intros HL E td used C; cbn [foldM].
  - exists td, used. cbn. rewrite app_nil_r. auto.
  - destruct (HL i d ltac:(left; auto)) as [Hi Hd]. unfold bs_collect1 at 1. cbn [fst snd]. destruct C as [C1 C2 C3 C4]. destruct (nth_error_lt td i) as (o & Eo); [lia|]. rewrite Eo. cbn [bind].
    rewrite cadd_ok by (unfold INF, U32 in *; lia). cbn [bind]. rewrite set_at_lt by lia. cbn [bind].
    destruct (IH ltac:(intros; apply HL; right; auto) (E ++ [(i, (d + w)%N)]) (upd td i (N.min o (d + w))) (if (o =? INF)%N then used ++ [i] else used)) as (td' & used' & E' & C').
    { split.
      - rewrite upd_length; auto.
      - intros j x Ex. destruct (Nat.eq_dec j i) as [->|Ne].
        + rewrite nth_error_upd_eq in Ex by lia. injection Ex as <-. destruct (C2 i o Eo) as (O1 & O2 & O3). split; [lia|]. split.
          * destruct (N.min_spec o (d + w)) as [[L M]|[L M]]; rewrite M. { destruct O2; auto. right. apply in_or_app; auto. } destruct (N.eq_dec (d + w) INF); auto. right. apply in_or_app. right; left; auto.
          * intros x' Hx'. apply in_app_or in Hx'. destruct Hx' as [Hx'|[Hx'|[]]]. { apply O3 in Hx'. lia. } injection Hx' as <-. lia.
        + rewrite nth_error_upd_neq in Ex by auto. destruct (C2 j x Ex) as (O1 & O2 & O3). split; auto. split. { destruct O2; auto. right. apply in_or_app; auto. }
          intros x' Hx'. apply in_app_or in Hx'. destruct Hx' as [Hx'|[Hx'|[]]]; auto. injection Hx' as <- <-. tauto.
      - intros j. assert (J : In j (if (o =? INF)%N then used ++ [i] else used) <-> In j used \/ j = i).
        { destruct (N.eqb_spec o INF) as [->|No]. { rewrite in_app_iff. cbn. intuition. } split; auto. intros [H|H]; auto. subst j. apply C3. destruct (C2 i o Eo) as (_ & [O|O] & _); [tauto|eauto]. }
        rewrite J, C3. split.
        + intros [(x & Hx)|Hj]. { exists x. apply in_or_app; auto. } subst. exists (d + w)%N. apply in_or_app. right; left; auto.
        + intros (x & Hx). apply in_app_or in Hx. destruct Hx as [Hx|[Hx|[]]]; eauto. injection Hx as <- <-. auto.
      - intros HE. assert (HE' : forall j x, In (j, x) E -> (x < INF)%N) by (intros j x Hx; eapply HE; apply in_or_app; eauto). destruct (N.eqb_spec o INF) as [Eo'|No]; auto.
        apply NoDup_app_intro; auto. { constructor; auto. constructor. } intros j Hj [<-|[]]. apply C3 in Hj. destruct Hj as (x & Hx). destruct (C2 i o Eo) as (_ & _ & O3). specialize (O3 x Hx). specialize (HE' i x Hx). lia. }
    exists td', used'. split; auto. cbn [map fst snd]. replace (E ++ (i, (d + w)%N) :: map (fun e => (fst e, (snd e + w)%N)) l) with ((E ++ [(i, (d + w)%N)]) ++ map (fun e => (fst e, (snd e + w)%N)) l) by (rewrite <- app_assoc; auto). auto.
Qed.
(** all entries that reach a node over the arcs [inc] *)
Definition reached_by (dist : list (list (nat * N))) (inc : list (nat * N)) : list (nat * N) :=
  flat_map (fun a => map (fun e => (fst e, (snd e + snd a)%N)) (nth (fst a) dist [])) inc.
Lemma coll_all n dist inc : length dist = n -> (forall u w, In (u, w) inc -> u < n /\ (w <= INF)%N) -> (forall u l i d, nth_error dist u = Some l -> In (i, d) l -> i < n /\ (d <= INF)%N) ->
  forall E td used, Coll n E td used -> exists td' used', foldM (bs_collect dist) inc (td, used) = Some (td', used') /\ Coll n (E ++ reached_by dist inc) td' used'.
Proof.
  intros LD. induction inc as [|[u w] inc IH]; intros HI HD E td used C; cbn [foldM].
  - exists td, used. cbn. rewrite app_nil_r. auto.
  - destruct (HI u w ltac:(left; auto)) as [Hu Hw]. unfold bs_collect at 1. cbn [fst snd]. destruct (nth_error_lt dist u) as (l & El); [lia|]. rewrite El. cbn [bind].
    destruct (coll_one n w l Hw (fun i d => HD u l i d El) E td used C) as (td1 & used1 & E1 & C1). rewrite E1. cbn [bind].
    destruct (IH ltac:(intros; apply HI; right; auto) HD _ td1 used1 C1) as (td' & used' & E' & C'). exists td', used'. split; auto.
    unfold reached_by. cbn [flat_map fst snd]. rewrite (nth_error_nth _ _ _ El). rewrite app_assoc. auto.
Qed.
Lemma coll_start n : Coll n [] (repeat INF n) [].
Proof.
  split. { apply repeat_length. } { intros i x Ex. apply nth_error_In, repeat_spec in Ex. subst. split; [lia|]. split; auto. intros x' []. } { intros i. split; [intros []|intros (x & [])]. } intros _. constructor.
Qed.

(** ** Pruning *)
Lemma filter_true {A} (f : A -> bool) l : (forall x, In x l -> f x = true) -> filter f l = l.
Proof. intros H. induction l as [|x l IH]; cbn; auto. rewrite (H x) by (left; auto). rewrite IH; auto. intros; apply H; right; auto. Qed.
Lemma filter_and {A} (f g : A -> bool) l : filter (fun x => (f x && g x)%bool) l = filter g (filter f l).
Proof. induction l as [|x l IH]; cbn; auto. destruct (f x); cbn; rewrite IH; auto. Qed.
Lemma retain_ok n td w l : length td = n -> (forall i x, nth_error td i = Some x -> (x <= INF)%N) -> (w <= INF)%N -> (forall i d, In (i, d) l -> i < n) ->
  exists f, bs_retain td w l = Some (filter f l) /\ (forall i d x, In (i, d) l -> nth_error td i = Some x -> In (i, d) (filter f l) \/ (x + w <= d)%N).
Proof.
  intros LT HT Hw HL. exists (fun e => (snd e <? nth (fst e) td 0 + w)%N). split.
  - induction l as [|[i d] l IH]; cbn [bs_retain filter]; auto. pose proof (HL i d ltac:(left; auto)) as Hi. cbn [fst snd]. destruct (nth_error_lt td i) as (o & Eo); [lia|]. rewrite Eo. cbn [bind]. pose proof (HT i o Eo). rewrite cadd_ok by (unfold INF, U32 in *; lia). cbn [bind].
    rewrite IH by (intros; eapply HL; right; eauto). cbn [bind]. rewrite (nth_error_nth _ _ _ Eo). auto.
  - intros i d x Hin Ex. destruct (N.ltb_spec d (x + w)) as [L|L]; auto. left. apply filter_In. split; auto. cbn [fst snd]. rewrite (nth_error_nth _ _ _ Ex). apply N.ltb_lt. auto.
Qed.
Lemma prune_fold n td low : length td = n -> (forall i x, nth_error td i = Some x -> (x <= INF)%N) -> (forall u w, In (u, w) low -> u < n /\ (w <= INF)%N) ->
  forall dist, length dist = n -> (forall u l i d, nth_error dist u = Some l -> In (i, d) l -> i < n) ->
  exists dist', foldM (bs_prune td) low dist = Some dist' /\ length dist' = n /\ (forall u, ~ In u (map fst low) -> nth_error dist' u = nth_error dist u) /\
    forall u l, nth_error dist u = Some l -> exists f, nth_error dist' u = Some (filter f l) /\
      forall i d x, In (i, d) l -> nth_error td i = Some x -> In (i, d) (filter f l) \/ exists w, In (u, w) low /\ (x + w <= d)%N.
Proof.
  intros LT HT. induction low as [|[u0 w0] low IH]; intros HL dist LD HD; cbn [foldM].
  - exists dist. split; auto. split; auto. split; auto. intros u l El. exists (fun _ => true). rewrite filter_true by auto. auto.
  - destruct (HL u0 w0 ltac:(left; auto)) as [Hu0 Hw0]. unfold bs_prune at 1. cbn [fst snd]. destruct (nth_error_lt dist u0) as (l0 & E0); [lia|]. rewrite E0. cbn [bind].
    destruct (retain_ok n td w0 l0 LT HT Hw0) as (f0 & Er & Kr). { intros i d Hin. eapply HD; eauto. } rewrite Er. cbn [bind]. rewrite set_at_lt by lia. cbn [bind].
    destruct (IH ltac:(intros; apply HL; right; auto) (upd dist u0 (filter f0 l0))) as (dist' & E & L' & HU & K). { rewrite upd_length; auto. }
    { intros u l i d El Hin. destruct (Nat.eq_dec u u0) as [->|Ne]. { rewrite nth_error_upd_eq in El by lia. injection El as <-. apply filter_In in Hin. destruct Hin. eapply HD; eauto. } rewrite nth_error_upd_neq in El by auto. eapply HD; eauto. }
    exists dist'. split; auto. split; auto. split. { intros u Hu. cbn in Hu. rewrite HU by tauto. apply nth_error_upd_neq. intros ->. tauto. }
    intros u l El. destruct (Nat.eq_dec u u0) as [->|Ne].
    + assert (l = l0) by congruence. subst l. destruct (K u0 (filter f0 l0)) as (f & El' & K'). { apply nth_error_upd_eq. lia. } exists (fun x => (f0 x && f x)%bool). rewrite filter_and. split; auto.
      intros i d x Hin Ex. destruct (Kr i d x Hin Ex) as [Hr|Hr]. 2: { right. exists w0. split; [left; auto|auto]. }
      destruct (K' i d x Hr Ex) as [H|(w & Hw & H)]; auto. right. exists w. split; [right; auto|auto].
    + destruct (K u l) as (f & El' & K'). { rewrite nth_error_upd_neq by auto. auto. } exists f. split; auto.
      intros i d x Hin Ex. destruct (K' i d x Hin Ex) as [H|(w & Hw & H)]; auto. right. exists w. split; [right; auto|auto].
Qed.

(** ** New entries and the reset *)
Lemma new_entries td used : (forall i, In i used -> i < length td) -> mapM (fun i => x <- nth_error td i ;; Some (i, x)) used = Some (map (fun i => (i, nth i td 0%N)) used).
Proof.
  intros H. induction used as [|i used IH]; cbn [mapM map]; auto. destruct (nth_error_lt td i) as (x & Ex). { apply H; left; auto. } rewrite Ex. cbn [bind]. rewrite IH by (intros; apply H; right; auto). cbn [bind]. rewrite (nth_error_nth _ _ _ Ex). auto.
Qed.
Lemma all_repeat {A} (a : A) l : (forall x, In x l -> x = a) -> l = repeat a (length l).
Proof. intros H. induction l as [|x l IH]; cbn; auto. f_equal; [apply H; left; auto|apply IH; intros; apply H; right; auto]. Qed.
Lemma reset_ok n : forall used td, length td = n -> (forall i, In i used -> i < n) -> (forall i x, nth_error td i = Some x -> x = INF \/ In i used) ->
  foldM (fun td i => set_at td i INF) used td = Some (repeat INF n).
Proof.
  induction used as [|i used IH]; intros td LT HU HT; cbn [foldM].
  - f_equal. rewrite <- LT. apply all_repeat. intros x Hx. apply In_nth_error in Hx. destruct Hx as (j & Ex). destruct (HT j x Ex) as [->|[]]. auto.
  - rewrite set_at_lt by (rewrite LT; apply HU; left; auto). cbn [bind]. apply IH. { rewrite upd_length; auto. } { intros; apply HU; right; auto. }
    intros j x Ex. destruct (Nat.eq_dec j i) as [->|Ne]. { rewrite nth_error_upd_eq in Ex by (rewrite LT; apply HU; left; auto). injection Ex as <-. auto. } rewrite nth_error_upd_neq in Ex by auto. destruct (HT j x Ex) as [H|[H|H]]; auto. congruence.
Qed.

Lemma up_arc n links u v w : upward n links -> garc links u v w -> u < n -> u < v /\ v < n /\ (w <= INF)%N.
Proof. intros U (ls & El & Hin) Hu. destruct (U u Hu) as (ls' & El' & H). assert (ls' = ls) by congruence. subst. eapply H; eauto. Qed.
Lemma in_reached dist inc i x : In (i, x) (reached_by dist inc) <-> exists u w d, In (u, w) inc /\ In (i, d) (nth u dist []) /\ x = (d + w)%N.
Proof.
  unfold reached_by. rewrite in_flat_map. split.
  - intros ([u w] & Ha & Hb). apply in_map_iff in Hb. destruct Hb as ([j d] & E & Hb). injection E as <- <-. cbn in *. eauto 6.
  - intros (u & w & d & Ha & Hb & ->). exists (u, w). split; auto. apply in_map_iff. exists (i, d). auto.
Qed.
Lemma walk_snoc arc a c l e w : walk arc a c l -> arc c e w -> walk arc a e (l + w).
Proof. intros W A. replace (l + w)%N with (l + (w + 0))%N by lia. eapply walk_app; eauto. econstructor; eauto. constructor. Qed.

Section Run.
  Context (n : nat) (lf lb : nat -> option (list (nat * N))) (ts : list nat) (post : list (nat * N) -> list (nat * N)).
  Hypothesis UF : upward n lf.
  Hypothesis UB : upward n lb.
  Hypothesis HN : NoDup ts.
  Hypothesis HT : forall t, In t ts -> t < n.
  Hypothesis HP : forall l, Permutation l (post l).
  (** all upward paths are shorter than INFINITY *)
  Definition SHORT : Prop := forall u v l, u < n -> walk (garc lb) u v l -> (l < INF)%N.
  (** a property of lists that the caller establishes and that no pruning destroys *)
  Context (R : list (nat * N) -> Prop).
  Hypothesis HR : forall l, (SHORT -> NoDup (map fst l)) -> R (post l).
  Hypothesis HR0 : R [].
  Hypothesis HRf : forall f l, R l -> R (filter f l).

  Lemma num_ts i t : nth_error ts i = Some t -> i < n /\ t < n.
  Proof.
    intros E. assert (L : length ts <= n). { rewrite <- (seq_length n 0). apply NoDup_incl_length; auto. intros x Hx. apply in_seq. apply HT in Hx. lia. }
    split. { apply nth_error_Some_lt in E. lia. } apply HT. eapply nth_error_In; eauto.
  Qed.

  (** what is known when all nodes below [m] are settled; [S u]: bucket of [u] right after [u] was settled *)
  Record BI (m : nat) (S : nat -> list (nat * N)) (b : bsel) : Prop := {
    bi_ld : length (bs_dist b) = n; bi_li : length (bs_in b) = n; bi_lp : length (bs_pr b) = n;
    bi_td : bs_td b = repeat INF n; bi_us : bs_used b = [];
    bi_q : QInv n (bs_queue b);
    bi_qm : forall v, qin (bs_queue b) v -> m <= v;
    bi_in : forall c l u w, nth_error (bs_in b) c = Some l -> In (u, w) l -> u < m /\ u < n /\ garc lb u c w /\ qin (bs_queue b) c;
    bi_pr : forall c l u w, nth_error (bs_pr b) c = Some l -> In (u, w) l -> u < m /\ u < n /\ garc lf u c w /\ qin (bs_queue b) c;
    bi_act : forall u c w, u < m -> S u <> [] -> garc lb u c w -> m <= c -> exists l, nth_error (bs_in b) c = Some l /\ In (u, w) l;
    bi_hi : forall u, m <= u -> S u = [] /\ forall l, nth_error (bs_dist b) u = Some l -> NoDup (map fst l) /\ forall i d, In (i, d) l <-> nth_error ts i = Some u /\ d = 0%N;
    bi_tq : forall i t, nth_error ts i = Some t -> m <= t -> qin (bs_queue b) t;
    bi_lo : forall u l, u < m -> nth_error (bs_dist b) u = Some l -> incl l (S u);
    bi_cut : forall u l i d, u < m -> nth_error (bs_dist b) u = Some l -> In (i, d) (S u) -> (d < INF)%N -> In (i, d) l \/
      exists z w dz, u < z < m /\ garc lf u z w /\ In (i, dz) (S z) /\ (dz + w <= d)%N;
    bi_prop : forall u c i d w, u < m -> c < m -> In (i, d) (S u) -> (d < INF)%N -> garc lb u c w -> (exists d', (d' <= d + w)%N /\ In (i, d') (S c)) \/
      exists z w' dz, u < z < c /\ garc lf u z w' /\ In (i, dz) (S z) /\ (dz + w' <= d)%N;
    bi_snd : forall u i d, In (i, d) (S u) -> exists t, nth_error ts i = Some t /\ t <= u /\ u < n /\ (d <= INF)%N /\ (u = t -> d = 0%N) /\ ((d < INF)%N -> walk (garc lb) t u d) /\ (SHORT -> (d < INF)%N);
    bi_same : forall u i d d', In (i, d) (S u) -> In (i, d') (S u) -> d = d';
    bi_own : forall i t, nth_error ts i = Some t -> t < m -> In (i, 0%N) (S t);
    bi_r : forall u l, u < m -> nth_error (bs_dist b) u = Some l -> R l }.

  (** nodes that are not in the queue are skipped *)
  Lemma bi_skip m v S b : BI m S b -> m <= v -> (forall u, m <= u -> u < v -> ~ qin (bs_queue b) u) -> BI v S b.
  Proof.
    intros B Hv HQ. destruct B as [B1 B2 B3 B4 B5 B6 B7 B8 B9 B10 B11 B12 B13 B14 B15 B16 B17 B18 B19].
    assert (SE : forall u, m <= u -> S u = []) by (intros u Hu; apply B11; auto).
    split; auto.
    - intros u Hu. destruct (Nat.lt_ge_cases u v) as [L|]; auto. specialize (B7 u Hu). exfalso. exact (HQ u B7 L Hu).
    - intros c l u w El Hin. destruct (B8 c l u w El Hin) as (? & ? & ? & ?). repeat split; auto. lia.
    - intros c l u w El Hin. destruct (B9 c l u w El Hin) as (? & ? & ? & ?). repeat split; auto. lia.
    - intros u c w Hu NE Ha Hc. destruct (Nat.lt_ge_cases u m) as [L|L]. { apply B10; auto. lia. } exfalso. auto.
    - intros u Hu. apply B11. lia.
    - intros i t Et Ht. eapply B12; eauto. lia.
    - intros u l Hu El. destruct (Nat.lt_ge_cases u m) as [L|L]; [eauto|]. intros [i d] Hin. exfalso. destruct (B11 u L) as [_ X]. apply (proj2 (X l El)) in Hin. destruct Hin as [Et _]. apply (HQ u); auto. eapply B12; eauto.
    - intros u l i d Hu El Hin Hd. destruct (Nat.lt_ge_cases u m) as [L|L]. 2: { rewrite (SE u L) in Hin. destruct Hin. }
      destruct (B14 u l i d L El Hin Hd) as [H|(z & w & dz & Hz & Ha & Hin' & Hl)]; auto. right. exists z, w, dz. split; [lia|auto].
    - intros u c i d w Hu Hc Hin Hd Ha. destruct (Nat.lt_ge_cases u m) as [L|L]. 2: { rewrite (SE u L) in Hin. destruct Hin. }
      destruct (Nat.lt_ge_cases c m) as [Lc|Lc]. { eapply B15; eauto. }
      exfalso. destruct (B10 u c w L) as (l & El & Hl); auto. { intros C. rewrite C in Hin. destruct Hin. } destruct (B8 c l u w El Hl) as (_ & _ & _ & Q). apply (HQ c Lc Hc Q).
    - intros i t Et Ht. destruct (Nat.lt_ge_cases t m) as [L|L]; eauto. exfalso. apply (HQ t L Ht). eapply B12; eauto.
    - intros u l Hu El. destruct (Nat.lt_ge_cases u m) as [L|L]; [eauto|]. destruct l as [|[i d] l]; auto. exfalso. destruct (B11 u L) as [_ X]. destruct (proj1 (proj2 (X _ El) i d) ltac:(left; auto)) as [Et _]. apply (HQ u L Hu). eapply B12; eauto.
  Qed.


  Lemma settle_ok v S b q : BI v S b -> qin (bs_queue b) v -> v < n -> QInv n q -> (forall c, qin q c <-> qin (bs_queue b) c /\ c <> v) ->
    exists b' S', bs_settle lb lf post b q v = Some b' /\ BI (Datatypes.S v) S' b' /\ (forall u, u <> v -> S' u = S u) /\ exists l, nth_error (bs_dist b') v = Some l /\ S' v = l /\ exists l0, l = post l0.
  Proof.
    intros B Qv Hv Iq HQ. pose proof B as [B1 B2 B3 B4 B5 B6 B7 B8 B9 B10 B11 B12 B13 B14 B15 B16 B17 B18 B19]. unfold bs_settle.
    destruct (nth_error_lt (bs_in b) v) as (inc & Einc); [lia|]. rewrite Einc. cbn [bind]. destruct (nth_error_lt (bs_dist b) v) as (own & Eown); [lia|]. rewrite Eown. cbn [bind].
    destruct (proj2 (B11 v (le_n v)) own Eown) as [NDO OWN].
    set (act := (negb (length inc =? 0) || negb (length own =? 0))%bool).
    destruct (UB v Hv) as (lsb & Elb & HLb). destruct (UF v Hv) as (lsf & Elf & HLf).
    assert (X1 : exists ins prs q', (if act then ls <- lb v ;; '(ins, q) <- foldM (bs_note v) ls (bs_in b, q) ;; ls <- lf v ;; '(prs, q) <- foldM (bs_note v) ls (bs_pr b, q) ;; Some (ins, prs, q) else Some (bs_in b, bs_pr b, q)) = Some (ins, prs, q') /\
      length ins = n /\ length prs = n /\ QInv n q' /\ nth_error ins v = Some inc /\ nth_error prs v = nth_error (bs_pr b) v /\
      (forall c l', nth_error ins c = Some l' -> exists l, nth_error (bs_in b) c = Some l /\ incl l l' /\ (act = true -> forall w, garc lb v c w -> In (v, w) l') /\ forall x, In x l' -> In x l \/ exists w, garc lb v c w /\ x = (v, w) /\ qin q' c) /\
      (forall c l', nth_error prs c = Some l' -> exists l, nth_error (bs_pr b) c = Some l /\ forall x, In x l' -> In x l \/ exists w, garc lf v c w /\ x = (v, w) /\ qin q' c) /\
      (forall c, qin q' c -> qin q c \/ v < c) /\ (forall c, qin q c -> qin q' c)).
    { destruct act.
      - rewrite Elb. cbn [bind]. destruct (note_fold n v lsb (bs_in b) q) as (ins & q1 & E1 & L1 & I1 & K1 & U1 & Q1); auto. { intros c w Hin. apply HLb in Hin. tauto. } rewrite E1. cbn [bind].
        rewrite Elf. cbn [bind]. destruct (note_fold n v lsf (bs_pr b) q1) as (prs & q2 & E2 & L2 & I2 & K2 & U2 & Q2); auto. { intros c w Hin. apply HLf in Hin. tauto. } rewrite E2. cbn [bind].
        exists ins, prs, q2. split; auto. split; auto. split; auto. split; auto.
        split. { rewrite U1; auto. intros Hin. apply in_map_iff in Hin. destruct Hin as ([c w] & E & Hin). cbn in E. subst c. apply HLb in Hin. lia. }
        split. { apply U2. intros Hin. apply in_map_iff in Hin. destruct Hin as ([c w] & E & Hin). cbn in E. subst c. apply HLf in Hin. lia. }
        split. { intros c l' El'. destruct (K1 c l' El') as (l & El & H). exists l. split; auto. split. { intros x Hx. apply H; auto. } split.
          - intros _ w (ls & E & Hin). assert (ls = lsb) by congruence. subst. apply H. eauto.
          - intros x Hx. apply H in Hx. destruct Hx as [Hx|(w & Hw & ->)]; auto. right. exists w. split; [exists lsb; auto|]. split; auto. apply Q2. left. apply Q1. right. apply in_map_iff. exists (c, w). auto. }
        split. { intros c l' El'. destruct (K2 c l' El') as (l & El & H). exists l. split; auto.
          intros x Hx. apply H in Hx. destruct Hx as [Hx|(w & Hw & ->)]; auto. right. exists w. split; [exists lsf; auto|]. split; auto. apply Q2. right. apply in_map_iff. exists (c, w). auto. }
        split. { intros c Hc. apply Q2 in Hc. destruct Hc as [Hc|Hc]. 2: { right. apply in_map_iff in Hc. destruct Hc as ([c' w] & E & Hin). cbn in E. subst. apply HLf in Hin. lia. }
          apply Q1 in Hc. destruct Hc as [Hc|Hc]; auto. right. apply in_map_iff in Hc. destruct Hc as ([c' w] & E & Hin). cbn in E. subst. apply HLb in Hin. lia. }
        intros c Hc. apply Q2. left. apply Q1. auto.
      - exists (bs_in b), (bs_pr b), q. split; auto. split; auto. split; auto. split; auto. split; auto. split; auto.
        split. { intros c l' El. exists l'. split; auto. split; [apply incl_refl|]. split; [discriminate|]. auto. } split. { intros c l' El. exists l'. auto. } auto. }
    destruct X1 as (ins & prs & q' & E1 & L1 & L2 & I' & Eiv & Epv & KI & KP & QB & QF). rewrite E1. clear E1. cbn [bind]. rewrite Eiv. cbn [bind].
    (* bounds of the entries *)
    assert (BND : forall u l i d, nth_error (bs_dist b) u = Some l -> In (i, d) l -> i < n /\ (d <= INF)%N).
    { intros u l i d El Hin. destruct (Nat.lt_ge_cases u v) as [L|L].
      - apply (B13 u l L El) in Hin. destruct (B16 u i d Hin) as (t & Et & _ & _ & Hd & _). split; auto. apply (num_ts i t Et).
      - destruct (B11 u L) as [_ X]. apply (proj2 (X l El)) in Hin. destruct Hin as [Et ->]. split; [apply (num_ts i u Et)|unfold INF; lia]. }
    assert (INC : forall u w, In (u, w) inc -> u < v /\ garc lb u v w /\ (w <= INF)%N).
    { intros u w Hin. destruct (B8 v inc u w Einc Hin) as (Hu & Hu' & Ha & _). split; auto. split; auto. apply (up_arc n lb u v w UB Ha Hu'). }
    rewrite B4, B5. destruct (coll_all n (bs_dist b) inc B1) with (E := @nil (nat * N)) (td := repeat INF n) (used := @nil nat) as (td & used & E2 & C).
    { intros u w Hin. destruct (INC u w Hin) as (? & ? & ?). split; auto. lia. } { exact BND. } { apply coll_start. }
    cbn [app] in C. rewrite E2. clear E2. cbn [bind]. pose proof C as [C1 C2 C3 C4].
    rewrite set_at_lt by lia. cbn [bind]. destruct (nth_error_lt (bs_pr b) v) as (low & Elow); [lia|]. rewrite Epv, Elow. cbn [bind]. rewrite set_at_lt by lia. cbn [bind].
    assert (LOW : forall u w, In (u, w) low -> u < v /\ garc lf u v w /\ u < n /\ (w <= INF)%N).
    { intros u w Hin. destruct (B9 v low u w Elow Hin) as (Hu & Hu' & Ha & _). split; auto. split; auto. split; auto. apply (up_arc n lf u v w UF Ha Hu'). }
    assert (X2 : exists dist, (if negb (length used =? 0) then foldM (bs_prune td) low (bs_dist b) else Some (bs_dist b)) = Some dist /\ length dist = n /\ (forall u, v <= u -> nth_error dist u = nth_error (bs_dist b) u) /\
      forall u l, nth_error (bs_dist b) u = Some l -> exists f, nth_error dist u = Some (filter f l) /\
      forall i d x, In (i, d) l -> nth_error td i = Some x -> In (i, d) (filter f l) \/ exists w, In (u, w) low /\ (x + w <= d)%N).
    { destruct (negb (length used =? 0)).
      - destruct (prune_fold n td low C1) with (dist := bs_dist b) as (dist & E & L & K1 & K2); auto. { intros i x Ex. exact (proj1 (C2 i x Ex)). } { intros u w Hin. destruct (LOW u w Hin) as (? & ? & ? & ?). auto. } { intros u l i d El Hin. apply (BND u l i d El Hin). }
        exists dist. split; auto. split; auto. split; auto. intros u Hu. apply K1. intros Hin. apply in_map_iff in Hin. destruct Hin as ([u' w] & Eq & Hin). cbn in Eq. subst. apply LOW in Hin. lia.
      - exists (bs_dist b). split; auto. split; auto. split; auto. intros u l El. exists (fun _ => true). rewrite filter_true by auto. auto. }
    destruct X2 as (dist & E3 & L3 & D1 & D2). rewrite E3. clear E3. cbn [bind]. rewrite (D1 v (le_n v)), Eown. cbn [bind].
    (* indices in used *)
    assert (USD : forall i, In i used -> i < n). { intros i Hi. apply C3 in Hi. destruct Hi as (x & Hx). apply in_reached in Hx. destruct Hx as (u & w & d & Ha & Hb & _). destruct (INC u w Ha) as (Hu & _).
      destruct (nth_error_lt (bs_dist b) u) as (l & El); [lia|]. rewrite (nth_error_nth _ _ _ El) in Hb. apply (BND u l i d El Hb). }
    rewrite new_entries by (intros; rewrite C1; auto). cbn [bind]. rewrite set_at_lt by lia. cbn [bind].
    rewrite (reset_ok n used td C1 USD). 2: { intros i x Ex. destruct (C2 i x Ex) as (_ & [H|H] & _); auto. right. apply C3. eauto. }
    cbn [bind]. set (new := map (fun i => (i, nth i td 0%N)) used).
    (* entries of the settled node *)
    set (Sv := post (own ++ new)).
    assert (SVI : forall i d, In (i, d) Sv <-> (nth_error ts i = Some v /\ d = 0%N) \/ (In i used /\ nth_error td i = Some d)).
    { intros i d. unfold Sv. split.
      - intros Hin. apply (Permutation_in _ (Permutation_sym (HP _))) in Hin. apply in_app_or in Hin. destruct Hin as [Hin|Hin]. { left. apply OWN; auto. }
        right. unfold new in Hin. apply in_map_iff in Hin. destruct Hin as (j & E & Hj). injection E as -> <-. split; auto. apply nth_error_nth'. rewrite C1. auto.
      - intros H. apply (Permutation_in _ (HP _)). apply in_or_app. destruct H as [H|[H1 H2]]. { left. apply OWN; auto. } right. unfold new. apply in_map_iff. exists i. split; auto. rewrite (nth_error_nth _ _ _ H2). auto. }
    (* entries reaching v come from real buckets below *)
    assert (RCH : forall i x, In (i, x) (reached_by (bs_dist b) inc) -> exists u w d t, u < v /\ garc lb u v w /\ In (i, d) (S u) /\ x = (d + w)%N /\ nth_error ts i = Some t /\ t <= u /\ ((d < INF)%N -> walk (garc lb) t u d) /\ (SHORT -> (d < INF)%N)).
    { intros i x Hin. apply in_reached in Hin. destruct Hin as (u & w & d & Ha & Hb & ->). destruct (INC u w Ha) as (Hu & Hg & _). destruct (nth_error_lt (bs_dist b) u) as (l & El); [lia|]. rewrite (nth_error_nth _ _ _ El) in Hb.
      apply (B13 u l Hu El) in Hb. destruct (B16 u i d Hb) as (t & Et & Htu & _ & _ & _ & W & SH). exists u, w, d, t. auto 12. }
    assert (SHE : SHORT -> forall i x, In (i, x) (reached_by (bs_dist b) inc) -> (x < INF)%N).
    { intros SH i x Hx. destruct (RCH i x Hx) as (u & w & d & t & _ & Hg & _ & -> & Et & _ & W & Hd). assert (Htn : t < n) by (apply HT; eapply nth_error_In; eauto). apply (SH t v); auto. eapply walk_snoc; eauto. }
    assert (SVT : forall i d, In i used -> nth_error td i = Some d -> exists t, nth_error ts i = Some t /\ t < v /\ (d <= INF)%N /\ ((d < INF)%N -> walk (garc lb) t v d) /\ (SHORT -> (d < INF)%N)).
    { intros i d Hi Ed. destruct (C2 i d Ed) as (D & D' & D''). apply C3 in Hi. destruct Hi as (x & Hx). destruct (RCH i x Hx) as (u & w & d1 & t & Hu & _ & _ & _ & Et & Htu & _ & _). exists t. split; auto. split; [lia|]. split; auto. split. 2: { intros SH. specialize (SHE SH i x Hx). specialize (D'' x Hx). lia. }
      intros Ld. destruct D' as [->|D']; [lia|]. destruct (RCH i d D') as (u' & w' & d' & t' & Hu' & Hg & _ & -> & Et' & _ & W & _). assert (t' = t) by congruence. subst. eapply walk_snoc; eauto. apply W. lia. }
    exists (mkBsel (upd dist v Sv) q' (upd ins v []) (upd prs v []) (repeat INF n) []), (fun u => if u =? v then Sv else S u). split; auto. split.
    2: { split. { intros u Ne. apply Nat.eqb_neq in Ne. rewrite Ne. auto. } exists Sv. cbn. rewrite nth_error_upd_eq by lia. split; auto. split. { rewrite Nat.eqb_refl; auto. } exists (own ++ new). auto. }
    assert (SN : forall u, u <> v -> (if u =? v then Sv else S u) = S u) by (intros u Ne; apply Nat.eqb_neq in Ne; rewrite Ne; auto).
    assert (SE : forall u, v < u -> S u = []) by (intros u Hu; apply B11; lia).
    split; cbn [bs_dist bs_in bs_pr bs_td bs_used bs_queue]; auto.
    - rewrite upd_length; auto.
    - rewrite upd_length; auto.
    - rewrite upd_length; auto.
    - intros c Hc. destruct (QB c Hc) as [H|H]; [|lia]. apply HQ in H. destruct H as [H Ne]. apply B7 in H. lia.
    - intros c l u w El Hin. destruct (Nat.eq_dec c v) as [->|Ne]. { rewrite nth_error_upd_eq in El by lia. injection El as <-. destruct Hin. } rewrite nth_error_upd_neq in El by auto.
      destruct (KI c l El) as (l0 & El0 & _ & _ & K). destruct (K _ Hin) as [H|(w' & Ha & E & Qc)].
      + destruct (B8 c l0 u w El0 H) as (? & ? & ? & Q). repeat split; auto. apply QF. apply HQ. auto.
      + injection E as -> ->. repeat split; auto.
    - intros c l u w El Hin. destruct (Nat.eq_dec c v) as [->|Ne]. { rewrite nth_error_upd_eq in El by lia. injection El as <-. destruct Hin. } rewrite nth_error_upd_neq in El by auto.
      destruct (KP c l El) as (l0 & El0 & K). destruct (K _ Hin) as [H|(w' & Ha & E & Qc)].
      + destruct (B9 c l0 u w El0 H) as (? & ? & ? & Q). repeat split; auto. apply QF. apply HQ. auto.
      + injection E as -> ->. repeat split; auto.
    - intros u c w Hu NE Ha Hc. assert (Hu' : u < n) by lia. destruct (up_arc n lb u c w UB Ha Hu') as (_ & Hcn & _). destruct (nth_error_lt ins c) as (l' & El'); [lia|]. exists l'. rewrite nth_error_upd_neq by lia. split; auto.
      destruct (KI c l' El') as (l & El & I & K & _). destruct (Nat.eq_dec u v) as [->|Ne].
      + apply K; auto. rewrite Nat.eqb_refl in NE. unfold act. destruct inc as [|a inc']; [|auto]. destruct own as [|a own']; [|apply orb_true_r]. exfalso. apply NE. unfold Sv, new.
        assert (used = []). { destruct used as [|i used']; auto. exfalso. destruct (proj1 (C3 i) ltac:(left; auto)) as (x & []). } subst used. cbn. apply Permutation_nil. apply HP.
      + rewrite SN in NE by auto. destruct (B10 u c w) as (l1 & El1 & Hin); auto; [lia|lia|]. assert (l1 = l) by congruence. subst. auto.
    - intros u Hu. rewrite SN by lia. split; [apply SE; lia|]. intros l El. rewrite nth_error_upd_neq in El by lia. rewrite D1 in El by lia. apply (proj2 (B11 u ltac:(lia))); auto.
    - intros i t Et Ht. apply QF. apply HQ. split; [|lia]. eapply B12; eauto. lia.
    - intros u l Hu El. destruct (Nat.eq_dec u v) as [->|Ne]. { rewrite Nat.eqb_refl. rewrite nth_error_upd_eq in El by lia. injection El as <-. apply incl_refl. }
      rewrite SN by auto. rewrite nth_error_upd_neq in El by auto. destruct (nth_error_lt (bs_dist b) u) as (l0 & El0); [lia|]. destruct (D2 u l0 El0) as (f & El' & _). assert (filter f l0 = l) by congruence. subst.
      intros x Hx. apply filter_In in Hx. destruct Hx as [Hx _]. apply (B13 u l0 ltac:(lia) El0). auto.
    - intros u l i d Hu El Hin Hd. destruct (Nat.eq_dec u v) as [->|Ne]. { rewrite Nat.eqb_refl in Hin. rewrite nth_error_upd_eq in El by lia. injection El as <-. auto. }
      rewrite SN in Hin by auto. rewrite nth_error_upd_neq in El by auto. destruct (nth_error_lt (bs_dist b) u) as (l0 & El0); [lia|]. destruct (D2 u l0 El0) as (f & El' & K). assert (filter f l0 = l) by congruence. subst.
      destruct (B14 u l0 i d ltac:(lia) El0 Hin Hd) as [H|(z & w & dz & Hz & Ha & Hz' & Hl)]. 2: { right. exists z, w, dz. split; [lia|]. split; auto. rewrite SN by lia. auto. }
      destruct (B16 u i d Hin) as (t & Et & _). destruct (num_ts i t Et) as [Hi _]. destruct (nth_error_lt td i) as (x & Ex); [lia|]. destruct (K i d x H Ex) as [?|(w & Hw & Hl)]; auto. right.
      destruct (LOW u w Hw) as (_ & Ha & _). exists v, w, x. split; [lia|]. split; auto. split; auto. rewrite Nat.eqb_refl. apply SVI. right. split; auto. destruct (C2 i x Ex) as (_ & [->|Hx] & _); [lia|]. apply C3. eauto.
    - intros u c i d w Hu Hc Hin Hd Ha. assert (Hu' : u < n) by lia. destruct (up_arc n lb u c w UB Ha Hu') as (Huc & _ & _). destruct (Nat.eq_dec u v) as [->|Ne]; [lia|]. rewrite SN in Hin by auto.
      destruct (Nat.eq_dec c v) as [->|Nc].
      2: { destruct (B15 u c i d w) as [(d' & L & H)|(z & w' & dz & Hz & Ha' & Hz' & Hl)]; auto; try lia. { left. exists d'. split; auto. rewrite SN by auto. auto. } right. exists z, w', dz. split; auto. split; auto. rewrite SN by lia. auto. }
      destruct (nth_error_lt (bs_dist b) u) as (l0 & El0); [lia|]. destruct (B14 u l0 i d ltac:(lia) El0 Hin Hd) as [H|(z & w' & dz & Hz & Ha' & Hz' & Hl)].
      2: { right. exists z, w', dz. split; [lia|]. split; auto. rewrite SN by lia. auto. }
      left. destruct (B10 u v w ltac:(lia) ltac:(intros Z; rewrite Z in Hin; destruct Hin) Ha (le_n v)) as (l1 & El1 & Hl1). assert (l1 = inc) by congruence. subst.
      destruct (B16 u i d Hin) as (t & Et & _). destruct (num_ts i t Et) as [Hi _]. destruct (nth_error_lt td i) as (x & Ex); [lia|]. exists x.
      assert (RI : In (i, (d + w)%N) (reached_by (bs_dist b) inc)). { apply in_reached. exists u, w, d. split; auto. split; auto. rewrite (nth_error_nth _ _ _ El0). auto. }
      split. { apply (C2 i x Ex); auto. } rewrite Nat.eqb_refl. apply SVI. right. split; auto. apply C3. eauto.
    - intros u i d Hin. destruct (Nat.eq_dec u v) as [->|Ne]. 2: { rewrite SN in Hin by auto. eauto. } rewrite Nat.eqb_refl in Hin. apply SVI in Hin. destruct Hin as [[Et ->]|[Hi Ed]].
      + exists v. split; auto. split; auto. split; auto. split; [unfold INF; lia|]. split; auto. split; [intros _; constructor|]. intros _. unfold INF; lia.
      + destruct (SVT i d Hi Ed) as (t & Et & Ht & Hd & W & SH). exists t. split; auto. split; [lia|]. split; auto. split; auto. split; [lia|auto].
    - intros u i d d' Hin Hin'. destruct (Nat.eq_dec u v) as [->|Ne]. 2: { rewrite SN in Hin, Hin' by auto. eauto. } rewrite Nat.eqb_refl in Hin, Hin'. apply SVI in Hin, Hin'.
      destruct Hin as [[Et ->]|[Hi Ed]], Hin' as [[Et' ->]|[Hi' Ed']]; auto.
      + destruct (SVT i d' Hi' Ed') as (t & Et' & Ht & _). assert (t = v) by congruence. lia.
      + destruct (SVT i d Hi Ed) as (t & Et'' & Ht & _). assert (t = v) by congruence. lia.
      + congruence.
    - intros i t Et Ht. destruct (Nat.eq_dec t v) as [->|Ne]. { rewrite Nat.eqb_refl. apply SVI. auto. } rewrite SN by auto. apply B18; auto. lia.
    - intros u l Hu El. destruct (Nat.eq_dec u v) as [->|Ne]. { rewrite nth_error_upd_eq in El by lia. injection El as <-. apply HR. intros SH. rewrite map_app. apply NoDup_app_intro; auto.
        - unfold new. rewrite map_map. cbn [fst]. rewrite map_id. apply C4. cbn [app]. apply SHE. auto.
        - intros i Hi Hi'. apply in_map_iff in Hi. destruct Hi as ([i' d] & <- & Hi). apply OWN in Hi. destruct Hi as [Et _]. unfold new in Hi'. rewrite map_map in Hi'. cbn [fst] in Hi'. rewrite map_id in Hi'.
          destruct (nth_error_lt td i') as (x & Ex). { rewrite C1. apply USD; auto. } destruct (SVT i' x Hi' Ex) as (t & Et' & Ht & _). cbn [fst] in *. assert (t = v) by congruence. lia. }
      rewrite nth_error_upd_neq in El by auto. destruct (nth_error_lt (bs_dist b) u) as (l0 & El0); [lia|]. destruct (D2 u l0 El0) as (f & El' & _). assert (filter f l0 = l) by congruence. subst. apply HRf. eapply B19; eauto. lia.
  Qed.

  (** what a selection leaves behind for the next one *)
  Record clean (b : bsel) : Prop := {
    cl_ld : length (bs_dist b) = n; cl_in : bs_in b = repeat [] n; cl_pr : bs_pr b = repeat [] n;
    cl_tdi : bs_td b = repeat INF n; cl_us : bs_used b = []; cl_q : QInv n (bs_queue b) }.

  Lemma init_fold : forall l k q dist, k + length l = length ts -> (forall i t, nth_error l i = Some t -> nth_error ts (k + i) = Some t) -> length dist = n -> QInv n q ->
    (forall c, qin q c <-> exists i, i < k /\ nth_error ts i = Some c) -> (forall u r, nth_error dist u = Some r -> NoDup (map fst r) /\ forall i d, In (i, d) r <-> i < k /\ nth_error ts i = Some u /\ d = 0%N) ->
    exists q' dist', foldM bs_terminal l (k, q, dist) = Some (length ts, q', dist') /\ length dist' = n /\ QInv n q' /\
    (forall c, qin q' c <-> exists i, nth_error ts i = Some c) /\ (forall u r, nth_error dist' u = Some r -> NoDup (map fst r) /\ forall i d, In (i, d) r <-> nth_error ts i = Some u /\ d = 0%N).
  Proof.
    induction l as [|t l IH]; intros k q dist HK HL LD I HQ HD; cbn [foldM].
    - cbn in HK. exists q, dist. split. { do 2 f_equal. f_equal. lia. } split; auto. split; auto. split.
      + intros c. rewrite HQ. split; intros (i & H); exists i; [tauto|]. split; auto. apply nth_error_Some_lt in H. lia.
      + intros u r E. destruct (HD u r E) as [ND HD']. split; auto. intros i d. rewrite HD'. split; [tauto|]. intros [H1 H2]. split; auto. apply nth_error_Some_lt in H1. lia.
    - cbn in HK. pose proof (HL 0 t eq_refl) as Et. rewrite Nat.add_0_r in Et. destruct (num_ts k t Et) as [_ Ht]. unfold bs_terminal at 1.
      destruct (bq_push_ok n q t I Ht) as (q1 & E1 & I1 & A1). { rewrite HQ. intros (i & Hi & Ei). rewrite NoDup_nth_error in HN. assert (i = k). { apply HN. { apply nth_error_Some_lt in Ei; auto. } congruence. } lia. }
      rewrite E1. cbn [bind]. destruct (nth_error_lt dist t) as (r0 & Er0); [lia|]. rewrite Er0. cbn [bind]. rewrite set_at_lt by lia. cbn [bind].
      apply IH; auto. { lia. } { intros i t' E'. replace (Datatypes.S k + i) with (k + Datatypes.S i) by lia. apply HL. auto. } { rewrite upd_length; auto. }
      + intros c. rewrite A1, HQ. split.
        * intros [(i & Hi & Ei)| ->]; [exists i; split; [lia|auto]|exists k; split; [lia|auto]].
        * intros (i & Hi & Ei). destruct (Nat.eq_dec i k) as [->|Ne]. { right. congruence. } left. exists i. split; [lia|auto].
      + intros u r Er. destruct (Nat.eq_dec u t) as [->|Ne].
        * rewrite nth_error_upd_eq in Er by lia. injection Er as <-. destruct (HD t r0 Er0) as [ND HD']. split.
          { rewrite map_app. apply NoDup_app_intro; auto. { cbn. constructor; auto. constructor. } intros j Hj [<-|[]]. apply in_map_iff in Hj. destruct Hj as ([j d] & Ej & Hj). cbn in Ej. subst j. apply HD' in Hj. lia. }
          intros i d. rewrite in_app_iff, HD'. cbn. split.
          -- intros [(Hi & Ei & ->)|[H|[]]]; [split; [lia|auto]|]. injection H as <- <-. split; [lia|auto].
          -- intros (Hi & Ei & ->). destruct (Nat.eq_dec i k) as [->|Nk]; auto. left. split; [lia|auto].
        * rewrite nth_error_upd_neq in Er by auto. destruct (HD u r Er) as [ND HD']. split; auto. intros i d. rewrite HD'. split; [intros (? & ? & ?); split; [lia|auto]|]. intros (Hi & Ei & Hd). destruct (Nat.eq_dec i k) as [->|Nk]; [congruence|]. split; [lia|auto].
  Qed.

  Lemma nth_rep {A} (a : A) k i x : nth_error (repeat a k) i = Some x -> x = a.
  Proof. intros E. apply nth_error_In, repeat_spec in E. auto. Qed.

  Lemma bs_init_ok b : clean b -> exists b', bs_init b ts = Some b' /\ BI 0 (fun _ => []) b'.
  Proof.
    intros [C1 C2 C3 C4 C5 C6]. unfold bs_init, bq_clear, hclear. destruct (hclear_spec nat nid Nat.ltb n _ C6) as (P & E & I & A). rewrite E. cbn [bind].
    destruct (init_fold ts 0 (mkHeap P []) (repeat [] (length (bs_dist b)))) as (q & dist & Ef & L & I' & Q & D); auto. { rewrite repeat_length; auto. } { intros c. unfold qin. rewrite A. split; [tauto|intros (i & Hi & _); lia]. } { intros u r Er. apply nth_rep in Er. subst. split; [constructor|]. intros i d. split; [intros []|intros (? & _); lia]. }
    rewrite Ef. cbn [bind]. eexists. split; [reflexivity|]. split; cbn [bs_dist bs_in bs_pr bs_td bs_used bs_queue]; auto; try (rewrite ?C2, ?C3; apply repeat_length); try (intros; lia).
    - intros c l u w El Hin. rewrite C2 in El. apply nth_rep in El. subst. destruct Hin.
    - intros c l u w El Hin. rewrite C3 in El. apply nth_rep in El. subst. destruct Hin.
    - intros i t Et _. apply Q. eauto.
    - intros u i d [].
    - intros u i d d' [].
  Qed.

  Lemma bs_run_ok b : clean b -> exists b' S, bs_run n lb lf post b ts = Some b' /\ clean b' /\ BI n S b'.
  Proof.
    intros C. unfold bs_run. destruct (bs_init_ok b C) as (b0 & E0 & B0). rewrite E0. cbn [bind].
    destruct (loopN_ghost (bs_step lb lf post) (fun (g : nat * (nat -> list (nat * N))) s => fst g <= n /\ BI (fst g) (snd g) s) (fun r => exists S, clean r /\ BI n S r) (fun g => N.of_nat (n - fst g))) with (fuel := N.of_nat (n + 1)) (g := (0, fun _ : nat => @nil (nat * N))) (s := b0) as (r & Er & S & CR & BR).
    - intros [m S] s [Hm B]. cbn [fst snd] in *. unfold bs_step, bq_pop. destruct (hpop_spec nat nid Nat.ltb nat_laws n (bs_queue s) (bi_q _ _ _ B)) as [[E Ed]|(q & v & E & I & M & A)]; rewrite E; cbn [bind].
      + eexists. split; [reflexivity|]. cbn. exists S.
        assert (QE : forall c, ~ qin (bs_queue s) c). { intros c Hc. unfold qin in Hc. destruct (qabs (bs_queue s) c) as [x|] eqn:Ex; [|tauto]. apply (abs_In' nat nid) in Ex; [|apply (inv_wf _ _ _ _ _ (bi_q _ _ _ B))]. rewrite Ed in Ex. destruct Ex as [[] _]. }
        assert (BN : BI n S s). { apply (bi_skip m n S s); auto. }
        split. 2: { destruct s; exact BN. } destruct BN as [B1 B2 B3 B4 B5 B6 B7 B8 B9 B10 B11 B12 B13 B14 B15 B16 B17 B18 B19]. split; cbn; auto.
        * rewrite <- B2. apply all_repeat. intros l Hl. apply In_nth_error in Hl. destruct Hl as (c & Ec). destruct l as [|[u w] l]; auto. exfalso. destruct (B8 c _ u w Ec ltac:(left; auto)) as (_ & _ & _ & X). apply (QE c X).
        * rewrite <- B3. apply all_repeat. intros l Hl. apply In_nth_error in Hl. destruct Hl as (c & Ec). destruct l as [|[u w] l]; auto. exfalso. destruct (B9 c _ u w Ec ltac:(left; auto)) as (_ & _ & _ & X). apply (QE c X).
      + destruct M as [M1 M2]. pose proof (qself n _ _ _ (bi_q _ _ _ B) M1) as Hs. assert (Qv : qin (bs_queue s) v). { unfold qin, nid in *. congruence. }
        assert (Hv : v < n). { apply (abs_In' nat nid) in M1; [|apply (inv_wf _ _ _ _ _ (bi_q _ _ _ B))]. destruct M1 as [M1 _]. apply In_nth_error in M1. destruct M1 as (k & Ek). destruct (inv_wf _ _ _ _ _ (bi_q _ _ _ B)) as [W _]. apply W in Ek. apply nth_error_Some_lt in Ek. rewrite (inv_len _ _ _ _ _ (bi_q _ _ _ B)) in Ek. exact Ek. }
        pose proof (bi_qm _ _ _ B v Qv) as Hmv.
        assert (BV : BI v S s). { apply (bi_skip m v S s); auto. intros u Hu Huv Q. unfold qin in Q. destruct (qabs (bs_queue s) u) as [x|] eqn:Ex; [|tauto]. pose proof (qself n _ _ _ (bi_q _ _ _ B) Ex). subst x. pose proof (M2 u u Ex) as X. apply Nat.ltb_ge in X. lia. }
        destruct (settle_ok v S s q BV Qv Hv I) as (b' & S' & Eb & B' & _). { intros c. unfold qin. rewrite A. unfold del, nid. destruct (Nat.eqb_spec c v) as [->|Ne]; tauto. }
        rewrite Eb. cbn [bind]. eexists. split; [reflexivity|]. cbn. exists (Datatypes.S v, S'). cbn [fst snd]. split; [split; [lia|auto]|lia].
    - cbn [fst snd]. split; [lia|auto].
    - cbn [fst]. lia.
    - exists r, S. auto.
  Qed.
End Run.
