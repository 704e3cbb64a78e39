(** BucketCHPotential: the buckets of a selection together with the upward arcs yield all distances. *)
From Coq Require Import Permutation.
From Verif Require Import Base SpecPQ SpecGraph SpecCCH SpecCH IndexHeap IndexHeapProof Graph GraphProof Dijkstra LoopProof CCHContractProof RphastProof Bucket BucketProof.

Section Complete.
  Context (n : nat) (arc : nat -> nat -> N -> Prop) (order ranks : list nat) (lf lb : nat -> option (list (nat * N))) (ts : list nat).
  Notation F := (garc lf).
  Notation B := (garc lb).
  Hypothesis HH : hierarchy n arc order ranks lf lb.
  Lemma rank_node x : x < n -> exists u, nth_error order x = Some u.
  Proof. intros Hx. destruct (hi_order _ _ _ _ _ _ HH) as (L & _). apply nth_error_lt. lia. Qed.
  Lemma up_walk links x y l : upward n links -> walk (garc links) x y l -> x < n -> x <= y /\ y < n.
  Proof. intros U W. induction W as [u|u v w a l Ha W IH]; intros Hx; auto. destruct (up_arc n links u v a U Ha Hx) as (H1 & H2 & _). specialize (IH H2). lia. Qed.
  Lemma meets_trans x y z a c : x < n -> y < n -> z < n -> meets F B x y a -> meets F B y z c -> (a + c < INF)%N -> exists l, meets F B x z l /\ (l <= a + c)%N.
  Proof.
    intros Hx Hy Hz M1 M2 L. destruct (rank_node x Hx) as (nx & Ex). destruct (rank_node y Hy) as (ny & Ey). destruct (rank_node z Hz) as (nz & Ez).
    pose proof (hi_sound _ _ _ _ _ _ HH x y nx ny a Ex Ey M1 ltac:(lia)) as W1. pose proof (hi_sound _ _ _ _ _ _ HH y z ny nz c Ey Ez M2 ltac:(lia)) as W2.
    apply (hi_complete _ _ _ _ _ _ HH x z nx nz (a + c) Ex Ez); auto. eapply walk_app; eauto.
  Qed.
  Lemma meets_up x y w : F x y w -> meets F B x y w.
  Proof. intros H. exists y, w, 0%N. split. { replace w with (w + 0)%N by lia. econstructor; eauto. constructor. } split; [constructor|lia]. Qed.
  Lemma meets_down x y l : walk B y x l -> meets F B x y l.
  Proof. intros H. exists x, 0%N, l. split; [constructor|]. split; auto. Qed.

  Context (R : list (nat * N) -> Prop) (S : nat -> list (nat * N)) (b : bsel).
  Hypothesis HB : BI n lf lb ts R n S b.
  Hypothesis HT : forall t, In t ts -> t < n.

  (** [x] has a first arc on a path to [t] of length at most [l] *)
  Definition via_arc (x t : nat) (l : N) : Prop := exists y w l', F x y w /\ meets F B y t l' /\ (w + l' <= l)%N.

  Lemma down_walk i t : nth_error ts i = Some t -> forall k x u a e l, x - u <= k -> x < n -> u < n -> walk B u x a -> In (i, e) (S u) -> (a + e <= l)%N -> (l < INF)%N ->
    (exists e', (e' <= l)%N /\ In (i, e') (S x)) \/ via_arc x t l.
  Proof.
    intros Et. assert (Htn : t < n) by (apply HT; eapply nth_error_In; eauto). pose proof (hi_fw _ _ _ _ _ _ HH) as UF. pose proof (hi_bw _ _ _ _ _ _ HH) as UB.
    induction k as [|k IH]; intros x u a e l HK Hx Hu W Hin Hl LI; inversion W as [|u' c x' w a' Ha W']; subst.
    - left. exists e. split; [lia|auto].
    - exfalso. destruct (up_arc n lb u c w UB Ha Hu) as (H1 & H2 & _). destruct (up_walk lb c x a' UB W' H2). lia.
    - left. exists e. split; [lia|auto].
    - destruct (up_arc n lb u c w UB Ha Hu) as (H1 & H2 & _). destruct (up_walk lb c x a' UB W' H2) as [H3 _].
      destruct (bi_prop _ _ _ _ _ _ _ _ HB u c i e w Hu H2 Hin ltac:(lia) Ha) as [(d' & Ld & Hd)|(z & w' & dz & Hz & Fz & Hdz & Lz)].
      + apply (IH x c a' d' l); auto; lia.
      + assert (Hzn : z < n) by lia. destruct (bi_snd _ _ _ _ _ _ _ _ HB z i dz Hdz) as (t' & Et' & _ & _ & _ & _ & Wz & _). assert (t' = t) by congruence. subst t'. specialize (Wz ltac:(lia)).
        destruct (meets_trans x u z (w + a') w' Hx Hu Hzn (meets_down x u _ W) (meets_up u z w' Fz) ltac:(lia)) as (c' & (p & p1 & p2 & W1 & W2 & ->) & Lc). inversion W1 as [|x1 y x2 w1 p1' F1 W1']; subst.
        * apply (IH p z p2 dz l); auto; lia.
        * right. destruct (up_arc n lf x y w1 UF F1 Hx) as (_ & Hy & _).
          destruct (meets_trans y z t (p1' + p2) dz Hy Hzn Htn) as (l' & M & Lm); [exists p, p1', p2; auto|apply meets_down; auto|lia|]. exists y, w1, l'. split; auto. split; auto. lia.
  Qed.

  (** every path is seen in the bucket of the node or over one of its upward arcs *)
  Lemma bucket_split i t x l es : nth_error ts i = Some t -> x < n -> nth_error (bs_dist b) x = Some es -> meets F B x t l -> (l < INF)%N ->
    (exists e, (e <= l)%N /\ In (i, e) es) \/ via_arc x t l.
  Proof.
    intros Et Hx Ees (m & a & c & W1 & W2 & ->) LI. assert (Htn : t < n) by (apply HT; eapply nth_error_In; eauto). inversion W1 as [|x1 y x2 w a' Fy W1']; subst.
    - destruct (down_walk i t Et (m - t) m t c 0%N (0 + c)%N (le_n _) Hx Htn W2 (bi_own _ _ _ _ _ _ _ _ HB i t Et Htn)) as [(e & Le & He)|V]; auto; [lia|].
      destruct (bi_cut _ _ _ _ _ _ _ _ HB m es i e Hx Ees He ltac:(lia)) as [H|(z & w & dz & Hz & Fz & Hdz & Lz)]. { left. eauto. }
      right. exists z, w, dz. split; auto. split; [|lia]. apply meets_down. destruct (bi_snd _ _ _ _ _ _ _ _ HB z i dz Hdz) as (t' & Et' & _ & _ & _ & _ & Wz & _). assert (t' = t) by congruence. subst t'. apply Wz. lia.
    - right. exists y, w, (a' + c)%N. split; auto. split; [|lia]. exists m, a', c. auto.
  Qed.
  Lemma bucket_sound x es i e : x < n -> nth_error (bs_dist b) x = Some es -> In (i, e) es -> exists t, nth_error ts i = Some t /\ (e <= INF)%N /\ ((e < INF)%N -> walk B t x e).
  Proof. intros Hx Ees Hin. apply (bi_lo _ _ _ _ _ _ _ _ HB x es Hx Ees) in Hin. destruct (bi_snd _ _ _ _ _ _ _ _ HB x i e Hin) as (t & H1 & _ & _ & H2 & _ & H3 & _). eauto. Qed.
  Lemma bucket_same x es i e e' : x < n -> nth_error (bs_dist b) x = Some es -> In (i, e) es -> In (i, e') es -> e = e'.
  Proof. intros Hx Ees H1 H2. apply (bi_lo _ _ _ _ _ _ _ _ HB x es Hx Ees) in H1, H2. eapply (bi_same _ _ _ _ _ _ _ _ HB); eauto. Qed.
End Complete.

(** ** compute_dists *)
Lemma enter_fold es : forall row, (forall i d d', In (i, d) es -> In (i, d') es -> d = d') -> (forall i d, In (i, d) es -> i < length row) ->
  exists row', foldM bp_enter es row = Some row' /\ length row' = length row /\ forall i x, nth_error row' i = Some x -> In (i, x) es \/ (nth_error row i = Some x /\ forall d, ~ In (i, d) es).
Proof.
  induction es as [|[i0 d0] es IH]; intros row HS HL; cbn [foldM].
  - exists row. split; auto.
  - unfold bp_enter at 1. cbn [fst snd]. pose proof (HL i0 d0 ltac:(left; auto)). rewrite set_at_lt by auto. cbn [bind].
    destruct (IH (upd row i0 d0)) as (row' & E & L & K). { intros i d d' H1 H2. eapply HS; right; eauto. } { intros i d Hin. rewrite upd_length. eapply HL; right; eauto. }
    exists row'. split; auto. split. { rewrite L, upd_length; auto. } intros i x Ex. destruct (K i x Ex) as [H1|[H1 H2]]. { left; right; auto. }
    destruct (Nat.eq_dec i i0) as [->|Ne]. { rewrite nth_error_upd_eq in H1 by auto. injection H1 as <-. left; left; auto. } rewrite nth_error_upd_neq in H1 by auto.
    right. split; auto. intros d [E'|Hin]; [injection E' as <- _; tauto|]. eapply H2; eauto.
Qed.
Lemma zip_min_ok w : (w <= INF)%N -> forall row head, length row = length head -> Forall (fun x => (x <= INF)%N) head ->
  exists r, zip_min row head w = Some r /\ length r = length row /\ forall i x y, nth_error row i = Some x -> nth_error head i = Some y -> nth_error r i = Some (N.min x (y + w)).
Proof.
  intros Hw. induction row as [|d row IH]; intros [|h head] HL HF; try discriminate; cbn [zip_min].
  - exists []. split; auto. split; auto. intros [|i]; discriminate.
  - inversion HF; subst. rewrite cadd_ok by (unfold INF, U32 in *; lia). cbn [bind]. destruct (IH head) as (r & E & L & K); auto. rewrite E. cbn [bind]. eexists. split; [reflexivity|]. cbn. split; auto.
    intros [|i] x y; cbn; auto. intros [= <-] [= <-]. auto.
Qed.

Section Compute.
  Context (n : nat) (arc : nat -> nat -> N -> Prop) (order ranks : list nat) (lf lb : nat -> option (list (nat * N))) (ts : list nat).
  Notation F := (garc lf).
  Notation B := (garc lb).
  Hypothesis HH : hierarchy n arc order ranks lf lb.
  Context (R : list (nat * N) -> Prop) (S : nat -> list (nat * N)) (b : bsel).
  Hypothesis HB : BI n lf lb ts R n S b.
  Hypothesis HT : forall t, In t ts -> t < n.

  Definition rowok (v : nat) (row : list N) : Prop := length row = length ts /\ forall i t, nth_error ts i = Some t -> exists x, nth_error row i = Some x /\ best F B v t x.
  (** [row] takes the bucket [es] of [v] and the arcs [done] into account *)
  Definition rowp (v : nat) (es : list (nat * N)) (done : list (nat * N)) (row : list N) : Prop := length row = length ts /\ forall i t, nth_error ts i = Some t ->
    exists x, nth_error row i = Some x /\ (x <= INF)%N /\ ((x < INF)%N -> meets F B v t x) /\ (forall e, In (i, e) es -> (x <= e)%N) /\ forall h w l, In (h, w) done -> meets F B h t l -> (x <= w + l)%N.

  Lemma row_start v es : v < n -> nth_error (bs_dist b) v = Some es -> exists row, foldM bp_enter es (repeat INF (length ts)) = Some row /\ rowp v es [] row.
  Proof.
    intros Hv Ees. destruct (enter_fold es (repeat INF (length ts))) as (row & E & L & K). { intros i d d' H1 H2. eapply bucket_same; eauto. }
    { intros i d Hin. rewrite repeat_length. destruct (bucket_sound _ _ _ _ _ _ _ HB v es i d Hv Ees Hin) as (t & Et & _). eapply nth_error_Some_lt; eauto. }
    rewrite repeat_length in L. exists row. split; auto. split; auto. intros i t Et. destruct (nth_error_lt row i) as (x & Ex). { rewrite L. eapply nth_error_Some_lt; eauto. } exists x. split; auto. destruct (K i x Ex) as [Hin|[H1 H2]].
    - destruct (bucket_sound _ _ _ _ _ _ _ HB v es i x Hv Ees Hin) as (t' & Et' & Hx & W). assert (t' = t) by congruence. subst t'. split; auto. split. { intros Hlt. apply meets_down. auto. }
      split. { intros e He. rewrite (bucket_same _ _ _ _ _ _ _ HB v es i e x Hv Ees He Hin). lia. } intros h w l [].
    - apply nth_error_In, repeat_spec in H1. subst. split; [lia|]. split; [lia|]. split. { intros e He. exfalso. eapply H2; eauto. } intros h w l [].
  Qed.
  Lemma row_arc v es done row h w hrow r : v < n -> F v h w -> (w <= INF)%N -> rowp v es done row -> rowok h hrow -> zip_min row hrow w = Some r -> rowp v es (done ++ [(h, w)]) r.
  Proof.
    intros Hv Ha Hw [L HR] [Lh HO] E. destruct (zip_min_ok w Hw row hrow) as (r' & E' & L' & K). { congruence. }
    { apply Forall_forall. intros y Hy. apply In_nth_error in Hy. destruct Hy as (i & Ei). destruct (nth_error_lt ts i) as (t & Et). { rewrite <- Lh. eapply nth_error_Some_lt; eauto. } destruct (HO i t Et) as (y' & Ey & B1 & _). assert (y' = y) by congruence. subst. auto. }
    assert (r' = r) by congruence. subst r'. split. { congruence. } intros i t Et. destruct (HR i t Et) as (x & Ex & X1 & X2 & X3 & X4). destruct (HO i t Et) as (y & Ey & Y1 & Y2 & Y3). exists (N.min x (y + w)). split; auto. split; [lia|]. split.
    { intros Hlt. destruct (N.min_spec x (y + w)) as [[Lm M]|[Lm M]]; rewrite M in *; auto. destruct (Y2 ltac:(lia)) as (m & a & c & W1 & W2 & ->). exists m, (w + a)%N, c. split. { econstructor; eauto. } split; auto. lia. }
    split. { intros e He. specialize (X3 e He). lia. } intros h' w' l Hin M. apply in_app_or in Hin. destruct Hin as [Hin|[Hin|[]]]. { specialize (X4 h' w' l Hin M). lia. } injection Hin as <- <-. specialize (Y3 l M). lia.
  Qed.
  Lemma row_done v es ls row : v < n -> nth_error (bs_dist b) v = Some es -> lf v = Some ls -> rowp v es ls row -> rowok v row.
  Proof.
    intros Hv Ees El [L HR]. split; auto. intros i t Et. destruct (HR i t Et) as (x & Ex & X1 & X2 & X3 & X4). exists x. split; auto. split; auto. split; auto. intros l M.
    destruct (N.lt_ge_cases l INF) as [Ll|Ll]; [|lia]. destruct (bucket_split n arc order ranks lf lb ts HH R S b HB HT i t v l es Et Hv Ees M Ll) as [(e & Le & He)|(y & w & l' & (ls' & El' & Hin) & M' & Lm)].
    - specialize (X3 e He). lia.
    - assert (ls' = ls) by congruence. subst. specialize (X4 y w l' Hin M'). lia.
  Qed.

  Definition CS (node : nat) (s : list (option (list N)) * list bool * list nat) : Prop := let '(pots, final, clear) := s in
    length pots = n /\ length final = n /\ (forall v row, nth_error pots v = Some (Some row) -> In v clear) /\ (forall v, In v clear -> v < n) /\
    forall v, node <= v -> v < n -> exists f o, nth_error final v = Some f /\ nth_error pots v = Some o /\ if (f : bool) then exists row, o = Some row /\ rowok v row else o = None.
  Definition same_below (node : nat) (s s' : list (option (list N)) * list bool * list nat) : Prop :=
    forall v, v < node -> nth_error (fst (fst s')) v = nth_error (fst (fst s)) v /\ nth_error (snd (fst s')) v = nth_error (snd (fst s)) v.

  Lemma compute_ok : forall fuel node s, n - node < fuel -> node < n -> CS node s ->
    exists s', bp_compute false lf (bs_dist b) (length ts) fuel node s = Some s' /\ CS node s' /\ same_below node s s' /\ nth_error (snd (fst s')) node = Some true.
  Proof.
    pose proof (hi_fw _ _ _ _ _ _ HH) as UF.
    induction fuel as [|fuel IH]; intros node s HFu Hn HC; [lia|]. destruct s as [[pots final] clear]. cbn [bp_compute]. destruct HC as (C1 & C2 & C3 & C4 & C5).
    destruct (C5 node (le_n _) Hn) as (f & o & Ef & Eo & Hf). rewrite Ef. cbn [bind]. destruct f.
    { exists (pots, final, clear). split; auto. split; [repeat split; auto|]. split; [intros v _; auto|auto]. }
    subst o. rewrite Eo. cbn [bind]. destruct (nth_error_lt (bs_dist b) node) as (es & Ees). { rewrite (bi_ld _ _ _ _ _ _ _ _ HB). auto. } rewrite Ees. cbn [bind].
    destruct (row_start node es Hn Ees) as (row0 & E0 & R0). rewrite E0. cbn [bind]. rewrite set_at_lt by lia. cbn [bind]. destruct (UF node Hn) as (ls & El & HL). rewrite El. cbn [bind].
    (* the arcs *)
    assert (FO : forall todo done pots1 final1 clear1 row, done ++ todo = ls -> CS (Datatypes.S node) (pots1, final1, clear1) -> nth_error pots1 node = Some (Some row) -> nth_error final1 node = Some false -> rowp node es done row ->
      exists pots2 final2 clear2 row2, foldM (fun s a => _ <- guard (negb false || (node <? fst a)) ;; s <- bp_compute false lf (bs_dist b) (length ts) fuel (fst a) s ;;
         let '(pots, final, clear) := s in f <- nth_error final node ;; _ <- guard (negb false || f) ;; _ <- guard (node <? fst a) ;;
         h <- nth_error pots (fst a) ;; h <- h ;; r <- nth_error pots node ;; r <- r ;; r <- zip_min r h (snd a) ;; pots <- set_at pots node (Some r) ;; Some (pots, final, clear)) todo (pots1, final1, clear1) = Some (pots2, final2, clear2) /\
        CS (Datatypes.S node) (pots2, final2, clear2) /\ nth_error pots2 node = Some (Some row2) /\ nth_error final2 node = Some false /\ rowp node es ls row2 /\ same_below node (pots1, final1, clear1) (pots2, final2, clear2)).
    { induction todo as [|[h w] todo IHt]; intros done pots1 final1 clear1 row HD HC Ep Efn HRp; cbn [foldM].
      - rewrite app_nil_r in HD. subst done. exists pots1, final1, clear1, row. split; auto. split; auto. split; auto. split; auto. split; auto. intros v _; auto.
      - destruct (HL h w) as (Hh & Hhn & Hw). { rewrite <- HD. apply in_or_app. right; left; auto. } cbn [fst snd]. replace (node <? h) with true by (symmetry; apply Nat.ltb_lt; auto). cbn [negb orb guard bind].
        destruct (IH h (pots1, final1, clear1)) as ([[pots2 final2] clear2] & E2 & HC2 & SB & F2); auto. { lia. } { destruct HC as (A1 & A2 & A3 & A4 & A5). split; auto. split; auto. split; auto. split; auto. intros v Hv Hvn. apply A5; auto. lia. }
        rewrite E2. cbn [bind]. destruct (SB node Hh) as [S1 S2]. cbn [fst snd] in S1, S2, F2. rewrite S2, Efn. cbn [bind]. cbn [negb orb guard bind].
        destruct HC2 as (A1 & A2 & A3 & A4 & A5). destruct (A5 h (le_n _) Hhn) as (fh & oh & Efh & Eoh & Hfh). assert (fh = true) by congruence. subst fh. destruct Hfh as (hrow & -> & Rh). rewrite Eoh. cbn [bind]. rewrite S1, Ep. cbn [bind].
        destruct (zip_min_ok w Hw row hrow) as (r & Er & _). { destruct HRp as [L1 _]. destruct Rh as [L2 _]. congruence. }
        { destruct Rh as [Lh HO]. apply Forall_forall. intros y Hy. apply In_nth_error in Hy. destruct Hy as (i & Ei). destruct (nth_error_lt ts i) as (t & Et). { rewrite <- Lh. eapply nth_error_Some_lt; eauto. } destruct (HO i t Et) as (y' & Ey & B1 & _). assert (y' = y) by congruence. subst. auto. }
        rewrite Er. cbn [bind]. rewrite set_at_lt by lia. cbn [bind].
        assert (HC3 : CS (Datatypes.S node) (upd pots2 node (Some r), final2, clear2)).
        { split; [rewrite upd_length; auto|]. split; auto. split. { intros v row' Ev. destruct (Nat.eq_dec v node) as [->|Ne]. { eapply A3. rewrite S1. exact Ep. } rewrite nth_error_upd_neq in Ev by auto. eauto. } split; auto.
          intros v Hv Hvn. destruct (Nat.lt_ge_cases v h) as [Lv|Lv].
          - destruct HC as (_ & _ & _ & _ & D5). destruct (D5 v Hv Hvn) as (f & o & Ef' & Eo' & H'). destruct (SB v Lv) as [T1 T2]. cbn [fst snd] in T1, T2. exists f, o. rewrite T2. split; auto. rewrite nth_error_upd_neq by lia. rewrite T1. auto.
          - destruct (A5 v Lv Hvn) as (f & o & Ef' & Eo' & H'). exists f, o. split; auto. rewrite nth_error_upd_neq by lia. auto. }
        destruct (IHt (done ++ [(h, w)]) (upd pots2 node (Some r)) final2 clear2 r) as (pots3 & final3 & clear3 & row3 & E3 & HC3' & P3 & F3 & R3 & SB3); auto. { rewrite <- app_assoc; auto. } { rewrite nth_error_upd_eq by lia. auto. } { congruence. }
        { eapply row_arc; eauto. exists ls. split; auto. rewrite <- HD. apply in_or_app. right; left; auto. }
        exists pots3, final3, clear3, row3. split; auto. split; auto. split; auto. split; auto. split; auto.
        intros v Hv. destruct (SB v ltac:(lia)) as [T1 T2]. destruct (SB3 v Hv) as [T3 T4]. cbn [fst snd] in *. rewrite T3, T4, T2. split; auto. rewrite nth_error_upd_neq by lia. auto. }
    destruct (FO ls [] (upd pots node (Some row0)) final (clear ++ [node]) row0) as (pots2 & final2 & clear2 & row2 & E2 & HC2 & P2 & F2 & R2 & SB2); auto.
    { split; [rewrite upd_length; auto|]. split; auto. split. { intros v row' Ev. apply in_or_app. destruct (Nat.eq_dec v node) as [->|Ne]; [right; left; auto|]. rewrite nth_error_upd_neq in Ev by auto. left. eauto. }
      split. { intros v Hv. apply in_app_or in Hv. destruct Hv as [Hv|[<-|[]]]; auto. } intros v Hv Hvn. destruct (C5 v ltac:(lia) Hvn) as (f & o & Ef' & Eo' & H'). exists f, o. split; auto. rewrite nth_error_upd_neq by lia. auto. }
    { rewrite nth_error_upd_eq by lia. auto. }
    rewrite E2. cbn [bind]. destruct HC2 as (A1 & A2 & A3 & A4 & A5). rewrite set_at_lt by lia. cbn [bind]. eexists. split; [reflexivity|]. split.
    - split; auto. split; [rewrite upd_length; auto|]. split; auto. split; auto. intros v Hv Hvn. destruct (Nat.eq_dec v node) as [->|Ne].
      + exists true, (Some row2). rewrite nth_error_upd_eq by lia. split; auto. split; auto. exists row2. split; auto. eapply row_done; eauto.
      + destruct (A5 v ltac:(lia) Hvn) as (f & o & Ef' & Eo' & H'). exists f, o. rewrite nth_error_upd_neq by auto. auto.
    - cbn [fst snd]. split. 2: { rewrite nth_error_upd_eq by lia. auto. } intros v Hv. destruct (SB2 v Hv) as [T1 T2]. cbn [fst snd] in *. rewrite !nth_error_upd_neq in * by lia. auto.
  Qed.
End Compute.

(** ** The states of a history of calls; [o]: the ranks of the targets of the last init *)
Definition BpOK (n : nat) (lf lb : nat -> option (list (nat * N))) (p : bpot) (o : option (list nat)) : Prop :=
  clean n (bp_sel p) /\ length (bp_pots p) = n /\ length (bp_final p) = n /\
  match o with
  | None => bp_pots p = repeat None n /\ bp_clear p = []
  | Some ts => NoDup ts /\ (forall t, In t ts -> t < n) /\ bp_num p = length ts /\ exists S, BI n lf lb ts (fun _ => True) n S (bp_sel p) /\ CS n lf lb ts 0 (bp_pots p, bp_final p, bp_clear p)
  end.

Lemma bp_new_ok n lf lb : BpOK n lf lb (bp_new n) None.
Proof.
  split; [|split; [apply repeat_length|split; [apply repeat_length|split; auto]]]. split; cbn; auto; try apply repeat_length. apply Inv_new.
Qed.
Lemma clear_fold n : forall l pots, length pots = n -> (forall v, In v l -> v < n) -> (forall v (row : list N), nth_error pots v = Some (Some row) -> In v l) ->
  foldM (fun pots node => set_at pots node None) l pots = Some (repeat None n).
Proof.
  induction l as [|v l IH]; intros pots LP HL HP; cbn [foldM].
  - f_equal. rewrite <- LP. apply all_repeat. intros x Hx. apply In_nth_error in Hx. destruct Hx as (j & Ej). destruct x as [row|]; auto. destruct (HP j row Ej).
  - rewrite set_at_lt by (rewrite LP; apply HL; left; auto). cbn [bind]. apply IH. { rewrite upd_length; auto. } { intros; apply HL; right; auto. }
    intros u row Eu. destruct (Nat.eq_dec u v) as [->|Ne]. { rewrite nth_error_upd_eq in Eu by (rewrite LP; apply HL; left; auto). discriminate. } rewrite nth_error_upd_neq in Eu by auto. destruct (HP u row Eu); auto. congruence.
Qed.

Lemma F2_in {A B} (P : A -> B -> Prop) l r : Forall2 P l r -> forall b, In b r -> exists a, In a l /\ P a b.
Proof. intros H. induction H as [|a b l r H1 H IH]; intros c Hc; [destruct Hc|]. destruct Hc as [->|Hc]. { exists a. split; [left; auto|auto]. } destruct (IH c Hc) as (x & H2 & H3). exists x. split; [right; auto|auto]. Qed.

Lemma F2_length {A B} (P : A -> B -> Prop) l r : Forall2 P l r -> length l = length r.
Proof. intros H. induction H; cbn; auto. Qed.

Section History.
  Context (n : nat) (arc : nat -> nat -> N -> Prop) (order ranks : list nat) (lf lb : nat -> option (list (nat * N))).
  Hypothesis HH : hierarchy n arc order ranks lf lb.

  Lemma rank_ok v : v < n -> exists r, nth_error ranks v = Some r /\ r < n /\ nth_error order r = Some v.
  Proof. intros Hv. destruct (hi_order _ _ _ _ _ _ HH) as (L1 & L2 & O1 & O2). destruct (nth_error_lt ranks v) as (r & Er); [lia|]. exists r. split; auto. assert (E : nth_error order r = Some v) by (apply O2; auto). split; auto. apply nth_error_Some_lt in E. lia. Qed.
  Lemma best_exact x y u v d : nth_error order x = Some u -> nth_error order y = Some v -> best (garc lf) (garc lb) x y d -> exact_answer arc u v (if (d <? INF)%N then Some d else None).
  Proof.
    intros Ex Ey (B1 & B2 & B3). destruct (N.ltb_spec d INF) as [L|L]; cbn.
    - split; auto. split. { apply (hi_sound _ _ _ _ _ _ HH x y u v d); auto. } intros l W. destruct (N.lt_ge_cases l INF) as [Ll|Ll]; [|lia].
      destruct (hi_complete _ _ _ _ _ _ HH x y u v l Ex Ey W Ll) as (l' & M & Lm). specialize (B3 l' M). lia.
    - intros l W. destruct (N.lt_ge_cases l INF) as [Ll|Ll]; auto. destruct (hi_complete _ _ _ _ _ _ HH x y u v l Ex Ey W Ll) as (l' & M & Lm). specialize (B3 l' M). lia.
  Qed.

  Lemma targets_ranks targets : NoDup targets -> (forall t, In t targets -> t < n) ->
    exists ts, mapM (fun t => nth_error ranks t) targets = Some ts /\ NoDup ts /\ (forall r, In r ts -> r < n) /\ length ts = length targets.
  Proof.
    intros ND HT. destruct (mapM_ok (fun t => nth_error ranks t) targets) as (ts & E & F2). { intros t Ht. destruct (rank_ok t (HT t Ht)) as (r & Er & _). eauto. }
    exists ts. split; auto. assert (IN : forall r, In r ts -> exists t, In t targets /\ nth_error ranks t = Some r).
    { intros r Hr. clear -F2 Hr. induction F2 as [|a b l l' H F2 IH]; [destruct Hr|]. destruct Hr as [->|Hr]. { exists a. split; [left; auto|auto]. } destruct (IH Hr) as (t & H1 & H2). exists t. split; [right; auto|auto]. }
    split.
    { clear E. destruct (hi_order _ _ _ _ _ _ HH) as (L1 & L2 & O1 & O2). induction F2 as [|a r l l' H F2 IH]; [constructor|]. inversion ND; subst. constructor.
      - intros Hin. destruct (F2_in _ _ _ F2 _ Hin) as (t & Ht & Et). assert (t = a). { pose proof (O2 _ _ Et) as E1. pose proof (O2 _ _ H) as E2. congruence. } subst. tauto.
      - apply IH; auto. { intros; apply HT; right; auto. } intros r' Hr'. destruct (F2_in _ _ _ F2 _ Hr') as (t & Ht & Et). eauto. }
    split. { intros r Hr. destruct (IN r Hr) as (t & Ht & Et). destruct (rank_ok t (HT t Ht)) as (r' & Er & Hr' & _). congruence. } symmetry. eapply F2_length; eauto.
  Qed.

  Lemma bp_init_ok p o targets : BpOK n lf lb p o -> NoDup targets -> (forall t, In t targets -> t < n) ->
    exists p' ts, bp_init n ranks lf lb p targets = Some p' /\ mapM (fun t => nth_error ranks t) targets = Some ts /\ BpOK n lf lb p' (Some ts).
  Proof.
    intros (C & LP & LF & HO) ND HT. unfold bp_init.
    assert (E0 : foldM (fun pots node => set_at pots node None) (bp_clear p) (bp_pots p) = Some (repeat None n)).
    { destruct o as [ts|]. 2: { destruct HO as [E1 E2]. rewrite E1, E2. auto. } destruct HO as (_ & _ & _ & S & _ & (_ & _ & C3 & C4 & _)). apply clear_fold; auto. }
    rewrite E0. cbn [bind]. destruct (targets_ranks targets ND HT) as (ts & Ets & NDs & HTs & Ls). rewrite Ets. cbn [bind].
    destruct (bs_run_ok n lf lb ts (fun l => l) (hi_fw _ _ _ _ _ _ HH) (hi_bw _ _ _ _ _ _ HH) NDs HTs (fun l => Permutation_refl l) (fun _ => True) (fun _ _ => I) I (fun _ _ _ => I) (bp_sel p) C) as (b & S & Eb & Cb & Bb).
    rewrite Eb. cbn [bind]. eexists. exists ts. split; [reflexivity|]. split; auto. split; auto. cbn. split; [apply repeat_length|]. split; [rewrite repeat_length; auto|]. split; auto. split; auto. split; auto. exists S. split; auto.
    split; [apply repeat_length|]. split; [rewrite repeat_length; auto|]. split. { intros v row E. apply nth_rep in E. discriminate. } split. { intros v []. }
    intros v _ Hv. exists false, None. rewrite !nth_error_repeat, LF. rewrite (proj2 (Nat.ltb_lt v n) Hv). auto.
  Qed.

  Lemma bp_value_ok p targets ts v : BpOK n lf lb p (Some ts) -> mapM (fun t => nth_error ranks t) targets = Some ts -> v < n ->
    exists p' row, bp_value false n ranks lf p v = Some (p', row) /\ BpOK n lf lb p' (Some ts) /\ length row = length targets /\
    forall i t, nth_error targets i = Some t -> exists d, nth_error row i = Some d /\ exact_answer arc v t (if (d <? INF)%N then Some d else None).
  Proof.
    intros (C & LP & LF & ND & HT & Enum & S & HB & HC) Ets Hv. unfold bp_value. destruct (rank_ok v Hv) as (r & Er & Hr & Or). rewrite Er. cbn [bind]. rewrite Enum.
    destruct (compute_ok n arc order ranks lf lb ts HH _ S (bp_sel p) HB HT (Datatypes.S n) r (bp_pots p, bp_final p, bp_clear p)) as ([[pots final] clear] & E & HC' & SB & Fr). { lia. } { auto. }
    { destruct HC as (A1 & A2 & A3 & A4 & A5). split; auto. split; auto. split; auto. split; auto. intros u _ Hu. apply A5; auto. lia. }
    rewrite E. cbn [bind]. cbn [fst snd] in Fr. rewrite Fr. cbn [negb orb guard bind]. destruct HC' as (A1 & A2 & A3 & A4 & A5). destruct (A5 r (le_n _) Hr) as (f & o & Ef & Eo & H). assert (f = true) by congruence. subst f. destruct H as (row & -> & RL & RO). rewrite Eo. cbn [bind].
    eexists. exists row. split; [reflexivity|]. pose proof (mapM_inv _ _ _ Ets) as F2. split.
    - split; auto. cbn. split; auto. split; auto. split; auto. split; auto. split; auto. exists S. split; auto. split; auto. split; auto. split; auto. split; auto.
      intros u _ Hu. destruct (Nat.lt_ge_cases u r) as [L|L]; [|apply A5; auto]. destruct HC as (_ & _ & _ & _ & D5). destruct (D5 u ltac:(lia) Hu) as (f & o & Ef' & Eo' & H'). destruct (SB u L) as [T1 T2]. cbn [fst snd] in T1, T2. exists f, o. rewrite T1, T2. auto.
    - split. { rewrite RL. symmetry. eapply F2_length; eauto. } intros i t Ei. destruct (Forall2_nth _ _ _ i t F2 Ei) as (rt & Ert & Hrt). destruct (RO i rt Ert) as (d & Ed & Bd). exists d. split; auto.
      destruct (hi_order _ _ _ _ _ _ HH) as (_ & _ & _ & O2). eapply best_exact; eauto.
  Qed.
End History.
