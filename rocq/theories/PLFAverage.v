(** The average of a piecewise linear function over a range. *)
From Verif Require Import Base BitVec Graph GraphProof SpecTTF PLF PLFProof PLFRange.

Lemma slice_app {A B} (g : A -> B) l a b s : slice l a b = Some s -> slice (map g l) a b = Some (map g s).
Proof.
  unfold slice. rewrite map_length. destruct ((a <=? b) && (b <=? length l)); cbn; [|discriminate].
  intros [= <-]. rewrite skipn_map, firstn_map. auto.
Qed.

Lemma windows2_split (g : ttf) :
  combine (windows2 (map fst g)) (windows2 (map snd g)) = map (fun '(p, q) => ((fst p, fst q), (snd p, snd q))) (windows2 g).
Proof. induction g as [|p [|q g] IH]; auto. cbn in *. f_equal. apply IH. Qed.

Lemma last_default {A} (x : A) l d d' : last (x :: l) d = last (x :: l) d'.
Proof. revert x; induction l as [|y l IH]; intros x; [reflexivity|]. exact (IH y). Qed.

Section Avg.
  Variables s e lo hi : N.
  Let step (sum : N) (x : N * N * (N * N)) : option N :=
    let '(v0, v1, valid) := x in delta <- csubN (snd valid) (fst valid) ;; Some (sum + v0 * delta + v1 * delta)%N.
  Let seg (pq : (N * N) * (N * N)) : N * N * (N * N) :=
    let '(p, q) := pq in (snd p, snd q, rinter (fst p, fst q) (s, e)).
  Let T (p : N * N) : N := (N.min (fst p) e - s)%N.

  Lemma avg_fold : (s <= e)%N -> forall g p acc,
    (forall i x y, nth_error (p :: g) i = Some x -> nth_error (p :: g) (S i) = Some y -> fst x < fst y /\ fst x < e /\ s < fst y)%N ->
    (forall x, In x (p :: g) -> lo <= snd x <= hi)%N ->
    exists acc', foldM step (map seg (windows2 (p :: g))) acc = Some acc' /\
      (T p <= T (last (p :: g) p) /\ acc + 2 * lo * (T (last (p :: g) p) - T p) <= acc' <= acc + 2 * hi * (T (last (p :: g) p) - T p))%N.
  Proof.
    intros SE. induction g as [|q g IH]; intros p acc C B.
    - cbn. exists acc. split; auto. rewrite N.sub_diag, !N.mul_0_r. lia.
    - cbn [windows2 map foldM]. destruct (C 0 p q eq_refl eq_refl) as (C1 & C2 & C3).
      unfold step at 1. unfold seg at 1. unfold rinter. cbn [fst snd]. unfold csubN.
      destruct (N.max (fst p) s <=? N.min (fst q) e)%N eqn:E; [|lia]. cbn [bind].
      set (dl := (N.min (fst q) e - N.max (fst p) s)%N).
      destruct (IH q (acc + snd p * dl + snd q * dl)%N) as (acc' & E' & M & L & U).
      { intros i x y H1 H2. apply (C (S i)); auto. }
      { intros x H. apply B. right. auto. }
      exists acc'. split; [exact E'|].
      change (last (p :: q :: g) p) with (last (q :: g) p). rewrite (last_default q g p q).
      set (t := T (last (q :: g) q)) in *.
      pose proof (B p (or_introl eq_refl)). pose proof (B q (or_intror (or_introl eq_refl))).
      assert (T q = T p + dl)%N as Tq by (unfold T, dl; lia).
      assert (lo * dl <= snd p * dl)%N by (apply N.mul_le_mono_r; lia).
      assert (lo * dl <= snd q * dl)%N by (apply N.mul_le_mono_r; lia).
      assert (snd p * dl <= hi * dl)%N by (apply N.mul_le_mono_r; lia).
      assert (snd q * dl <= hi * dl)%N by (apply N.mul_le_mono_r; lia).
      split; [lia|].
      replace (t - T p)%N with ((t - T q) + dl)%N by lia. rewrite !N.mul_add_distr_l. rewrite <- !N.mul_assoc in *. lia.
  Qed.
End Avg.

Section Fun.
  Variable bs : list N -> N -> option (nat + nat).
  Variable P : N.
  Variable debug : bool.
  Variable f : ttf.
  Hypothesis HB : nbs_contract bs.
  Hypothesis HP : (0 < P)%N.
  Hypothesis HV : valid_ttf P f.
  Hypothesis HS : forall p, In p f -> (fst p + snd p < INF)%N.

  Notation DT := (map fst f).
  Notation TT := (map snd f).
  Local Notation pt_asc := (pt_asc bs P f HB HP HV HS).
  Local Notation locate_ok := (locate_ok bs P debug f HB HP HV HS).

  (** The segments over a non-empty range within the period. *)
  Lemma seg_iter_ok s e : 2 <= length f -> (s < e <= P)%N ->
    exists p g q, seg_iter bs P debug DT TT (s, e) = Some (map (fun '(p, q) => (snd p, snd q, rinter (fst p, fst q) (s, e))) (windows2 (p :: g))) /\
      (forall i x y, nth_error (p :: g) i = Some x -> nth_error (p :: g) (S i) = Some y -> fst x < fst y /\ fst x < e /\ s < fst y)%N /\
      (forall x, In x (p :: g) -> In x f) /\ q = last (p :: g) p /\ (fst p <= s)%N /\ (e <= fst q)%N.
  Proof using HB HP HV HS.
    intros HL R. unfold seg_iter, index_range. cbn [fst snd]. rewrite map_length.
    unfold dassert at 1. destruct (1 <? length f) eqn:E1; [|lia]. cbn [guard].
    replace (if debug then Some tt else Some tt) with (Some tt) by (destruct debug; auto). cbn [bind].
    destruct (s =? e)%N eqn:E2; [lia|].
    destruct (locate_ok s HL ltac:(lia)) as (l1 & -> & C1). destruct (locate_ok e HL ltac:(lia)) as (l2 & -> & C2). cbn [bind].
    set (a := match l1 with On i => i | Between lo _ => lo end). set (b := match l2 with On i => i + 1 | Between _ up => up + 1 end).
    (* the ends *)
    assert (exists p, nth_error f a = Some p /\ (fst p <= s)%N /\ forall q, nth_error f (S a) = Some q -> (s < fst q)%N) as (pa & Ha & Pa & Na).
    { unfold a. destruct l1 as [i|lo up].
      - destruct C1 as (p & Hp & <-). exists p. split; auto. split; [lia|]. intros q Hq. apply (pt_asc i (S i)); auto.
      - destruct C1 as (-> & p & q & Hp & Hq & B). exists p. split; auto. split; [lia|]. intros q' Hq'. assert (q' = q) by congruence. subst. lia. }
    assert (exists c q, b = S c /\ nth_error f c = Some q /\ (e <= fst q)%N /\ 1 <= c /\ forall p, nth_error f (c - 1) = Some p -> (fst p < e)%N) as (c & qc & -> & Hc & Qc & C0 & Nc).
    { unfold b. destruct l2 as [i|lo up].
      - destruct C2 as (p & Hp & <-). exists i, p. split; [lia|]. split; auto. split; [lia|].
        assert (1 <= i). { destruct i; [|lia]. rewrite (first_pt bs P f HB HP HV HS) in Hp. inversion Hp; subst. cbn in *. lia. }
        split; auto. intros q Hq. apply (pt_asc (i - 1) i q p); auto; lia.
      - destruct C2 as (-> & p & q & Hp & Hq & B). exists (S lo), q. split; [lia|]. split; auto. split; [lia|]. split; [lia|].
        intros p' Hp'. replace (S lo - 1) with lo in Hp' by lia. assert (p' = p) by congruence. subst. lia. }
    assert (a < c) as AC.
    { destruct (le_lt_dec c a); auto. exfalso. apply Nat.le_lteq in l. destruct l as [l|E]; [pose proof (pt_asc _ _ _ _ l Hc Ha); lia|subst; assert (qc = pa) by congruence; subst; lia]. }
    apply nth_error_Some_lt in Hc as LC.
    destruct (slice_ok f a (S c) ltac:(lia) ltac:(lia)) as (g0 & Eg & Lg & Ng).
    rewrite (slice_app fst f a (S c) g0 Eg). cbn [bind]. rewrite (slice_app snd f a (S c) g0 Eg). cbn [bind].
    rewrite windows2_split.
    destruct g0 as [|p g]; [cbn [length] in Lg; lia|].
    assert (pa = p) as ->. { specialize (Ng 0). cbn [nth_error] in Ng. destruct (a + 0 <? S c) eqn:E; [|lia]. rewrite Nat.add_0_r in Ng. congruence. }
    assert (forall i x y, nth_error (p :: g) i = Some x -> nth_error (p :: g) (S i) = Some y -> fst x < fst y /\ fst x < e /\ s < fst y)%N as CH.
    { intros i x y Hx Hy. rewrite Ng in Hx, Hy. destruct (a + i <? S c) eqn:K1; [|discriminate]. destruct (a + S i <? S c) eqn:K2; [|discriminate].
      replace (a + S i) with (S (a + i)) in Hy by lia. destruct (pt_asc (a + i) (S (a + i)) x y ltac:(lia) Hx Hy) as (O & _).
      split; auto. split.
      - destruct (Nat.eq_dec (a + i) (c - 1)) as [K|K]; [rewrite K in Hx; apply Nc; auto|].
        destruct (nth_error f (c - 1)) as [z|] eqn:Ez; [|apply nth_error_None in Ez; lia].
        pose proof (pt_asc (a + i) (c - 1) x z ltac:(lia) Hx Ez). pose proof (Nc _ eq_refl). lia.
      - destruct (Nat.eq_dec (S (a + i)) (S a)) as [K|K]; [rewrite K in Hy; apply Na; auto|].
        destruct (nth_error f (S a)) as [z|] eqn:Ez; [|apply nth_error_None in Ez; lia].
        pose proof (pt_asc (S a) (S (a + i)) z y ltac:(lia) Ez Hy). pose proof (Na _ eq_refl). lia. }
    exists p, g, (last (p :: g) p). split; [|split; [auto|]].
    - clear - CH. 
      enough (forall l : list ((N * N) * (N * N)), (forall x y, In (x, y) l -> (fst x < fst y)%N) ->
        mapM (fun '((d0, d1), (v0, v1)) => _ <- dassert debug (d0 <=? d1)%N ;; Some (v0, v1, rinter (d0, d1) (s, e)))
          (map (fun '(p, q) => ((fst p, fst q), (snd p, snd q))) l) = Some (map (fun '(p, q) => (snd p, snd q, rinter (fst p, fst q) (s, e))) l)) as G.
      { apply G.
        assert (forall (l : ttf) x y, (forall i a b, nth_error l i = Some a -> nth_error l (S i) = Some b -> fst a < fst b)%N -> In (x, y) (windows2 l) -> (fst x < fst y)%N) as W.
        { clear. induction l as [|u [|v l] IH]; intros x y H I; cbn [windows2] in I; [destruct I|destruct I|].
          destruct I as [[= <- <-]|I]; [apply (H 0); auto|]. apply IH; auto. intros i a b Ha Hb. apply (H (S i)); auto. }
        intros x y I. apply (W (p :: g) x y); auto. intros i a b Ha Hb. apply (CH i a b); auto. }
      intros l; induction l as [|[x y] l IH]; intros H; [reflexivity|]. cbn [map mapM].
      pose proof (H x y (or_introl eq_refl)). unfold dassert at 1. destruct (fst x <=? fst y)%N eqn:E; [|lia]. cbn [guard].
      replace (if debug then Some tt else Some tt) with (Some tt) by (destruct debug; auto). cbn [bind].
      rewrite IH; [auto|]. intros; apply H; right; auto.
    - split.
      + intros x Hx. apply In_nth_error in Hx. destruct Hx as (i & Hi). rewrite Ng in Hi. destruct (a + i <? S c); [|discriminate]. eapply nth_error_In; eauto.
      + split; auto. split; auto.
        assert (last (p :: g) p = qc) as ->; auto.
        assert (nth_error (p :: g) (c - a) = Some qc) as Hl. { rewrite Ng. destruct (a + (c - a) <? S c) eqn:E; [|lia]. replace (a + (c - a)) with c by lia. auto. }
        assert (forall (l : ttf) d x, nth_error l (length l - 1) = Some x -> last l d = x) as LL.
        { clear. induction l as [|u [|v l] IH]; intros d x H; [discriminate|cbn in *; congruence|]. 
          change (last (v :: l) d = x). apply IH. cbn [length] in *. replace (S (length l) - 1) with (length l) by lia.
          replace (S (S (length l)) - 1) with (S (length l)) in H by lia. auto. }
        apply LL. rewrite Lg. replace (S c - a - 1) with (c - a) by lia. auto.
  Qed.

  Lemma average_range s e lo hi : 2 <= length f -> (s < e <= P)%N -> (forall p, In p f -> lo <= snd p <= hi)%N -> (hi < INF)%N ->
    exists s1 sum,
      seg_iter bs P debug DT TT (s, e) = Some s1 /\
      foldM (fun sum '(v0, v1, valid) => delta <- csubN (snd valid) (fst valid) ;; Some (sum + v0 * delta + v1 * delta)%N) s1 0%N = Some sum /\
      (lo <= sum / 2 / (e - s) <= hi)%N /\ ((sum / 2 / (e - s)) mod U32 = sum / 2 / (e - s))%N.
  Proof using HB HP HV HS.
    intros HL R HB' HI. destruct (seg_iter_ok s e HL R) as (p & g & q & E & CH & IN & EQ & Ps & Qe).
    destruct (avg_fold s e lo hi ltac:(lia) g p 0%N CH ltac:(intros; apply HB'; auto)) as (sum & F & M & L & U).
    exists (map (fun '(p, q) => (snd p, snd q, rinter (fst p, fst q) (s, e))) (windows2 (p :: g))), sum.
    split; [exact E|]. split; [exact F|].
    rewrite <- EQ in *. replace (N.min (fst q) e - s - (N.min (fst p) e - s))%N with (e - s)%N in * by lia.
    assert (lo <= sum / 2 / (e - s) <= hi)%N as B.
    { rewrite N.div_div by lia. split.
      - apply N.div_le_lower_bound; [lia|]. nia.
      - apply N.div_le_upper_bound; [lia|]. nia. }
    split; auto. apply N.mod_small. assert (INF < U32)%N by reflexivity. lia.
  Qed.

  (** Over ranges that do not cross the period (an end of 0 is the end of the period). *)
  Lemma average_ok s e lo hi : 2 <= length f -> (s < P)%N -> (s < e < P \/ e = 0)%N -> (P < INF)%N ->
    (forall p, In p f -> lo <= snd p <= hi)%N -> (hi < INF)%N ->
    exists v, average bs P debug DT TT (s, e) = Some v /\ (lo <= v <= hi)%N.
  Proof using HB HP HV HS.
    intros HL Sp D PI HB' HI. unfold average, monotonize. cbn [fst snd].
    assert (INF < U32)%N as IU by reflexivity.
    set (e' := if (e <=? s)%N then P else e).
    assert ((if (e <=? s)%N then (e0 <- cadd e P ;; Some (s, e0)) else Some (s, e)) = Some (s, e')) as ->.
    { unfold e'. destruct (e <=? s)%N eqn:E; auto. replace e with 0%N by lia. unfold cadd. rewrite N.add_0_l. destruct (P <? U32)%N eqn:K; [auto|lia]. }
    assert (s < e' <= P)%N as R by (unfold e'; destruct (e <=? s)%N eqn:E; lia). clearbody e'.
    cbn [bind fst snd]. unfold csubN at 1. destruct (s <=? e')%N eqn:E; [|lia]. cbn [bind].
    unfold rsplit. cbn [fst snd]. destruct (P <? s)%N eqn:E1; [lia|]. destruct (e' <=? P)%N eqn:E2; [|lia].
    destruct (average_range s e' lo hi HL R HB' HI) as (s1 & sum & -> & F & B & M). cbn [bind].
    unfold seg_iter, index_range. cbn [fst snd]. rewrite N.eqb_refl. rewrite map_length. unfold dassert at 1.
    destruct (1 <? length f) eqn:E3; [|lia]. cbn [guard]. replace (if debug then Some tt else Some tt) with (Some tt) by (destruct debug; auto).
    cbn [bind]. unfold slice. cbn. rewrite app_nil_r. rewrite F. cbn [bind].
    destruct (e' - s =? 0)%N eqn:E4; [lia|]. cbn [negb guard bind]. rewrite M. eauto.
  Qed.

  Lemma dt_le d i : nth_error DT i = Some d -> (d <= P)%N.
  Proof using HB HP HV HS.
    intros H. apply (DT_inv bs P f HB HP HV HS) in H. destruct H as (p & Hp & <-).
    destruct (one_or_more bs P f HB HP HV HS) as [(w & E)|L].
    - rewrite E in Hp. destruct i as [|[]]; cbn in Hp; inversion Hp. subst. cbn. lia.
    - pose proof (last_pt bs P f HB HP HV HS L) as LP. destruct (Nat.eq_dec i (length f - 1)) as [->|].
      + rewrite LP in Hp. inversion Hp; subst. cbn. lia.
      + apply nth_error_Some_lt in Hp as L'. pose proof (pt_asc i (length f - 1) _ _ ltac:(lia) Hp LP). cbn in *. lia.
  Qed.

  Lemma locate_beyond t : (P < t)%N -> (locate bs P debug DT t = None \/ locate bs P debug DT t = Some (Between (length f - 1) (length f))).
  Proof using HB HP HV HS.
    intros T. unfold locate. destruct (t =? 0)%N eqn:E0; [lia|]. destruct (t =? P)%N eqn:E1; [lia|].
    destruct (HB DT t (DT_asc bs P f HB HP HV HS)) as (r & -> & C). cbn [bind]. destruct r as [i|u].
    - apply dt_le in C. lia.
    - rewrite map_length in *. destruct C as (C1 & C2 & C3).
      assert (u = length f).
      { destruct (Nat.eq_dec u (length f)); auto. destruct (nth_error DT u) as [d|] eqn:Ed; [|apply nth_error_None in Ed; rewrite map_length in Ed; lia].
        pose proof (C3 u d ltac:(lia) Ed). apply dt_le in Ed. lia. }
      subst u. unfold dassert. destruct debug.
      + left. destruct (0 <? length f); auto. destruct (length f <? length f) eqn:E; [lia|auto].
      + cbn [bind]. pose proof (f_nonempty bs P f HB HP HV HS). destruct (length f =? 0) eqn:E; [lia|]. right. auto.
  Qed.

  (** Every range that crosses the period panics. *)
  Lemma average_wrapping s e : (s < P)%N -> (0 < e <= s)%N -> average bs P debug DT TT (s, e) = None.
  Proof using HB HP HV HS.
    intros Sp R. unfold average, monotonize. cbn [fst snd]. destruct (e <=? s)%N eqn:E; [|lia].
    unfold cadd. destruct (e + P <? U32)%N; auto. cbn [bind fst snd]. unfold csubN at 1. destruct (s <=? e + P)%N eqn:E1; [|lia]. cbn [bind].
    unfold rsplit. cbn [fst snd]. destruct (P <? s)%N eqn:E2; [lia|]. destruct (e + P <=? P)%N eqn:E3; [lia|].
    destruct (seg_iter bs P debug DT TT (s, P)); auto. cbn [bind].
    replace (seg_iter bs P debug DT TT (P, (e + P)%N)) with (@None (list (N * N * (N * N)))); auto. symmetry.
    unfold seg_iter. destruct (dassert debug (1 <? length DT)); auto. cbn [bind]. unfold index_range. cbn [fst snd].
    destruct (P =? e + P)%N eqn:E4; [lia|].
    destruct (locate bs P debug DT P) as [la|]; auto. cbn [bind].
    destruct (locate_beyond (e + P) ltac:(lia)) as [->| ->]; auto. cbn [bind].
    unfold slice at 1. rewrite map_length. destruct (_ && _) eqn:E5; auto. apply andb_true_iff in E5. lia.
  Qed.

  (** A constant function: every range that ends after 0 panics. *)
  Lemma average_constant c s e : f = [(0%N, c)] -> (s < e < P)%N -> average bs P debug DT TT (s, e) = None.
  Proof using HB HP HV HS.
    intros Ef R. unfold average, monotonize. cbn [fst snd]. destruct (e <=? s)%N eqn:E; [lia|]. cbn [bind fst snd].
    unfold csubN at 1. destruct (s <=? e)%N eqn:E1; [|lia]. cbn [bind].
    unfold rsplit. cbn [fst snd]. destruct (P <? s)%N eqn:E2; [lia|]. destruct (e <=? P)%N eqn:E3; [|lia].
    replace (seg_iter bs P debug DT TT (s, e)) with (@None (list (N * N * (N * N)))); auto. symmetry.
    unfold seg_iter. destruct (dassert debug (1 <? length DT)); auto. cbn [bind]. unfold index_range. cbn [fst snd].
    destruct (s =? e)%N eqn:E4; [lia|].
    destruct (locate bs P debug DT s) as [la|]; auto. cbn [bind].
    assert (locate bs P debug DT e = None \/ locate bs P debug DT e = Some (Between 0 1)) as [->| ->]; auto.
    { unfold locate. destruct (e =? 0)%N eqn:E0; [lia|]. destruct (e =? P)%N eqn:E5; [lia|].
      destruct (HB DT e (DT_asc bs P f HB HP HV HS)) as (r & -> & C). cbn [bind]. rewrite Ef in C |- *. cbn [map length fst] in C |- *. destruct r as [ix|ux].
      - destruct ix as [|[]]; cbn in C; inversion C. lia.
      - destruct C as (C1 & C2 & C3). assert (ux = 1). { destruct (Nat.eq_dec ux 0) as [Eu|]; [|lia]. specialize (C3 0 0%N ltac:(lia) eq_refl). lia. }
        subst ux. unfold dassert. destruct debug; cbn; auto. }
    cbn [bind]. unfold slice at 1. rewrite map_length. rewrite Ef at 1. cbn [length]. destruct (_ && _) eqn:E5; auto. apply andb_true_iff in E5. cbn in E5. lia.
  Qed.
End Fun.
