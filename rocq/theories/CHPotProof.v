(** CHPotential: the depth first evaluation ends and yields the exact distances of the hierarchy. *)
From Verif Require Import Base SpecGraph SpecCCH SpecCH BitVec IndexHeap TsVec Graph GraphProof Dijkstra DijServer DijServerProof DijOrderProof DijHistProof LoopProof CCHContractProof TDGraphProof AltProof Rphast RphastProof CHPot.

Lemma sum_change (f g : nat -> nat) u l : NoDup l -> In u l -> (forall v, v <> u -> f v = g v) -> list_sum (map f l) + g u = list_sum (map g l) + f u.
Proof.
  intros ND Hu H. induction l as [|x l IH]; [destruct Hu|]. inversion ND as [|? ? Nx ND']; subst. cbn [map list_sum fold_right]. fold (list_sum (map f l)). fold (list_sum (map g l)).
  destruct Hu as [->|Hu].
  - assert (E : map f l = map g l). { apply map_ext_in. intros v Hv. apply H. intros ->. auto. } rewrite E. lia.
  - specialize (IH ND' Hu). rewrite (H x) by (intros ->; auto). lia.
Qed.

Section CHPot.
  Context (n : nat) (lf lb : nat -> option (list (nat * N))).

  Definition unset (pots : list (option N)) (v : nat) : bool := match nth_error pots v with Some None => true | _ => false end.
  Definition openh (pots : list (option N)) (ls : list (nat * N)) : list nat := filter (unset pots) (map fst ls).

  Lemma cp_fold pots ls : length pots = n -> (forall v x, nth_error pots v = Some (Some x) -> (x <= INF)%N) -> (forall h w, In (h, w) ls -> h < n /\ (w <= INF)%N) ->
    forall d0 m0 stack, exists d, foldM (cp_arc pots) ls (d0, m0, stack) = Some (d, orb m0 (negb (length (openh pots ls) =? 0)), rev (openh pots ls) ++ stack) /\
      (d <= d0)%N /\ (forall h w x, In (h, w) ls -> nth_error pots h = Some (Some x) -> (d <= x + w)%N) /\
      (d = d0 \/ exists h w x, In (h, w) ls /\ nth_error pots h = Some (Some x) /\ d = (x + w)%N).
  Proof.
    intros HL HX. induction ls as [|[h w] ls IH]; intros HA d0 m0 stack; cbn [foldM].
    - exists d0. cbn. rewrite orb_false_r. split; auto. split; [lia|]. split; [tauto|]. auto.
    - destruct (HA h w ltac:(left; auto)) as [Hh Hw]. specialize (IH ltac:(intros; apply HA; right; auto)). unfold cp_arc at 1. cbn [fst snd].
      destruct (nth_error pots h) as [[x|]|] eqn:Eh. 3: { apply nth_error_None in Eh. lia. }
      + cbn [bind]. pose proof (HX h x Eh). rewrite cadd_ok by (unfold INF, U32 in *; lia). cbn [bind]. destruct (IH (N.min d0 (x + w)) m0 stack) as (d & E & D1 & D2 & D3). exists d.
        assert (EO : openh pots ((h, w) :: ls) = openh pots ls) by (unfold openh; cbn [map filter fst]; unfold unset at 1; rewrite Eh; auto). rewrite EO. split; [exact E|]. split; [lia|]. split.
        * intros h' w' x' [E'|Hin] Ex. { injection E' as <- <-. assert (x' = x) by congruence. subst. lia. } eapply D2; eauto.
        * destruct D3 as [D3|(h' & w' & x' & Hin & Ex & D3)]. 2: { right. exists h', w', x'. split; [right; auto|auto]. }
          destruct (N.min_spec d0 (x + w)) as [[_ M]|[_ M]]; rewrite M in D3; auto. right. exists h, w, x. split; [left; auto|auto].
      + cbn [bind]. destruct (IH d0 true (h :: stack)) as (d & E & D1 & D2 & D3). exists d.
        assert (EO : openh pots ((h, w) :: ls) = h :: openh pots ls) by (unfold openh; cbn [map filter fst]; unfold unset at 1; rewrite Eh; auto). rewrite EO. split.
        { rewrite E. cbn [length rev orb]. rewrite <- app_assoc. cbn [app]. replace (S (length (openh pots ls)) =? 0) with false by auto. cbn. rewrite orb_true_r. auto. }
        split; [auto|]. split.
        * intros h' w' x' [E'|Hin] Ex. { injection E' as <- <-. congruence. } eapply D2; eauto.
        * destruct D3 as [D3|(h' & w' & x' & Hin & Ex & D3)]; auto. right. exists h', w', x'. split; [right; auto|auto].
  Qed.

  Hypothesis UF : upward n lf.
  Variable t : nat.
  Variable sv : server unit unit.
  Hypothesis HD : forall v, v < n -> exists x, sv_dist_of sv v = Some x /\ capd (garc lb) t v x.

  (** values computed so far are right *)
  Definition vals (pots : list (option N)) : Prop := length pots = n /\ forall v x, nth_error pots v = Some (Some x) -> best (garc lb) (garc lf) t v x.
  (** [E]: nodes on the stack whose neighbours have been pushed *)
  Definition inE (E : list nat) (v : nat) : bool := if in_dec Nat.eq_dec v E then true else false.
  Definition wgt (E : list nat) (pots : list (option N)) (v : nat) : nat := if (unset pots v && negb (inE E v))%bool then S (out_degree lf v) else 0.
  Definition DM (g : list nat * list nat * list (option N)) : N := let '(E, stack, pots) := g in N.of_nat (list_sum (map (wgt E pots) (seq 0 n)) + length stack).
  Definition DI (node : nat) (g : list nat * list nat * list (option N)) (s : list nat * list (option N)) : Prop :=
    let '(E, stack, pots) := g in s = (stack, pots) /\ vals pots /\ (forall v, In v stack -> v < n) /\ (In node stack \/ unset pots node = false) /\
    forall v, In v E -> unset pots v = true /\ exists above below, stack = above ++ v :: below /\ (forall y, In y above -> v < y) /\
      forall ls h w, lf v = Some ls -> In (h, w) ls -> unset pots h = true -> In h above.

  Lemma unset_lt pots v : unset pots v = true -> v < length pots.
  Proof. unfold unset. destruct (nth_error pots v) eqn:E; [|discriminate]. intros _. eapply nth_error_Some_lt; eauto. Qed.
  Lemma unset_upd pots u d v : u < length pots -> unset (upd pots u (Some d)) v = if v =? u then false else unset pots v.
  Proof.
    intros Hu. unfold unset. destruct (Nat.eqb_spec v u) as [->|Ne]. { rewrite nth_error_upd_eq; auto. } rewrite nth_error_upd_neq; auto.
  Qed.
  Lemma inE_true E v : inE E v = true <-> In v E.
  Proof. unfold inE. destruct (in_dec Nat.eq_dec v E); split; auto; discriminate. Qed.

  Lemma cp_settle u pots d0 ls d : vals pots -> u < n -> sv_dist_of sv u = Some d0 -> lf u = Some ls -> openh pots ls = [] ->
    (d <= d0)%N -> (forall h w x, In (h, w) ls -> nth_error pots h = Some (Some x) -> (d <= x + w)%N) -> (d = d0 \/ exists h w x, In (h, w) ls /\ nth_error pots h = Some (Some x) /\ d = (x + w)%N) ->
    best (garc lb) (garc lf) t u d.
  Proof.
    intros [HL HV] Hu E0 El EO D1 D2 D3. destruct (HD u Hu) as (x0 & E0' & C0). assert (x0 = d0) by congruence. subst x0.
    assert (HS : forall h w, In (h, w) ls -> exists x, nth_error pots h = Some (Some x)).
    { intros h w Hin. destruct (nth_error pots h) as [[x|]|] eqn:Eh; eauto.
      - exfalso. assert (In h (openh pots ls)). { unfold openh. apply filter_In. split. { apply in_map_iff. exists (h, w). auto. } unfold unset. rewrite Eh. auto. } rewrite EO in H. destruct H.
      - apply nth_error_None in Eh. destruct (UF u Hu) as (ls' & E' & H'). assert (ls' = ls) by congruence. subst. apply H' in Hin. lia. }
    set (dd := fun h => match nth_error pots h with Some (Some x) => x | _ => 0%N end).
    apply (best_split n lb lf t u d0 d ls dd Hu El C0).
    - intros h w Hin. destruct (HS h w Hin) as (x & Ex). unfold dd. rewrite Ex. auto.
    - auto.
    - intros h w Hin. destruct (HS h w Hin) as (x & Ex). unfold dd. rewrite Ex. eauto.
    - destruct D3 as [D3|(h & w & x & Hin & Ex & D3)]; auto. right. exists h, w. split; auto. unfold dd. rewrite Ex. auto.
  Qed.

  Lemma cp_loop node pots : node < n -> vals pots -> exists pots', loopN (cp_fuel n lf) (cp_step lf sv) ([node], pots) = Some pots' /\ vals pots' /\ unset pots' node = false.
  Proof.
    intros Hn HV. destruct (loopN_ghost (cp_step lf sv) (DI node) (fun pots' => vals pots' /\ unset pots' node = false) DM (cp_fuel n lf) ([], [node], pots) ([node], pots)) as (r & E & Q); eauto.
    - intros [[E stack] pots1] s (-> & V1 & HS & HN & HE). unfold cp_step. destruct stack as [|u rest].
      { eexists. split; [reflexivity|]. cbn. split; auto. destruct HN as [[]|HN]; auto. }
      assert (Hu : u < n) by (apply HS; left; auto). pose proof V1 as [LP VP]. destruct (nth_error pots1 u) as [[x|]|] eqn:Eu. 3: { apply nth_error_None in Eu. lia. }
      { cbn [bind]. eexists. split; [reflexivity|]. cbn. exists (E, rest, pots1). split.
        - split; auto. split; auto. split. { intros v Hv. apply HS. right; auto. } split. { destruct HN as [[->|HN]|HN]; auto. right. unfold unset. rewrite Eu. auto. }
          intros v Hv. destruct (HE v Hv) as (H1 & above & below & H2 & H3 & H4). split; auto. destruct above as [|a above]. { cbn in H2. injection H2 as <- _. unfold unset in H1. rewrite Eu in H1. discriminate. }
          cbn in H2. injection H2 as <- ->. exists above, below. split; auto. split. { intros; apply H3; right; auto. }
          intros ls h w El Hin Hh. destruct (H4 ls h w El Hin Hh) as [<-|H5]; auto. unfold unset in Hh. rewrite Eu in Hh. discriminate.
        - unfold DM. cbn [length]. lia. }
      cbn [bind]. destruct (HD u Hu) as (d0 & Ed & C0). rewrite Ed. cbn [bind]. destruct (UF u Hu) as (ls & El & HL). rewrite El. cbn [bind].
      destruct (cp_fold pots1 ls LP (fun v x Ex => proj1 (VP v x Ex)) (fun h w Hin => proj2 (HL h w Hin)) d0 false (u :: rest)) as (d & Ef & D1 & D2 & D3).
      rewrite Ef. cbn [bind orb]. assert (UU : unset pots1 u = true) by (unfold unset; rewrite Eu; auto).
      assert (OD : out_degree lf u = length ls) by (unfold out_degree; rewrite El; auto).
      destruct (openh pots1 ls) as [|h0 hs] eqn:EO.
      + cbn [length Nat.eqb negb]. assert (B : best (garc lb) (garc lf) t u d) by (apply (cp_settle u pots1 d0 ls d); auto).
        assert (Dd : (d <= INF)%N) by exact (proj1 B). assert (Eg : (d =? U32MAX)%N = false) by (apply N.eqb_neq; unfold U32MAX, INF in *; lia). rewrite Eg. cbn [negb guard bind].
        rewrite set_at_lt by lia. cbn [bind rev app tl]. eexists. split; [reflexivity|]. cbn. exists (remove Nat.eq_dec u E, rest, upd pots1 u (Some d)). split.
        * split; auto. split. { split; [rewrite upd_length; auto|]. intros v x Ex. destruct (Nat.eq_dec v u) as [->|Ne]. { rewrite nth_error_upd_eq in Ex by lia. injection Ex as <-. auto. } rewrite nth_error_upd_neq in Ex by auto. auto. }
          split. { intros v Hv. apply HS. right; auto. } split. { rewrite unset_upd by lia. destruct (Nat.eqb_spec node u) as [->|Ne]; auto. destruct HN as [[->|HN]|HN]; auto. tauto. }
          intros v Hv. apply in_remove in Hv. destruct Hv as [Hv Ne]. destruct (HE v Hv) as (H1 & above & below & H2 & H3 & H4). rewrite unset_upd by lia. rewrite (proj2 (Nat.eqb_neq v u) Ne). split; auto.
          destruct above as [|a above]. { cbn in H2. injection H2 as <- _. tauto. } cbn in H2. injection H2 as <- ->. exists above, below. split; auto. split. { intros; apply H3; right; auto. }
          intros ls' h w El' Hin Hh. rewrite unset_upd in Hh by lia. destruct (Nat.eqb_spec h u) as [->|Nh]; [discriminate|]. destruct (H4 ls' h w El' Hin Hh) as [<-|H5]; auto. tauto.
        * unfold DM. cbn [length]. assert (list_sum (map (wgt (remove Nat.eq_dec u E) (upd pots1 u (Some d))) (seq 0 n)) <= list_sum (map (wgt E pots1) (seq 0 n))); [|lia].
          assert (W : forall l, list_sum (map (wgt (remove Nat.eq_dec u E) (upd pots1 u (Some d))) l) <= list_sum (map (wgt E pots1) l)); auto.
          intros l. induction l as [|v l IH]; cbn [map list_sum fold_right]; auto. fold (list_sum (map (wgt (remove Nat.eq_dec u E) (upd pots1 u (Some d))) l)). fold (list_sum (map (wgt E pots1) l)).
          enough (wgt (remove Nat.eq_dec u E) (upd pots1 u (Some d)) v <= wgt E pots1 v) by lia. unfold wgt. rewrite unset_upd by lia. destruct (Nat.eqb_spec v u) as [->|Ne]; [cbn; lia|].
          replace (inE (remove Nat.eq_dec u E) v) with (inE E v); auto. destruct (inE E v) eqn:E1; symmetry.
          -- apply inE_true. apply in_in_remove; auto. apply inE_true; auto.
          -- destruct (inE (remove Nat.eq_dec u E) v) eqn:E2; auto. apply inE_true, in_remove in E2. destruct E2 as [E2 _]. apply inE_true in E2. congruence.
      + cbn [length Nat.eqb negb]. eexists. split; [reflexivity|]. cbn [fst snd]. rewrite <- EO. exists (u :: E, rev (openh pots1 ls) ++ u :: rest, pots1).
        assert (HO : forall h, In h (openh pots1 ls) -> u < h /\ h < n). { intros h Hh. apply filter_In in Hh. destruct Hh as [Hh _]. apply in_map_iff in Hh. destruct Hh as ([h' w] & <- & Hin). apply HL in Hin. cbn. tauto. }
        assert (NE : ~ In u E). { intros Hin. destruct (HE u Hin) as (_ & above & below & H2 & H3 & H4). destruct above as [|a above].
          - assert (Hh : In h0 (openh pots1 ls)) by (rewrite EO; left; auto). apply filter_In in Hh. destruct Hh as [Hh1 Hh2]. apply in_map_iff in Hh1. destruct Hh1 as ([h' w] & <- & Hin'). destruct (H4 ls h' w El Hin' Hh2).
          - cbn in H2. injection H2 as <- _. specialize (H3 u ltac:(left; auto)). lia. }
        split.
        * split; auto. split; auto. split. { intros v Hv. apply in_app_or in Hv. destruct Hv as [Hv|Hv]; auto. apply in_rev in Hv. apply HO in Hv. tauto. }
          split. { destruct HN as [HN|HN]; auto. left. apply in_or_app. auto. }
          intros v [<-|Hv].
          -- split; auto. exists (rev (openh pots1 ls)), rest. split; auto. split. { intros y Hy. apply in_rev in Hy. apply HO in Hy. tauto. }
             intros ls' h w El' Hin Hh. assert (ls' = ls) by congruence. subst. apply -> in_rev. apply filter_In. split; auto. apply in_map_iff. exists (h, w). auto.
          -- destruct (HE v Hv) as (H1 & above & below & H2 & H3 & H4). split; auto. destruct above as [|a above]. { cbn in H2. injection H2 as <- _. tauto. }
             cbn in H2. injection H2 as <- ->. exists (rev (openh pots1 ls) ++ u :: above), below. split. { rewrite <- app_assoc. auto. } split.
             { intros y Hy. specialize (H3 u ltac:(left; auto)) as Hvu. apply in_app_or in Hy. destruct Hy as [Hy|Hy]; [apply in_rev, HO in Hy; lia|]. apply H3; auto. }
             intros ls' h w El' Hin Hh. apply in_or_app. right. eauto.
        * unfold DM. rewrite app_length, rev_length. cbn [length]. pose proof (sum_change (wgt (u :: E) pots1) (wgt E pots1) u (seq 0 n) (seq_NoDup n 0) ltac:(apply in_seq; lia)) as SC.
          assert (W : forall v, v <> u -> wgt (u :: E) pots1 v = wgt E pots1 v).
          { intros v Ne. unfold wgt. replace (inE (u :: E) v) with (inE E v); auto. unfold inE. destruct (in_dec Nat.eq_dec v E), (in_dec Nat.eq_dec v (u :: E)); auto; exfalso. - apply n0. right; auto. - destruct i; auto. }
          specialize (SC W). assert (W1 : wgt (u :: E) pots1 u = 0). { unfold wgt. replace (inE (u :: E) u) with true by (symmetry; apply inE_true; left; auto). rewrite andb_false_r. auto. }
          assert (W2 : wgt E pots1 u = S (length ls)). { unfold wgt. rewrite UU. destruct (inE E u) eqn:E1. { apply inE_true in E1. tauto. } cbn. rewrite OD. auto. }
          assert (LO : length (openh pots1 ls) <= length ls). { unfold openh. rewrite <- (map_length fst ls). generalize (map fst ls). intros l. induction l as [|z l IH]; cbn; auto. destruct (unset pots1 z); cbn; lia. }
          lia.
    - split; auto. split; auto. split. { intros v [<-|[]]; auto. } split. { left; left; auto. } intros v [].
    - unfold DM, cp_fuel. cbn [length]. assert (list_sum (map (wgt [] pots) (seq 0 n)) <= list_sum (map (fun v => S (out_degree lf v)) (seq 0 n))); [|lia].
      generalize (seq 0 n). intros l. induction l as [|v l IH]; cbn [map list_sum fold_right]; auto. fold (list_sum (map (wgt [] pots) l)). fold (list_sum (map (fun v => S (out_degree lf v)) l)).
      assert (wgt [] pots v <= S (out_degree lf v)) by (unfold wgt; destruct (unset pots v && _)%bool; lia). lia.
  Qed.
End CHPot.

Section History.
  Context (n : nat) (arc : nat -> nat -> N -> Prop) (order ranks : list nat) (lf lb : nat -> option (list (nat * N))).
  Hypothesis HH : hierarchy n arc order ranks lf lb.

  (** state between calls; [None] before the first init *)
  Definition CpOK (p : chpot) (tgt : option nat) : Prop :=
    SvOK n (fun _ => True) (cp_sv p) /\ length (cp_pots p) = n /\
    match tgt with None => True | Some u => u < n /\ exists t, nth_error ranks u = Some t /\
      (forall v, v < n -> exists x, sv_dist_of (cp_sv p) v = Some x /\ capd (garc lb) t v x) /\ vals n lf lb t (cp_pots p) end.

  Lemma cp_new_ok : CpOK (cp_new n) None.
  Proof. split; [apply (sv_new_ok n); auto|]. split; [apply repeat_length|]. exact I. Qed.
  Lemma rank_of u : u < n -> exists x, nth_error ranks u = Some x /\ x < n /\ nth_error order x = Some u.
  Proof.
    intros Hu. destruct (hi_order _ _ _ _ _ _ HH) as (L1 & L2 & O1 & O2). destruct (nth_error_lt ranks u) as (x & E). { lia. }
    exists x. split; auto. apply O2 in E. split; auto. apply nth_error_Some_lt in E. lia.
  Qed.
  Lemma cp_init_ok p o u : CpOK p o -> u < n -> exists p', cp_init n ranks lb p u = Some p' /\ CpOK p' (Some u).
  Proof.
    intros (HS & HL & _) Hu. destruct (rank_of u Hu) as (t & Et & Ht & _). unfold cp_init. rewrite Et. cbn [bind].
    pose proof (up_wf n lb (hi_bw _ _ _ _ _ _ HH)) as WF.
    unfold sv_one_to_all. destruct (sv_all_ok n lb fst def_lk def_pl zero_init zero_pot (snb lb) sslk any_target (fun _ => True) (fun _ _ => True) (fun _ _ => Some 0%N)
      (snb_links n lb WF) (snb_hd n lb WF) (snb_lk n lb WF) (sslk_mono n lb) (sslk_ext n lb) (zero_contract n) (cp_sv p) t 0%N HS Ht) as (sv' & r & E & S' & X).
    { reflexivity. } { exact I. } { intros v q [= <-]. unfold INF, U32; lia. } { discriminate. }
    rewrite E. cbn [bind]. eexists. split; [reflexivity|]. split; [exact S'|]. cbn [cp_pots cp_sv]. split; [rewrite repeat_length; auto|]. split; auto. exists t. split; auto. split.
    - intros v Hv. destruct (X v Hv) as (y & Ey & Hy & Ear & _). exists y. split; auto. split; auto. eapply earliest_exact; eauto.
    - split; [rewrite repeat_length; auto|]. intros v x Ex. apply nth_error_In, repeat_spec in Ex. discriminate.
  Qed.
  Lemma cp_value_ok p u v : CpOK p (Some u) -> v < n -> exists p' r, cp_value n ranks lf p v = Some (p', r) /\ CpOK p' (Some u) /\ exact_answer arc v u r.
  Proof.
    intros (HS & HL & Hu & t & Et & HD & HV) Hv. destruct (rank_of v Hv) as (x & Ex & Hx & Ox). unfold cp_value. rewrite Ex. cbn [bind].
    destruct (rank_of u Hu) as (t' & Et' & Ht & Ot). assert (t' = t) by congruence. subst t'.
    destruct (cp_loop n lf lb (hi_fw _ _ _ _ _ _ HH) t (cp_sv p) HD x (cp_pots p) Hx HV) as (pots & E & V' & UN). rewrite E. cbn [bind].
    destruct (nth_error pots x) as [[d|]|] eqn:Ed.
    2: { unfold unset in UN. rewrite Ed in UN. discriminate. } 2: { apply nth_error_None in Ed. destruct V' as [V' _]. lia. }
    cbn [bind]. do 2 eexists. split; [reflexivity|]. split. { split; auto. cbn. split; [apply V'|]. split; auto. exists t. auto. }
    destruct V' as [_ V']. destruct (V' x d Ed) as (B1 & B2 & B3).
    assert (SW : forall l, meets (garc lb) (garc lf) t x l <-> meets (garc lf) (garc lb) x t l).
    { intros l. split; intros (m & a & b & Wa & Wb & ->); exists m, b, a; split; auto; split; auto; lia. }
    destruct (N.ltb_spec d INF) as [Ld|Ld].
    - split; auto. split. { apply (hi_sound _ _ _ _ _ _ HH x t v u d Ox Ot); auto. apply SW. auto. }
      intros l W. destruct (N.lt_ge_cases l d) as [Ll|]; auto. destruct (hi_complete _ _ _ _ _ _ HH x t v u l Ox Ot W) as (l' & M & L); [lia|]. apply SW, B3 in M. lia.
    - intros l W. destruct (N.lt_ge_cases l INF) as [Ll|]; auto. destruct (hi_complete _ _ _ _ _ _ HH x t v u l Ox Ot W) as (l' & M & L); [lia|]. apply SW, B3 in M. lia.
  Qed.
End History.

(** the history of calls *)
Section Calls.
  Context (n : nat) (arc : nat -> nat -> N -> Prop) (order ranks : list nat) (lf lb : nat -> option (list (nat * N))).
  Hypothesis HH : hierarchy n arc order ranks lf lb.

  Lemma cp_calls ops : Forall (fun op => match op with CpInit u => u < n | CpValue v => v < n end) ops ->
    forall p u, CpOK n ranks lf lb p (Some u) -> exists p', cp_history n ranks lf lb p ops = Some p' /\ CpOK n ranks lf lb p' (Some (fold_left (fun o op => match op with CpInit t => t | CpValue _ => o end) ops u)).
  Proof.
    induction ops as [|op ops IH]; intros HF p u HP; unfold cp_history; cbn [foldM fold_left]. { eauto. }
    inversion HF as [|? ? H1 H2]; subst. unfold cp_do at 1. destruct op as [t|v].
    - destruct (cp_init_ok n arc order ranks lf lb HH p (Some u) t HP H1) as (p' & E & HP'). rewrite E. cbn [bind]. apply IH; auto.
    - destruct (cp_value_ok n arc order ranks lf lb HH p u v HP H1) as (p' & r & E & HP' & _). rewrite E. cbn [bind]. apply IH; auto.
  Qed.
End Calls.
