(** RPHAST: selection and sweep. *)
From Coq Require Import Sorted.
From Verif Require Import Base SpecGraph SpecCCH SpecCH BitVec IndexHeap TsVec Graph GraphProof Dijkstra DijkstraRef DijkstraProof DijServer DijServerProof DijOrderProof LoopProof PLFRange CCHContractProof TDGraphProof AltProof Rphast.

Lemma list_sum_incl (f : nat -> nat) l l' : NoDup l -> incl l l' -> list_sum (map f l) <= list_sum (map f l').
Proof.
  revert l'. induction l as [|x l IH]; intros l' ND I; cbn; [lia|]. inversion ND; subst.
  destruct (in_split x l' (I x (or_introl eq_refl))) as (a & b & ->).
  specialize (IH (a ++ b) H2). assert (incl l (a ++ b)).
  { intros y Hy. specialize (I y (or_intror Hy)). apply in_app_or in I. apply in_or_app. destruct I as [I|[<-|I]]; auto. contradiction. }
  specialize (IH H). rewrite !map_app, !list_sum_app in *. cbn in *. unfold list_sum in *. lia.
Qed.

Lemma Forall2_imp {A B} (P Q : A -> B -> Prop) l r : (forall a b, P a b -> Q a b) -> Forall2 P l r -> Forall2 Q l r.
Proof. intros H; induction 1; constructor; auto. Qed.

Section Select.
  Variable n : nat.
  Variable links : nat -> option (list (nat * N)).
  Hypothesis UP : upward n links.
  Hypothesis FEW : few_arcs n links.
  Notation nb := (snb links).

  Lemma up_links u : u < n -> links u = Some (nb u).
  Proof using UP. intros Hu. destruct (UP u Hu) as (ls & E & _). unfold snb. rewrite E. auto. Qed.
  Lemma up_in u v w : u < n -> In (v, w) (nb u) -> u < v /\ v < n /\ (w <= INF)%N.
  Proof using UP. intros Hu. destruct (UP u Hu) as (ls & E & H). unfold snb. rewrite E. apply H. Qed.

  Record SelOK (r : rphast) (rows : list (list (nat * N))) : Prop := {
    so_len : length (rp_ids r) = n;
    so_ids : forall v i, v < n -> (nth_error (rp_ids r) v = Some (Some i) <-> nth_error (rp_nodes r) i = Some v);
    so_nd : NoDup (rp_nodes r);
    so_lt : Forall (fun v => v < n) (rp_nodes r);
    so_fl : length (rp_first r) = S (length rows);
    so_first : forall i, i <= length rows -> nth_error (rp_first r) i = Some (tlen (firstn i rows));
    so_head : rp_head r = map fst (concat rows);
    so_wt : rp_weight r = map snd (concat rows);
    so_rl : length rows = length (rp_nodes r);
    so_rows : forall i v row, nth_error (rp_nodes r) i = Some v -> nth_error rows i = Some row ->
      Forall2 (fun a b => nth_error (rp_nodes r) (fst b) = Some (fst a) /\ fst b < i /\ snd a = snd b) (nb v) row }.

  Lemma so_none r rows v : SelOK r rows -> v < n -> (nth_error (rp_ids r) v = Some None <-> ~ In v (rp_nodes r)).
  Proof using.
    intros H Hv. split.
    - intros E Hin. apply In_nth_error in Hin. destruct Hin as (i & Hi). apply (so_ids _ _ H) in Hi; auto. congruence.
    - intros Hn. destruct (nth_error (rp_ids r) v) as [[i|]|] eqn:E; auto.
      + apply (so_ids _ _ H) in E; auto. apply nth_error_In in E. contradiction.
      + apply nth_error_None in E. rewrite (so_len _ _ H) in E. lia.
  Qed.
  Lemma so_some r rows v : SelOK r rows -> v < n -> In v (rp_nodes r) -> exists i, nth_error (rp_ids r) v = Some (Some i).
  Proof using. intros H Hv Hin. apply In_nth_error in Hin. destruct Hin as (i & Hi). exists i. apply (so_ids _ _ H); auto. Qed.
  Lemma so_case r rows v : SelOK r rows -> v < n -> {i | nth_error (rp_ids r) v = Some (Some i) /\ nth_error (rp_nodes r) i = Some v} + {nth_error (rp_ids r) v = Some None}.
  Proof using.
    intros H Hv. destruct (nth_error (rp_ids r) v) as [[i|]|] eqn:E; auto.
    - left. exists i. split; auto. apply (so_ids _ _ H); auto.
    - exfalso. apply nth_error_None in E. rewrite (so_len _ _ H) in E. lia.
  Qed.

  Lemma rp_open_ok r rows ls : SelOK r rows -> (forall v w, In (v, w) ls -> v < n) ->
    exists o, rp_open (rp_ids r) ls = Some o /\
      match o with Some v => In v (map fst ls) /\ nth_error (rp_ids r) v = Some None
      | None => forall v w, In (v, w) ls -> In v (rp_nodes r) end.
  Proof using.
    intros H. induction ls as [|[v w] ls IH]; intros HL; cbn [rp_open].
    - exists None. split; auto. intros ? ? [].
    - assert (Hv : v < n) by (apply (HL v w); left; auto). destruct (so_case r rows v H Hv) as [(i & E & E')|E]; rewrite E; cbn [bind].
      + destruct IH as (o & Eo & Ho). { intros; eapply HL; right; eauto. } exists o. split; auto. destruct o as [u|].
        * split; [right|]; apply Ho. * intros v' w' [[= <- <-]|Hin]; eauto. eapply nth_error_In; eauto.
      + exists (Some v). split; auto. split; auto. left; auto.
  Qed.

  Lemma rp_finish_ok r rows u : SelOK r rows -> u < n -> ~ In u (rp_nodes r) -> (forall v w, In (v, w) (nb u) -> In v (rp_nodes r)) ->
    exists r' row, rp_finish r u (nb u) = Some r' /\ SelOK r' (rows ++ [row]) /\ rp_nodes r' = rp_nodes r ++ [u].
  Proof using UP FEW.
    intros H Hu Hn HA. set (k := length (rp_nodes r)).
    assert (Hk : k < n).
    { assert (L : length (u :: rp_nodes r) <= length (seq 0 n)). { apply NoDup_incl_length. { constructor; auto. apply (so_nd _ _ H). } intros x [<-|Hx]; apply in_seq; [lia|]. pose proof (so_lt _ _ H) as F. rewrite Forall_forall in F. specialize (F x Hx). lia. }
      rewrite seq_length in L. cbn in L. unfold k. lia. }
    unfold rp_finish. fold k. destruct FEW as [F1 F2]. unfold U32MAX. rewrite (proj2 (N.ltb_lt (N.of_nat k) 4294967295)) by lia. cbn [guard bind].
    rewrite set_at_lt by (rewrite (so_len _ _ H); auto). cbn [bind]. set (ids := upd (rp_ids r) u (Some k)).
    assert (Old : forall v, In v (rp_nodes r) -> nth_error ids v = nth_error (rp_ids r) v).
    { intros v Hv. unfold ids. apply nth_error_upd_neq. intros ->. contradiction. }
    destruct (mapM_ok (fun a : nat * N => i <- nth_error ids (fst a) ;; i) (nb u)) as (hs & Eh & F).
    { intros [v w] Hin. cbn [fst]. rewrite Old by eauto. destruct (up_in u v w Hu Hin) as (_ & Hv & _). destruct (so_some r rows v H Hv) as (i & E); eauto. rewrite E. cbn. eauto. }
    rewrite Eh. cbn [bind]. set (row := combine hs (map snd (nb u))).
    assert (Lh : length hs = length (nb u)) by (apply Forall2_len in F; auto).
    assert (Rf : map fst row = hs). { unfold row. clear -Lh. revert Lh. generalize (nb u). induction hs as [|h hs IH]; intros [|a l] L; cbn in *; try discriminate; auto. f_equal. apply IH. lia. }
    assert (Rs : map snd row = map snd (nb u)). { unfold row. clear -Lh. revert Lh. generalize (nb u). induction hs as [|h hs IH]; intros [|a l] L; cbn in *; try discriminate; auto. f_equal. apply IH. lia. }
    assert (Hrow : Forall2 (fun a b => nth_error (rp_nodes r) (fst b) = Some (fst a) /\ fst b < k /\ snd a = snd b) (nb u) row).
    { unfold row. assert (G : forall l hs, Forall2 (fun (a : nat * N) (b : nat) => (i <- nth_error ids (fst a) ;; i) = Some b) l hs -> (forall v w, In (v, w) l -> In v (rp_nodes r)) ->
        Forall2 (fun a b => nth_error (rp_nodes r) (fst b) = Some (fst a) /\ fst b < k /\ snd a = snd b) l (combine hs (map snd l))).
      { clear -Old H. intros l hs F. induction F as [|[v w] i l hs E F IH]; intros HA; cbn; constructor.
        - cbn [fst snd]. assert (Hin : In v (rp_nodes r)) by (eapply HA; left; eauto). cbn [fst] in E. rewrite Old in E by auto.
          assert (Hv : v < n). { pose proof (so_lt _ _ H) as F0. rewrite Forall_forall in F0. auto. }
          apply bind_Some in E. destruct E as (o & E & ->). apply (so_ids _ _ H) in E; auto. split; auto. split; auto. apply nth_error_Some_lt in E. auto.
        - apply IH. intros; eapply HA; right; eauto. }
      apply G; auto. }
    assert (Lc : length (rp_head r) + length hs <= list_sum (map (out_degree links) (seq 0 n))).
    { assert (E : length (rp_head r) = list_sum (map (out_degree links) (rp_nodes r))).
      { rewrite (so_head _ _ H), map_length. pose proof (so_rl _ _ H) as RL. pose proof (so_rows _ _ H) as RR. pose proof (so_lt _ _ H) as LT. clear -RL RR LT UP.
        assert (G : forall nodes (rows : list (list (nat * N))), length rows = length nodes -> Forall (fun v => v < n) nodes -> (forall i v row, nth_error nodes i = Some v -> nth_error rows i = Some row -> length (nb v) = length row) ->
          length (concat rows) = list_sum (map (out_degree links) nodes)).
        { clear -UP. induction nodes as [|v nodes IH]; intros [|row rows] L F RR; cbn in *; try discriminate; auto. inversion F; subst. rewrite app_length, (IH rows); auto.
          - unfold list_sum. f_equal. rewrite <- (RR 0 v row eq_refl eq_refl). unfold out_degree. rewrite up_links; auto.
          - intros i. apply (RR (S i)). }
        apply G; auto. intros i v row H1 H2. eapply Forall2_len, RR; eauto. }
      rewrite E, Lh. replace (length (nb u)) with (list_sum (map (out_degree links) [u])) by (cbn; unfold out_degree; rewrite up_links; auto; lia).
      rewrite <- list_sum_app, <- map_app. apply list_sum_incl.
      - apply NoDup_app_intro; [apply (so_nd _ _ H)|repeat constructor; auto|]. intros x Hx [<-|[]]. contradiction.
      - intros x Hx. apply in_seq. apply in_app_or in Hx. pose proof (so_lt _ _ H) as F0. rewrite Forall_forall in F0. destruct Hx as [Hx|[<-|[]]]; [specialize (F0 x Hx)|]; lia. }
    rewrite app_length. unfold U32. rewrite (proj2 (N.ltb_lt _ 4294967296)) by lia. cbn [guard bind]. eexists _, row. split; [reflexivity|]. split; [|reflexivity].
    assert (Tl : tlen rows + length row = length (rp_head r) + length hs). { rewrite (so_head _ _ H), map_length. unfold tlen. rewrite <- Rf, map_length. auto. }
    pose proof (so_rl _ _ H) as RL. fold k in RL.
    split; cbn [rp_ids rp_nodes rp_first rp_head rp_weight].
    - unfold ids. rewrite upd_length. apply (so_len _ _ H).
    - intros v i Hv. unfold ids. destruct (Nat.eq_dec v u) as [->|Ne].
      + rewrite nth_error_upd_eq by (rewrite (so_len _ _ H); auto). split.
        * intros [= <-]. rewrite nth_error_app2 by (unfold k; lia). unfold k. rewrite Nat.sub_diag. auto.
        * intros E. destruct (Nat.lt_ge_cases i k) as [L|L]. { rewrite nth_error_app1 in E by auto. apply nth_error_In in E. contradiction. }
          apply nth_error_Some_lt in E. rewrite app_length in E. cbn in E. unfold k in *. do 2 f_equal. lia.
      + rewrite nth_error_upd_neq by auto. rewrite (so_ids _ _ H) by auto. destruct (Nat.lt_ge_cases i k) as [L|L].
        * rewrite nth_error_app1 by auto. tauto.
        * split. { intros E. apply nth_error_Some_lt in E. unfold k in L. lia. } rewrite nth_error_app2 by auto. intros E. destruct (i - length (rp_nodes r)) as [|[|?]]; cbn in E; congruence.
    - apply NoDup_app_intro; [apply (so_nd _ _ H)|repeat constructor; auto|]. intros x Hx [<-|[]]. contradiction.
    - apply Forall_app. split; [apply (so_lt _ _ H)|]. constructor; auto.
    - rewrite !app_length, (so_fl _ _ H). cbn. lia.
    - rewrite app_length. cbn [length]. intros i Hi. destruct (Nat.eq_dec i (length rows + 1)) as [->|Ne].
      + rewrite nth_error_app2 by (rewrite (so_fl _ _ H); lia). rewrite (so_fl _ _ H). replace (length rows + 1 - S (length rows)) with 0 by lia. cbn. f_equal.
        rewrite firstn_all2 by (rewrite app_length; cbn; lia). unfold tlen in *. rewrite concat_app, app_length. cbn. rewrite app_nil_r. lia.
      + rewrite nth_error_app1 by (rewrite (so_fl _ _ H); lia). rewrite (so_first _ _ H) by lia. f_equal. rewrite firstn_app. replace (i - length rows) with 0 by lia. cbn. rewrite app_nil_r. auto.
    - rewrite concat_app, map_app, (so_head _ _ H). cbn. rewrite app_nil_r, Rf. auto.
    - rewrite concat_app, map_app, (so_wt _ _ H). cbn. rewrite app_nil_r, Rs. auto.
    - rewrite !app_length, RL. cbn. unfold k. auto.
    - intros i v rw E1 E2. destruct (Nat.lt_ge_cases i k) as [L|L].
      + rewrite nth_error_app1 in E1 by auto. rewrite nth_error_app1 in E2 by lia. pose proof (so_rows _ _ H i v rw E1 E2) as X. eapply Forall2_imp; [|exact X].
        intros a b (A1 & A2 & A3). split; auto. rewrite nth_error_app1; auto. apply nth_error_Some_lt in A1. auto.
      + rewrite nth_error_app2 in E1 by auto. rewrite nth_error_app2 in E2 by lia. fold k in E1. rewrite RL in E2. assert (i = k). { apply nth_error_Some_lt in E1. cbn in E1. lia. } subst i.
        rewrite Nat.sub_diag in E1, E2. injection E1 as <-. injection E2 as <-. eapply Forall2_imp; [|exact Hrow].
        intros a b (A1 & A2 & A3). split; auto. rewrite nth_error_app1; auto.
  Qed.

  (** one selected node *)
  Definition unnumbered (r : rphast) (v : nat) : Prop := nth_error (rp_ids r) v = Some None.
  Definition SInv (t : nat) (pre : list nat) (st : list nat * rphast) : Prop :=
    let '(stack, r) := st in
    (exists rows, SelOK r rows) /\ (exists suf, rp_nodes r = pre ++ suf) /\
    Forall (fun v => v < n) stack /\ StronglySorted (fun a b => b < a) stack /\
    ((exists x, stack = [x]) \/ Forall (unnumbered r) stack) /\
    (In t (rp_nodes r) \/ exists p, stack = p ++ [t]).
  Definition SMeas (st : list nat * rphast) : N :=
    let '(stack, r) := st in
    match stack with [] => 0 | _ => N.of_nat ((n - length (rp_nodes r)) * (n + 2) + (n + 1 - length stack) + 1) end%N.

  Lemma desc_len x l : StronglySorted (fun a b => b < a) (x :: l) -> length (x :: l) <= S x.
  Proof using.
    revert x. induction l as [|y l IH]; intros x H; cbn; [lia|]. inversion H as [|? ? H1 H2]; subst. specialize (IH y H1). inversion H2; subst. cbn in *. lia.
  Qed.

  Lemma rp_select_one t r rows : t < n -> SelOK r rows ->
    exists r', loopN (rp_fuel n) (rp_step links) ([t], r) = Some r' /\ (exists rows', SelOK r' rows') /\ (exists suf, rp_nodes r' = rp_nodes r ++ suf) /\ In t (rp_nodes r').
  Proof using UP FEW.
    intros Ht H.
    destruct (loopN_rule (rp_step links) (SInv t (rp_nodes r)) (fun r' => (exists rows', SelOK r' rows') /\ (exists suf, rp_nodes r' = rp_nodes r ++ suf) /\ In t (rp_nodes r')) SMeas (rp_fuel n) ([t], r)) as (r' & E & Q); eauto.
    - intros [stack r1] (HR & (suf & Hsuf) & HL & HS & HU & HT). destruct HR as (rows1 & H1). unfold rp_step. destruct stack as [|u rest].
      + eexists. split; [reflexivity|]. split; eauto. split; eauto. destruct HT as [HT|(p & HT)]; auto. destruct p; discriminate.
      + inversion HL as [|? ? Hu HLr]; subst. inversion HS as [|? ? HSr HSu]; subst.
        assert (Hlen : length (rp_nodes r1) <= n). { assert (L : length (rp_nodes r1) <= length (seq 0 n)). { apply NoDup_incl_length. { apply (so_nd _ _ H1). } intros x Hx; apply in_seq. pose proof (so_lt _ _ H1) as F. rewrite Forall_forall in F. specialize (F x Hx). lia. } rewrite seq_length in L. auto. }
        destruct (so_case r1 rows1 u H1 Hu) as [(i & E & E')|E]; rewrite E; cbn [bind].
        * eexists. split; [reflexivity|]. assert (Er : rest = []). { destruct HU as [(x & [= -> ->])|HU]; auto. inversion HU; subst. unfold unnumbered in *. congruence. } subst rest. split.
          -- split; eauto. split; eauto. split; auto. split; auto. split. { right. constructor. } destruct HT as [HT|(p & HT)]; auto. destruct p as [|y p]; [injection HT as ->|destruct p; discriminate]. left. eapply nth_error_In; eauto.
          -- unfold SMeas. generalize ((n - length (rp_nodes r1)) * (n + 2)). lia.
        * assert (UU : Forall (unnumbered r1) (u :: rest)). { destruct HU as [(x & [= -> ->])|HU]; auto. }
          rewrite up_links by auto. cbn [bind]. destruct (rp_open_ok r1 rows1 (nb u) H1) as (o & Eo & Ho). { intros v w Hin. apply (up_in u v w); auto. }
          rewrite Eo. cbn [bind]. destruct o as [v|].
          -- destruct Ho as [Hin Hv]. apply in_map_iff in Hin. destruct Hin as ([v' w] & <- & Hin). cbn [fst] in *. destruct (up_in u v' w Hu Hin) as (Lt & Hvn & _).
             eexists. split; [reflexivity|]. assert (HS' : StronglySorted (fun a b => b < a) (v' :: u :: rest)). { constructor; auto. constructor; auto. eapply Forall_impl; [|exact HSu]. intros; cbn in *; lia. }
             split.
             ++ split; eauto. split; eauto. split; [constructor; auto|]. split; auto. split. { right. constructor; auto. } destruct HT as [HT|(p & HT)]; auto. right. exists (v' :: p). rewrite HT. auto.
             ++ pose proof (desc_len _ _ HS'). unfold SMeas. cbn [length] in *. lia.
          -- apply (so_none _ _ _ H1 Hu) in E. destruct (rp_finish_ok r1 rows1 u H1 Hu E Ho) as (r2 & row & E2 & H2 & N2). rewrite E2. cbn [bind].
             eexists. split; [reflexivity|]. split.
             ++ split; eauto. split. { exists (suf ++ [u]). rewrite N2, Hsuf, app_assoc. auto. } split; auto. split; auto. split.
                ** right. rewrite Forall_forall. intros x Hx. apply (so_none _ _ _ H2). { rewrite Forall_forall in HLr. auto. } rewrite N2. intros Hin. apply in_app_or in Hin. destruct Hin as [Hin|[<-|[]]].
                   { inversion UU; subst. rewrite Forall_forall in H5. specialize (H5 x Hx). apply (so_none _ _ _ H1) in H5; auto. rewrite Forall_forall in HLr. auto. }
                   rewrite Forall_forall in HSu. specialize (HSu u Hx). lia.
                ** destruct HT as [HT|(p & HT)]. { left. rewrite N2. apply in_or_app; auto. } destruct p as [|y p]. { injection HT as -> ->. left. rewrite N2. apply in_or_app; right; left; auto. } injection HT as -> ->. right. eauto.
             ++ unfold SMeas. destruct rest as [|y rest]; [generalize ((n - length (rp_nodes r1)) * (n + 2)); lia|]. rewrite N2, app_length. cbn [length].
                assert (Lk : length (rp_nodes r1) < n). { assert (L : length (u :: rp_nodes r1) <= length (seq 0 n)). { apply NoDup_incl_length. { constructor; auto. apply (so_nd _ _ H1). } intros x [<-|Hx]; apply in_seq; [lia|]. pose proof (so_lt _ _ H1) as F. rewrite Forall_forall in F. specialize (F x Hx). lia. } rewrite seq_length in L. cbn in L. auto. }
                pose proof (desc_len _ _ HS). cbn [length] in *. replace (n - length (rp_nodes r1)) with (S (n - (length (rp_nodes r1) + 1))) by lia. cbn [Nat.mul]. lia.
    - split; eauto. split. { exists []. rewrite app_nil_r. auto. } split; [constructor; auto|]. split; [repeat constructor|]. split; [left; eauto|]. right. exists []. auto.
    - unfold SMeas, rp_fuel. cbn [length]. assert ((n - length (rp_nodes r)) * (n + 2) <= n * (n + 2)) by (apply Nat.mul_le_mono_r; lia). nia.
  Qed.

  Lemma sel_new : SelOK (rp_new n) [].
  Proof using.
    split; cbn; auto. - apply repeat_length.
    - intros v i Hv. rewrite nth_error_repeat, (proj2 (Nat.ltb_lt v n) Hv). destruct i; split; discriminate.
    - constructor.
    - intros i Hi. assert (i = 0) by lia. subst. auto.
    - intros [|i]; discriminate.
  Qed.

  Lemma sel_clear r rows : SelOK r rows ->
    exists ids, foldM (fun ids node => set_at ids node None) (rp_nodes r) (rp_ids r) = Some ids /\ SelOK (mkRp ids [] (firstn 1 (rp_first r)) [] []) [].
  Proof using.
    intros H. destruct (foldM_inv (fun ids node => set_at ids node None) (fun pre ids => length ids = n /\ forall v, v < n -> nth_error ids v = if in_dec Nat.eq_dec v pre then Some None else nth_error (rp_ids r) v) (rp_nodes r) (rp_ids r)) as (ids & E & L & X).
    - split; [apply (so_len _ _ H)|]. intros v Hv. destruct (in_dec Nat.eq_dec v []); auto. destruct i.
    - intros pre a post ids EQ [L X]. assert (Ha : a < n). { pose proof (so_lt _ _ H) as F. rewrite Forall_forall in F. apply F. rewrite EQ. apply in_or_app; right; left; auto. }
      rewrite set_at_lt by lia. eexists. split; [reflexivity|]. rewrite upd_length. split; auto. intros v Hv. destruct (Nat.eq_dec v a) as [->|Ne].
      + rewrite nth_error_upd_eq by lia. destruct (in_dec Nat.eq_dec a (pre ++ [a])); auto. exfalso. apply n0. apply in_or_app; right; left; auto.
      + rewrite nth_error_upd_neq by auto. rewrite X by auto. destruct (in_dec Nat.eq_dec v pre), (in_dec Nat.eq_dec v (pre ++ [a])); auto.
        * exfalso. apply n0. apply in_or_app; auto. * apply in_app_or in i. destruct i as [i|[->|[]]]; contradiction.
    - exists ids. split; auto. split; cbn [rp_ids rp_nodes rp_first rp_head rp_weight]; auto.
      + intros v i Hv. rewrite X by auto. split.
        * destruct (in_dec Nat.eq_dec v (rp_nodes r)); [congruence|]. intros C. apply (so_ids _ _ H) in C; auto. apply nth_error_In in C. contradiction.
        * destruct i; discriminate.
      + constructor.
      + rewrite firstn_length, (so_fl _ _ H). cbn. lia.
      + cbn. intros i Hi. assert (i = 0) by lia. subst. pose proof (so_first _ _ H 0 ltac:(lia)) as X0. destruct (rp_first r); cbn in *; auto.
      + intros [|i]; discriminate.
  Qed.

  Lemma rp_select_ok ranks r rows ts : SelOK r rows -> Forall (fun t => exists v, nth_error ranks t = Some v /\ v < n) ts ->
    exists r', rp_select n ranks links r ts = Some r' /\ (exists rows', SelOK r' rows') /\ forall t v, In t ts -> nth_error ranks t = Some v -> In v (rp_nodes r').
  Proof using UP FEW.
    intros H HF. unfold rp_select. destruct (sel_clear r rows H) as (ids & E & H0). rewrite E. cbn [bind].
    destruct (foldM_inv (fun r node => node <- nth_error ranks node ;; loopN (rp_fuel n) (rp_step links) ([node], r))
      (fun pre r => (exists rows', SelOK r rows') /\ forall t v, In t pre -> nth_error ranks t = Some v -> In v (rp_nodes r)) ts (mkRp ids [] (firstn 1 (rp_first r)) [] [])) as (r' & E' & Q).
    - split; eauto.
    - intros pre t post r1 EQ ((rows1 & H1) & P1). rewrite Forall_forall in HF. destruct (HF t) as (v & Ev & Hv). { rewrite EQ. apply in_or_app; right; left; auto. }
      rewrite Ev. cbn [bind]. destruct (rp_select_one v r1 rows1 Hv H1) as (r2 & E2 & H2 & (suf & N2) & I2). exists r2. split; auto. split; auto.
      intros t' v' Hin E'. apply in_app_or in Hin. destruct Hin as [Hin|[<-|[]]]. { rewrite N2. apply in_or_app. left. eauto. } congruence.
    - exists r'. auto.
  Qed.
End Select.

(** [x] is the best length of a way up in [F] from [s] and up in [B] from [v], cut off at INF *)
Definition best (F B : nat -> nat -> N -> Prop) (s v : nat) (x : N) : Prop :=
  (x <= INF)%N /\ ((x < INF)%N -> meets F B s v x) /\ forall l, meets F B s v l -> (x <= l)%N.

Lemma capd_walk arc s v x : capd arc s v x -> (x <= INF)%N /\ ((x < INF)%N -> walk arc s v x) /\ forall l, walk arc s v l -> (x <= l)%N.
Proof.
  intros [H1 H2]. split; auto. destruct (x <? INF)%N eqn:E; cbn in H2.
  - destruct H2 as (_ & H2 & H3). auto.
  - split; [lia|]. intros l Hl. specialize (H2 l Hl). lia.
Qed.
Lemma walk_capd arc s v x : (x <= INF)%N -> ((x < INF)%N -> walk arc s v x) -> (forall l, walk arc s v l -> (x <= l)%N) -> capd arc s v x.
Proof.
  intros H1 H2 H3. split; auto. destruct (x <? INF)%N eqn:E; cbn. { apply N.ltb_lt in E. split; auto. split; auto. }
  intros l Hl. specialize (H3 l Hl). lia.
Qed.

Section Query.
  Variable n : nat.
  Variables lf lb : nat -> option (list (nat * N)).
  Hypothesis UF : upward n lf.
  Hypothesis UB : upward n lb.

  Lemma up_wf links : upward n links -> wf_links n links.
  Proof using. intros U u Hu. destruct (U u Hu) as (ls & E & H). exists ls. split; auto. intros v w Hin. apply H in Hin. tauto. Qed.

  (** the upward search *)
  Lemma rp_run_ok r rows d dist s : SelOK n lb r rows -> Ready n d -> s < n -> length (rp_nodes r) <= length dist ->
    (forall i, i < length (rp_nodes r) -> nth_error dist i = Some INF) ->
    exists d0, dij_init d s 0 = Some d0 /\ exists d' dist',
    loopN (dij_fuel n) (fun '(d, dist) =>
      '(d', _, o) <- settle lf fst def_lk def_pl all_edges no_cb zero_get d tt ;;
      match o with
      | None => Some (inr (d', dist))
      | Some u =>
          i <- nth_error (rp_ids r) u ;;
          match i with
          | Some i => x <- ts_get N INF (d_dist d') u ;; dist <- set_at dist i x ;; Some (inl (d', dist))
          | None => Some (inl (d', dist))
          end
      end) (d0, dist) = Some (d', dist') /\ Ready n d' /\ length dist' = length dist /\
      forall i v, nth_error (rp_nodes r) i = Some v -> exists x, nth_error dist' i = Some x /\ capd (garc lf) s v x.
  Proof using UF.
    intros H HR Hs HL H0. pose proof (up_wf lf UF) as WF.
    destruct (OInv_init n lf fst def_lk def_pl (snb lf) sslk (snb_links n lf WF) (snb_hd n lf WF) (snb_lk n lf WF) (sslk_mono n lf) (sslk_ext n lf) s Hs tt d HR) as (d0 & pr & E1 & O1).
    exists d0. split; auto.
    match goal with |- context [loopN _ ?f _] => set (step := f) end.
    set (I := fun st '(d, c) => exists ord, OInv n fst def_pl (snb lf) sslk s tt d ord st /\ length c = length dist /\
      forall i v, nth_error (rp_nodes r) i = Some v -> (forall x, In (v, x) ord -> nth_error c i = Some x) /\ (~ In v (map fst ord) -> nth_error c i = Some INF)).
    set (Q := fun '((d', dist') : dij unit * list N) => Ready n d' /\ length dist' = length dist /\ forall i v, nth_error (rp_nodes r) i = Some v -> exists x, nth_error dist' i = Some x /\ capd (garc lf) s v x).
    destruct (loopN_ghost step I Q (M n) (dij_fuel n) (initA s 0 pr) (d0, dist)) as ((d' & dist') & E2 & Q1 & Q2 & Q3).
    - intros st (d1 & c) (ord & HO & Lc & Hc). unfold step.
      destruct (OInv_step n lf fst def_lk def_pl (snb lf) sslk (snb_links n lf WF) (snb_hd n lf WF) (snb_lk n lf WF) (sslk_mono n lf) (sslk_ext n lf) s Hs tt d1 ord st HO) as [(d2 & F1 & O2 & C)|(u & y & d2 & st2 & F1 & Hu & Fy & O2 & M2 & _)]; rewrite F1; cbn [bind].
      + eexists; split; [reflexivity|]. split. { eapply R_Ready. apply O2. } split; auto. intros i v Hi. destruct (Hc i v Hi) as [C1 C2].
        destruct (in_dec Nat.eq_dec v (map fst ord)) as [Hin|Hin].
        * apply in_map_iff in Hin. destruct Hin as ((v', x) & <- & Hin). cbn [fst] in *. exists x. split; auto. destruct (o_lab _ _ _ _ _ _ _ _ _ _ O2 _ _ Hin) as [Ea _].
          apply (earliest_exact n lf WF) in Ea; auto. destruct Ea as (X1 & X2 & X3). apply walk_capd; auto. lia.
        * exists INF. split; auto. apply walk_capd; [lia|lia|]. intros l Hl. destruct (N.lt_ge_cases l INF) as [L|L]; auto. exfalso. apply Hin.
          assert (G : exists y, (y < INF)%N /\ is_dist (garc lf) s v y).
          { destruct (alt_row_ok n lf (plain_new n) s WF) as (_ & ds & _ & _ & Ld & Hd); auto. { apply (sv_new_ok n); auto. }
            assert (Hv : v < n). { pose proof (so_lt _ _ _ _ H) as F. rewrite Forall_forall in F. apply F. eapply nth_error_In; eauto. }
            destruct (nth_error ds v) as [y|] eqn:Ey. 2:{ apply nth_error_None in Ey. lia. }
            apply Hd in Ey. apply capd_walk in Ey. destruct Ey as (Y1 & Y2 & Y3). exists y. pose proof (Y3 l Hl). assert (y < INF)%N by lia. split; auto. split; auto. }
          destruct G as (y & Hy & Dy). apply (C v y). apply (earliest_some n lf WF s Hs v y). auto.
      + destruct (so_case n lb r rows u H Hu) as [(i & E & E')|E]; rewrite E; cbn [bind].
        * rewrite Fy. cbn [bind]. assert (Hi : i < length c). { apply nth_error_Some_lt in E'. lia. } rewrite set_at_lt by auto. cbn [bind].
          eexists; split; [reflexivity|]. exists st2. split; auto. exists (ord ++ [(u, y)]). split; auto. split; [rewrite upd_length; auto|].
          intros j v Hj. destruct (Hc j v Hj) as [C1 C2]. destruct (Nat.eq_dec j i) as [->|Ne].
          -- assert (v = u) by congruence. subst v. rewrite nth_error_upd_eq by auto. split.
             ++ intros x Hx. apply in_app_or in Hx. destruct Hx as [Hx|[[= <-]|[]]]; auto. exfalso. pose proof (o_nd _ _ _ _ _ _ _ _ _ _ O2) as ND. rewrite map_app in ND. cbn in ND. apply NoDup_remove_2 in ND. rewrite app_nil_r in ND. apply ND. apply in_map_iff. exists (u, x). auto.
             ++ intros Hn. exfalso. apply Hn. rewrite map_app. apply in_or_app; right; left; auto.
          -- rewrite nth_error_upd_neq by auto. assert (v <> u). { intros ->. apply Ne. apply (so_ids _ _ _ _ H) in Hj; auto. congruence. }
             rewrite map_app. split. { intros x Hx. apply in_app_or in Hx. destruct Hx as [Hx|[[= Q1 Q2]|[]]]; auto. congruence. } intros Hn. apply C2. intros Hx. apply Hn. apply in_or_app; auto.
        * eexists; split; [reflexivity|]. exists st2. split; auto. exists (ord ++ [(u, y)]). split; auto. split; auto.
          intros j v Hj. destruct (Hc j v Hj) as [C1 C2]. assert (v <> u). { intros ->. apply (so_none _ _ _ _ _ H Hu) in E. apply E. eapply nth_error_In; eauto. }
          rewrite map_app. split. { intros x Hx. apply in_app_or in Hx. destruct Hx as [Hx|[[= Q1 Q2]|[]]]; auto. congruence. } intros Hn. apply C2. intros Hx. apply Hn. apply in_or_app; auto.
    - exists []. split; auto. split; auto. intros i v Hi. split; [intros x []|]. intros _. apply H0. apply nth_error_Some_lt in Hi. auto.
    - apply (M_init (pl:=def_pl) (Jz_ok n lf fst def_lk (snb lf) sslk (snb_links n lf WF) (snb_hd n lf WF) (snb_lk n lf WF) (sslk_mono n lf) (sslk_ext n lf) s Hs tt) Hs ltac:(reflexivity)).
    - exists d', dist'. split; [exact E2|]. auto.
  Qed.

  (** the sweep *)
  Lemma best_split s v x0 x (ls : list (nat * N)) (dd : nat -> N) : v < n -> lb v = Some ls -> capd (garc lf) s v x0 ->
    (forall h w, In (h, w) ls -> best (garc lf) (garc lb) s h (dd h)) ->
    (x <= x0)%N -> (forall h w, In (h, w) ls -> (x <= dd h + w)%N) -> (x = x0 \/ exists h w, In (h, w) ls /\ x = (dd h + w)%N) ->
    best (garc lf) (garc lb) s v x.
  Proof using.
    intros Hv El C0 HB L0 L1 EQ. apply capd_walk in C0. destruct C0 as (C1 & C2 & C3). split; [lia|]. split.
    - intros HI. destruct EQ as [->|(h & w & Hin & ->)].
      + exists v, x0, 0%N. split; auto. split; [constructor|lia].
      + destruct (HB h w Hin) as (_ & B2 & _). destruct (B2 ltac:(lia)) as (m & a & b & Wa & Wb & Eab).
        exists m, a, (w + b)%N. split; auto. split; [|lia]. econstructor; [|exact Wb]. exists ls. auto.
    - intros l (m & a & b & Wa & Wb & ->). inversion Wb as [|? h ? w b' (ls' & E' & Hin) Wb']; subst.
      + specialize (C3 a Wa). lia.
      + assert (ls' = ls) by congruence. subst ls'. destruct (HB h w Hin) as (_ & _ & B3). pose proof (B3 (a + b')%N ltac:(exists m, a, b'; auto)). pose proof (L1 h w Hin). lia.
  Qed.

  Lemma rp_sweep_ok r rows dist s : SelOK n lb r rows -> length (rp_nodes r) <= length dist ->
    (forall i v, nth_error (rp_nodes r) i = Some v -> exists x, nth_error dist i = Some x /\ capd (garc lf) s v x) ->
    exists dist', rp_sweep r dist = Some dist' /\ length dist' = length dist /\
      forall i v, nth_error (rp_nodes r) i = Some v -> exists x, nth_error dist' i = Some x /\ best (garc lf) (garc lb) s v x.
  Proof using UB.
    intros H HL H0. unfold rp_sweep. set (k := length (rp_nodes r)) in *.
    match goal with |- context [foldM ?f _ _] => set (F := f) end.
    destruct (foldM_inv F (fun pre c => length c = length dist /\
       (forall i v, nth_error (rp_nodes r) i = Some v -> i < length pre -> exists x, nth_error c i = Some x /\ best (garc lf) (garc lb) s v x) /\
       (forall i, length pre <= i -> nth_error c i = nth_error dist i)) (seq 0 k) dist) as (c & E & L & X & _).
    - split; auto. split; auto. cbn. lia.
    - intros pre i post c EQ (L & X & Y).
      assert (Hi : i = length pre /\ i < k).
      { assert (A : nth_error (seq 0 k) (length pre) = Some i) by (rewrite EQ, nth_error_app2, Nat.sub_diag; auto). pose proof (nth_error_Some_lt _ _ _ A) as A'. rewrite seq_length in A'.
        rewrite (nth_error_nth' _ 0) in A by (rewrite seq_length; auto). rewrite seq_nth in A by auto. injection A as <-. auto. }
      destruct Hi as [Hpi Hik]. unfold F.
      destruct (nth_error (rp_nodes r) i) as [v|] eqn:Ev. 2:{ apply nth_error_None in Ev. unfold k in Hik. lia. }
      pose proof (so_rl _ _ _ _ H) as RL. fold k in RL. destruct (nth_error rows i) as [row|] eqn:Er. 2:{ apply nth_error_None in Er. lia. }
      rewrite (so_first _ _ _ _ H) by lia. cbn [bind]. rewrite (so_first _ _ _ _ H) by lia. cbn [bind].
      replace (i + 1) with (S i) by lia. rewrite (tlen_S _ _ _ Er). replace (tlen (firstn i rows) + length row - tlen (firstn i rows)) with (length row) by lia.
      assert (Hv : v < n). { pose proof (so_lt _ _ _ _ H) as FF. rewrite Forall_forall in FF. apply FF. eapply nth_error_In; eauto. }
      pose proof (so_rows _ _ _ _ H i v row Ev Er) as RR. destruct (H0 i v Ev) as (x0 & Ex0 & C0).
      assert (D : forall p, p < length row -> exists b h w dh, nth_error row p = Some (b, w) /\ nth_error (snb lb v) p = Some (h, w) /\ b < i /\ nth_error (rp_nodes r) b = Some h /\ nth_error c b = Some dh /\ best (garc lf) (garc lb) s h dh).
      { intros p Hp. assert (Hp' : p < length (snb lb v)) by (rewrite (Forall2_len _ _ _ RR); auto). destruct (nth_error (snb lb v) p) as [[h w]|] eqn:Eh. 2:{ apply nth_error_None in Eh. lia. }
        destruct (Forall2_nth _ _ _ p (h, w) RR Eh) as ([b w'] & Eb & B1 & B2 & B3). cbn [fst snd] in *. subst w'. destruct (X b h B1 ltac:(lia)) as (dh & E1 & E2). exists b, h, w, dh. tauto. }
      destruct (foldM_inv (rp_relax r i) (fun pre2 c2 => exists x, nth_error c2 i = Some x /\ length c2 = length dist /\ (forall j, j <> i -> nth_error c2 j = nth_error c j) /\
         (x <= x0)%N /\ (forall p b w dh, p < length pre2 -> nth_error row p = Some (b, w) -> nth_error c b = Some dh -> (x <= dh + w)%N) /\
         (x = x0 \/ exists p b w dh, p < length pre2 /\ nth_error row p = Some (b, w) /\ nth_error c b = Some dh /\ x = (dh + w)%N)) (seq (tlen (firstn i rows)) (length row)) c) as (c2 & E2 & x & Ex & L2 & O2 & M0 & M1 & M2).
      + exists x0. split. { rewrite Y by lia. auto. } split; auto. split; auto. split; [lia|]. split; [cbn; lia|]. auto.
      + intros pre2 e post2 c2 EQ2 (x & Ex & L2 & O2 & M0 & M1 & M2).
        assert (He : e = tlen (firstn i rows) + length pre2 /\ length pre2 < length row).
        { assert (A : nth_error (seq (tlen (firstn i rows)) (length row)) (length pre2) = Some e) by (rewrite EQ2, nth_error_app2, Nat.sub_diag; auto). pose proof (nth_error_Some_lt _ _ _ A) as A'. rewrite seq_length in A'.
          rewrite (nth_error_nth' _ 0) in A by (rewrite seq_length; auto). rewrite seq_nth in A by auto. injection A as <-. auto. }
        destruct He as [-> Hp]. set (p := length pre2) in *. destruct (D p Hp) as (b & h & w & dh & D1 & D2 & D3 & D4 & D5 & D6).
        assert (Hw : (w <= INF)%N). { apply nth_error_In in D2. apply (up_in n lb UB v h w Hv) in D2. tauto. }
        unfold rp_relax. rewrite (so_head _ _ _ _ H), (so_wt _ _ _ _ H), !nth_error_map, (nth_concat rows i row p Er Hp), D1. cbn [option_map bind fst snd].
        rewrite O2 by lia. rewrite D5. cbn [bind]. destruct D6 as (D6 & _). rewrite cadd_ok by (unfold INF, U32 in *; lia). cbn [bind]. rewrite Ex. cbn [bind].
        assert (Hic : i < length c2) by (apply nth_error_Some_lt in Ex; auto). rewrite set_at_lt by auto. eexists. split; [reflexivity|]. exists (N.min x (dh + w)). rewrite nth_error_upd_eq by auto. split; auto.
        rewrite upd_length. split; auto. split. { intros j Hj. rewrite nth_error_upd_neq by auto. auto. } split; [lia|]. rewrite app_length. cbn [length]. fold p. split.
        * intros p' b' w' dh' Hp' R1 R2. destruct (Nat.eq_dec p' p) as [->|Ne]. { assert (b' = b) by congruence. assert (w' = w) by congruence. subst. assert (dh' = dh) by congruence. subst. lia. }
          specialize (M1 p' b' w' dh' ltac:(lia) R1 R2). lia.
        * destruct (N.min_spec x (dh + w)) as [[_ ->]|[_ ->]]. { destruct M2 as [M2|(p' & b' & w' & dh' & M2 & M3)]; auto. right. exists p', b', w', dh'. split; [lia|auto]. }
          right. exists p, b, w, dh. split; [lia|auto].
      + exists c2. split; [exact E2|]. rewrite seq_length in M1, M2. split; auto. rewrite app_length. cbn [length]. split.
        * intros j u Hj Lj. destruct (Nat.eq_dec j i) as [->|Ne].
          -- assert (u = v) by congruence. subst u. exists x. split; auto.
             assert (El : lb v = Some (snb lb v)) by (apply (up_links n lb UB v Hv)).
             set (dd := fun h => match nth_error (rp_ids r) h with Some (Some b) => match nth_error c b with Some y => y | None => 0%N end | _ => 0%N end).
             assert (DD : forall b h dh, nth_error (rp_nodes r) b = Some h -> nth_error c b = Some dh -> dd h = dh).
             { intros b h dh B1 B2. unfold dd. assert (Hh : h < n). { pose proof (so_lt _ _ _ _ H) as FF. rewrite Forall_forall in FF. apply FF. eapply nth_error_In; eauto. } apply (so_ids _ _ _ _ H) in B1; auto. rewrite B1, B2. auto. }
             apply (best_split s v x0 x (snb lb v) dd Hv El C0); auto.
             ++ intros h w Hin. apply In_nth_error in Hin. destruct Hin as (p & Hp). assert (Lp : p < length row) by (rewrite <- (Forall2_len _ _ _ RR); apply nth_error_Some_lt in Hp; auto).
                destruct (D p Lp) as (b & h' & w' & dh & D1 & D2 & D3 & D4 & D5 & D6). assert (h' = h) by congruence. subst. rewrite (DD b h dh); auto.
             ++ intros h w Hin. apply In_nth_error in Hin. destruct Hin as (p & Hp). assert (Lp : p < length row) by (rewrite <- (Forall2_len _ _ _ RR); apply nth_error_Some_lt in Hp; auto).
                destruct (D p Lp) as (b & h' & w' & dh & D1 & D2 & D3 & D4 & D5 & D6). assert (h' = h) by congruence. assert (w' = w) by congruence. subst. rewrite (DD b h dh); auto. eapply M1; eauto.
             ++ destruct M2 as [M2|(p & b & w & dh & Lp & R1 & R2 & ->)]; auto. right. destruct (D p Lp) as (b' & h & w' & dh' & D1 & D2 & D3 & D4 & D5 & D6).
                assert (b' = b) by congruence. assert (w' = w) by congruence. subst. assert (dh' = dh) by congruence. subst. exists h, w. split; [eapply nth_error_In; eauto|]. rewrite (DD b h dh); auto.
          -- destruct (X j u Hj ltac:(lia)) as (y & E3 & B3). exists y. split; auto. rewrite O2 by auto. auto.
        * intros j Hj. rewrite O2 by lia. apply Y. lia.
    - exists c. split; auto. split; auto. intros i v Hi. apply X; auto. rewrite seq_length. apply nth_error_Some_lt in Hi. auto.
  Qed.

  Lemma rp_query_ok ranks r rows q u s : SelOK n lb r rows -> Ready n (rq_dij q) -> length (rq_dist q) = n -> nth_error ranks u = Some s -> s < n ->
    exists q', rp_query n ranks lf r q u = Some q' /\ Ready n (rq_dij q') /\ length (rq_dist q') = n /\
      forall i v, nth_error (rp_nodes r) i = Some v -> exists x, nth_error (rq_dist q') i = Some x /\ best (garc lf) (garc lb) s v x.
  Proof using UF UB.
    intros H HR HL Eu Hs. unfold rp_query.
    assert (Hk : length (rp_nodes r) <= n). { assert (L : length (rp_nodes r) <= length (seq 0 n)). { apply NoDup_incl_length. { apply (so_nd _ _ _ _ H). } intros x Hx; apply in_seq. pose proof (so_lt _ _ _ _ H) as F. rewrite Forall_forall in F. specialize (F x Hx). lia. } rewrite seq_length in L. auto. }
    set (k := length (rp_nodes r)) in *. rewrite HL, (proj2 (Nat.leb_le k n) Hk). cbn [guard bind]. rewrite Eu. cbn [bind].
    set (dist := repeat INF k ++ skipn k (rq_dist q)).
    assert (LD : length dist = n). { unfold dist. rewrite app_length, repeat_length, skipn_length. lia. }
    destruct (rp_run_ok r rows (rq_dij q) dist s H HR Hs) as (d0 & E0 & d1 & dist1 & E1 & R1 & L1 & X1). { fold k. lia. }
    { fold k. intros i Hi. unfold dist. rewrite nth_error_app1 by (rewrite repeat_length; auto). rewrite nth_error_repeat, (proj2 (Nat.ltb_lt i k) Hi). auto. }
    rewrite E0. cbn [bind]. rewrite E1. cbn [bind].
    destruct (rp_sweep_ok r rows dist1 s H) as (dist2 & E2 & L2 & X2); auto. { fold k. lia. } rewrite E2. cbn [bind]. eexists. split; [reflexivity|]. cbn [rq_dij rq_dist]. split; auto. split; [lia|]. auto.
  Qed.
End Query.
