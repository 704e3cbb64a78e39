From Verif Require Import Base SpecArray TsVec.

Section Ts.
  Variable V : Type.
  Variable default : V.

  Record TInv (n : nat) (t : tsvec V) (a : nat -> V) : Prop := {
    ti_ld : length (tdata t) = n;
    ti_ls : length (tstamps t) = n;
    ti_cur : (tcurrent t < U32)%N;
    ti_val : forall i s v, nth_error (tstamps t) i = Some s -> nth_error (tdata t) i = Some v ->
       (s < U32)%N /\ (s = tcurrent t -> v = a i) /\ (s <> tcurrent t -> a i = default) /\ ((tcurrent t < s)%N -> v = default) }.

  Lemma ts_new_inv n : TInv n (ts_new V default n) (fun _ => default).
  Proof.
    constructor; cbn [ts_new tdata tstamps tcurrent]; rewrite ?repeat_length; auto; [reflexivity|].
    intros i s v. rewrite !nth_error_repeat. destruct (i <? n); [|discriminate]. intros [= <-] [= <-]. unfold U32. repeat split; auto; lia.
  Qed.

  Lemma ts_reset_inv n t a : TInv n t a -> TInv n (ts_reset V default t) (fun _ => default).
  Proof.
    intros [L1 L2 C H]. unfold ts_reset. constructor; cbn [tdata tstamps tcurrent].
    - destruct (U32 <=? _)%N; rewrite ?map_length; auto.
    - auto.
    - apply N.mod_lt. unfold U32; lia.
    - intros i s v Hs. destruct (N.leb_spec U32 (tcurrent t + 1)) as [Ho|Ho].
      + rewrite nth_error_map. destruct (nth_error (tdata t) i) as [w|] eqn:Ew; cbn; [|discriminate]. intros [= <-].
        destruct (H i s w Hs Ew) as (H1 & _). auto.
      + intros Hv. destruct (H i s v Hs Hv) as (H1 & H2 & H3 & H4). rewrite N.mod_small by auto.
        repeat split; auto; intros; apply H4; lia.
  Qed.

  Lemma ts_write_inv n t a i v : TInv n t a -> i < n ->
    TInv n (mkTs (upd (tdata t) i v) (tcurrent t) (upd (tstamps t) i (tcurrent t))) (fun j => if j =? i then v else a j).
  Proof.
    intros [L1 L2 C H] Hi. constructor; cbn [tdata tstamps tcurrent]; rewrite ?upd_length; auto.
    intros j s w. rewrite !nth_error_upd. rewrite L1, L2. destruct (Nat.eqb_spec i j) as [->|Hij].
    - destruct (Nat.ltb_spec j n); try lia. cbn [andb]. intros [= <-] [= <-]. rewrite Nat.eqb_refl. repeat split; auto; try lia; congruence.
    - cbn [andb]. intros Hs Hw. destruct (Nat.eqb_spec j i); try lia. apply H; auto.
  Qed.

  Lemma TInv_ext n t a b : (forall i, i < n -> a i = b i) -> TInv n t a -> TInv n t b.
  Proof.
    intros E [L1 L2 C H]. constructor; auto. intros i s v Hs Hv.
    rewrite <- E. { apply H; auto. } rewrite <- L1. eapply nth_error_Some_lt; eauto.
  Qed.

  Lemma ts_get_spec n t a i : TInv n t a -> ts_get V default t i = if i <? n then Some (a i) else None.
  Proof.
    intros [L1 L2 C H]. unfold ts_get. destruct (Nat.ltb_spec i n).
    - destruct (nth_error_lt (tstamps t) i) as [s Hs]; [lia|]. destruct (nth_error_lt (tdata t) i) as [v Hv]; [lia|].
      rewrite Hs; cbn [bind]. destruct (H i s v Hs Hv) as (H1 & H2 & H3 & _).
      destruct (N.eqb_spec s (tcurrent t)). { rewrite Hv, H2; auto. } rewrite H3; auto.
    - rewrite (proj2 (nth_error_None (tstamps t) i)) by lia. auto.
  Qed.

  Lemma ts_set_spec n t a i v : TInv n t a -> i < n ->
    exists t', ts_set V t i v = Some t' /\ TInv n t' (fun j => if j =? i then v else a j).
  Proof.
    intros I Hi. unfold ts_set. pose proof I as [L1 L2 _ _]. rewrite set_at_lt by lia. cbn [bind]. rewrite set_at_lt by lia. cbn [bind].
    eexists; split; [reflexivity|]. apply ts_write_inv; auto.
  Qed.

  Lemma ts_modify_spec n t a i f : TInv n t a -> i < n ->
    exists t', ts_modify V default t i f = Some t' /\ TInv n t' (fun j => if j =? i then f (a i) else a j).
  Proof.
    intros I Hi. unfold ts_modify. pose proof I as [L1 L2 C H].
    destruct (nth_error_lt (tstamps t) i) as [s Hs]; [lia|]. destruct (nth_error_lt (tdata t) i) as [v Hv]; [lia|].
    rewrite Hs; cbn [bind]. destruct (H i s v Hs Hv) as (H1 & H2 & H3 & _).
    destruct (N.eqb_spec s (tcurrent t)) as [E|E]; cbn [negb].
    - rewrite Hv; cbn [bind]. eexists; split; [reflexivity|].
      pose proof (ts_write_inv n t a i (f v) I Hi) as I'. rewrite (upd_same (tstamps t) i (tcurrent t)) in I' by congruence.
      rewrite <- H2 by auto. exact I'.
    - cbn [tdata tcurrent tstamps]. rewrite nth_error_upd_eq by lia. cbn [bind].
      eexists; split; [reflexivity|]. rewrite upd_upd. rewrite H3 by auto. apply ts_write_inv; auto.
  Qed.

  Lemma ts_run_ok n ops : forall t a, TInv n t a ->
    impl_run (ts_step V default) t ops = arr_run V default n a ops.
  Proof.
    induction ops as [|op ops IH]; intros t a I; auto. cbn [impl_run arr_run].
    destruct op as [|i v|i f|i]; cbn [ts_step arr_step].
    - erewrite IH; [reflexivity|]. eapply ts_reset_inv; eauto.
    - destruct (Nat.ltb_spec i n).
      + destruct (ts_set_spec n t a i v I H) as (t' & E & I'). rewrite E; cbn [bind]. erewrite IH; eauto.
      + unfold ts_set, set_at. destruct (Nat.ltb_spec i (length (tdata t))); auto. destruct I; lia.
    - destruct (Nat.ltb_spec i n).
      + destruct (ts_modify_spec n t a i f I H) as (t' & E & I'). rewrite E; cbn [bind]. erewrite IH; eauto.
      + unfold ts_modify. rewrite (proj2 (nth_error_None (tstamps t) i)); auto. destruct I; lia.
    - rewrite (ts_get_spec n t a) by auto. destruct (i <? n); cbn [bind]; auto. erewrite IH; eauto.
  Qed.

  Lemma ts_run n ops : impl_run (ts_step V default) (ts_new V default n) ops = arr_run V default n (fun _ => default) ops.
  Proof. apply ts_run_ok, ts_new_inv. Qed.
End Ts.

Section Ad.
  Record AInv (n : nat) (t : adists) (a : nat -> N) : Prop := {
    ai_l : length (acells t) = n;
    ai_cur : (acurrent t < U32)%N;
    ai_val : forall i v s, nth_error (acells t) i = Some (v, s) ->
       (s < U32)%N /\ (s = acurrent t -> v = a i) /\ (s <> acurrent t -> a i = INF) /\ ((acurrent t < s)%N -> v = INF) }.

  Lemma ad_get_spec n t a i : AInv n t a -> ad_get t i = if i <? n then Some (a i) else None.
  Proof.
    intros [L C H]. unfold ad_get. destruct (Nat.ltb_spec i n).
    - destruct (nth_error_lt (acells t) i) as [[w s] Hs]; [lia|]. rewrite Hs; cbn [bind].
      destruct (H i w s Hs) as (H1 & H2 & H3 & _). destruct (N.eqb_spec s (acurrent t)). { rewrite H2; auto. } rewrite H3; auto.
    - rewrite (proj2 (nth_error_None (acells t) i)) by lia. auto.
  Qed.

  Lemma ad_set_spec n t a i v : AInv n t a -> i < n ->
    exists t', ad_set t i v = Some t' /\ AInv n t' (fun j => if j =? i then v else a j).
  Proof.
    intros [L C H] Hi. unfold ad_set. rewrite set_at_lt by lia. cbn [bind]. eexists; split; [reflexivity|].
    constructor; cbn [acells acurrent]; rewrite ?upd_length; auto.
    intros j w s. rewrite nth_error_upd, L. destruct (Nat.eqb_spec i j) as [->|].
    - destruct (Nat.ltb_spec j n); try lia. cbn [andb]. intros [= <- <-]. rewrite Nat.eqb_refl. repeat split; auto; try lia; congruence.
    - cbn [andb]. intros Hs. destruct (Nat.eqb_spec j i); try lia. apply H; auto.
  Qed.

  Lemma ad_run_ok n ops : forall t a, AInv n t a -> impl_run ad_step t ops = arr_run N INF n a ops.
  Proof.
    induction ops as [|op ops IH]; intros t a I; auto. cbn [impl_run arr_run].
    destruct op as [|i v|i f|i]; cbn [ad_step arr_step].
    - erewrite IH; [reflexivity|]. destruct I as [L C H]. unfold ad_reset. constructor; cbn [acells acurrent].
      + destruct (U32 <=? _)%N; rewrite ?map_length; auto.
      + apply N.mod_lt. unfold U32; lia.
      + intros i v s. destruct (N.leb_spec U32 (acurrent t + 1)) as [Ho|Ho].
        * rewrite nth_error_map. destruct (nth_error (acells t) i) as [w|] eqn:Ew; cbn; [|discriminate]. intros [= <- <-].
          unfold U32; repeat split; auto; lia.
        * intros Hv. destruct (H i v s Hv) as (H1 & H2 & H3 & H4). rewrite N.mod_small by auto.
          repeat split; auto; intros; apply H4; lia.
    - destruct (Nat.ltb_spec i n).
      + destruct (ad_set_spec n t a i v I H) as (t' & E & I'). rewrite E; cbn [bind]. erewrite IH; eauto.
      + unfold ad_set, set_at. destruct (Nat.ltb_spec i (length (acells t))); auto. destruct I; lia.
    - rewrite (ad_get_spec n t a) by auto. destruct (Nat.ltb_spec i n); cbn [bind]; auto.
      destruct (ad_set_spec n t a i (f (a i)) I H) as (t' & E & I'). rewrite E; cbn [bind]. erewrite IH; eauto.
    - rewrite (ad_get_spec n t a) by auto. destruct (i <? n); cbn [bind]; auto. erewrite IH; eauto.
  Qed.

  Lemma ad_run n ops : impl_run ad_step (ad_new n) ops = arr_run N INF n (fun _ => INF) ops.
  Proof.
    apply ad_run_ok. constructor; cbn [ad_new acells acurrent]; [apply repeat_length|reflexivity|].
    intros i v s. rewrite nth_error_repeat. destruct (i <? n); [|discriminate]. intros [= <- <-]. unfold U32; repeat split; auto; lia.
  Qed.
End Ad.

Section Cl.
  Variable V : Type.
  Variable eqb : V -> V -> bool.
  Variable default : V.
  Hypothesis eqb_eq : forall a b, eqb a b = true <-> a = b.

  Record CInv (n : nat) (t : clvec V) (a : nat -> V) : Prop := {
    ci_l : length (cdata t) = n;
    ci_list : forall i, In i (clist t) -> i < n;
    ci_def : forall i v, nth_error (cdata t) i = Some v -> v = default \/ In i (clist t);
    ci_val : forall i v, nth_error (cdata t) i = Some v -> v = a i }.

  Lemma cl_reset_loop l : forall d, (forall i, In i l -> i < length d) ->
    exists d', fold_left (fun acc i => d <- acc ;; set_at d i default) l (Some d) = Some d' /\ length d' = length d /\
      forall i, i < length d -> nth_error d' i = if existsb (Nat.eqb i) l then Some default else nth_error d i.
  Proof.
    induction l as [|k l IH]; intros d H; cbn [fold_left existsb].
    - eauto.
    - cbn [bind]. rewrite set_at_lt by (apply H; simpl; auto).
      destruct (IH (upd d k default)) as (d' & E & L & Hd). { intros i Hi; rewrite upd_length; apply H; simpl; auto. }
      rewrite upd_length in *. exists d'. split; auto. split; auto. intros i Hi. rewrite Hd by auto.
      rewrite nth_error_upd. destruct (existsb _ l); [rewrite orb_true_r; auto|]. rewrite orb_false_r.
      rewrite (Nat.eqb_sym k i). destruct (Nat.eqb_spec i k) as [->|]; auto. cbn [andb].
      destruct (Nat.ltb_spec k (length d)); auto; lia.
  Qed.

  Lemma cl_modify_spec n t a i f : CInv n t a -> i < n ->
    exists t', cl_modify V eqb default t i f = Some t' /\ CInv n t' (fun j => if j =? i then f (a i) else a j).
  Proof.
    intros [L HL HD HV] Hi. unfold cl_modify. destruct (nth_error_lt (cdata t) i) as [v Hv]; [lia|]. rewrite Hv; cbn [bind].
    eexists; split; [reflexivity|]. constructor; cbn [cdata clist].
    - rewrite upd_length; auto.
    - intros j. destruct (eqb v default); [rewrite in_app_iff; simpl; intros [|[<-|[]]]; auto|auto].
    - intros j w. rewrite nth_error_upd. destruct (Nat.eqb_spec i j) as [->|]; cbn [andb].
      + intros _. right. destruct (eqb v default) eqn:E; [apply in_or_app; simpl; auto|].
        destruct (HD j v Hv) as [->|]; auto. rewrite (proj2 (eqb_eq default default)) in E; [discriminate|auto].
      + intros Hw. destruct (HD j w Hw); auto. right. destruct (eqb v default); auto. apply in_or_app; auto.
    - intros j w. rewrite nth_error_upd. destruct (Nat.eqb_spec i j) as [->|]; cbn [andb].
      + destruct (Nat.ltb_spec j (length (cdata t))); try lia. intros [= <-]. rewrite Nat.eqb_refl. f_equal. auto.
      + intros Hw. destruct (Nat.eqb_spec j i); try lia. auto.
  Qed.

  Lemma cl_run_ok n ops : forall t a, CInv n t a -> impl_run (cl_step V eqb default) t ops = arr_run V default n a ops.
  Proof.
    induction ops as [|op ops IH]; intros t a I; auto. cbn [impl_run arr_run].
    destruct op as [|i v|i f|i]; cbn [cl_step arr_step].
    - pose proof I as [L HL HD HV]. unfold cl_reset.
      destruct (cl_reset_loop (clist t) (cdata t)) as (d' & E & L' & Hd). { intros; rewrite L; auto. }
      rewrite E; cbn [bind]. erewrite IH; [reflexivity|]. constructor; cbn [cdata clist]; [congruence|simpl; tauto| |].
      + intros i v Hv. left. apply nth_error_Some_lt in Hv as Hlt. rewrite Hd in Hv by lia.
        destruct (existsb (Nat.eqb i) (clist t)) eqn:Ex; [congruence|]. destruct (HD i v Hv); auto.
        rewrite (proj2 (existsb_exists _ _)) in Ex; [discriminate|]. exists i. rewrite Nat.eqb_refl; auto.
      + intros i v Hv. apply nth_error_Some_lt in Hv as Hlt. rewrite Hd in Hv by lia.
        destruct (existsb (Nat.eqb i) (clist t)) eqn:Ex; [congruence|]. destruct (HD i v Hv); auto.
        rewrite (proj2 (existsb_exists _ _)) in Ex; [discriminate|]. exists i. rewrite Nat.eqb_refl; auto.
    - destruct (Nat.ltb_spec i n).
      + destruct (cl_modify_spec n t a i (fun _ => v) I H) as (t' & E & I'). rewrite E; cbn [bind]. erewrite IH; eauto.
      + unfold cl_modify. rewrite (proj2 (nth_error_None (cdata t) i)); auto. destruct I; lia.
    - destruct (Nat.ltb_spec i n).
      + destruct (cl_modify_spec n t a i f I H) as (t' & E & I'). rewrite E; cbn [bind]. erewrite IH; eauto.
      + unfold cl_modify. rewrite (proj2 (nth_error_None (cdata t) i)); auto. destruct I; lia.
    - unfold cl_get. destruct (Nat.ltb_spec i n).
      + destruct I as [L HL HD HV]. destruct (nth_error_lt (cdata t) i) as [v Hv]; [lia|]. rewrite Hv; cbn [bind].
        rewrite (HV i v Hv). erewrite IH; [reflexivity|]. constructor; auto.
      + rewrite (proj2 (nth_error_None (cdata t) i)); auto. destruct I; lia.
  Qed.

  Lemma cl_run n ops : impl_run (cl_step V eqb default) (cl_new V default n) ops = arr_run V default n (fun _ => default) ops.
  Proof.
    apply cl_run_ok. constructor; cbn [cl_new cdata clist]; [apply repeat_length|simpl; tauto| |].
    - intros i v. rewrite nth_error_repeat. destruct (i <? n); [|discriminate]. intros [= <-]; auto.
    - intros i v. rewrite nth_error_repeat. destruct (i <? n); [|discriminate]. intros [= <-]; auto.
  Qed.
End Cl.
