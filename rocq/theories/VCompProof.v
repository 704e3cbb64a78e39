(** The components outside the core: each of them touches the core in at most one node, its bridge. *)
From Verif Require Import Base SpecGraph Graph GraphProof GraphIdProof GraphXProof GraphRevProof GraphOpsProof GraphSpecProof LoopProof CCHContractProof NodeOrder SepTree CCH IndexHeap TsVec Dijkstra DijServer PLF TopoDij VTopo VTopoProof BicProof.

Section Comps.
  Variable n : nat.
  Variable hs : nat -> list nat.
  Hypothesis Hlt : forall u, u < n -> Forall (fun v => v < n) (hs u).
  Hypothesis Hsym : forall u v, u < n -> v < n -> In v (hs u) -> In u (hs v).
  Variable debug : bool.
  Variable heads : nat -> option (list nat).
  Hypothesis Hheads : forall u, u < n -> heads u = Some (hs u).
  Variable core : list bool.
  Hypothesis Lcore : length core = n.
  Definition inK (v : nat) : Prop := nth v core false = true.
  Hypothesis Hreg : forall x, x < n -> ~ inK x -> region_of n hs inK x.

  Set Default Proof Using "All".
  Definition cu (l : list nat) (v : nat) : nat := nth v l 0.

  (** between two searches *)
  Record CW (comp : list nat) (bridge : list (option nat)) : Prop := {
    w_len : length comp = n;
    w_le : forall v, v < n -> cu comp v <= length bridge;
    w_core : forall v, v < n -> inK v -> cu comp v = 0;
    w_nb : forall v, v < n -> cu comp v <> 0 -> forall z, In z (hs v) -> (inK z -> nth_error bridge (cu comp v - 1) = Some (Some z)) /\ (~ inK z -> cu comp z = cu comp v);
    w_br : forall i c, nth_error bridge i = Some (Some c) -> c < n /\ inK c }.

  Lemma inK_dec v : inK v \/ ~ inK v.
  Proof. unfold inK. destruct (nth v core false); auto. Qed.
  Lemma core_err v : v < n -> nth_error core v = Some (nth v core false).
  Proof. intros H. destruct (nth_error_lt core v) as [b E]; [lia|]. rewrite (nth_error_nth _ _ _ E). auto. Qed.
  Lemma cu_err l v : v < length l -> nth_error l v = Some (cu l v).
  Proof. intros H. destruct (nth_error_lt l v H) as [b E]. unfold cu. rewrite (nth_error_nth _ _ _ E). auto. Qed.

  Section Search.
    Variables (comp0 : list nat) (bridge0 : list (option nat)) (P : nat -> Prop) (c : nat) (r : nat).
    Hypothesis HW : CW comp0 bridge0.
    Hypothesis Hr : r < n /\ ~ inK r /\ cu comp0 r = 0.
    Hypothesis HP : P r /\ forall y z, y < n -> P y -> ~ inK y -> In z (hs y) -> (inK z /\ z = c) \/ (~ inK z /\ P z).
    Definition idx : nat := length bridge0 + 1.

    Definition okn (comp : list nat) (bridge : list (option nat)) (z : nat) : Prop :=
      (inK z -> bridge = bridge0 ++ [Some z]) /\ (~ inK z -> cu comp z = idx).
    (** [ex] is the node whose neighbours are being read *)
    Record CI (ex : option nat) (comp : list nat) (bridge : list (option nat)) (queue : list nat) : Prop := {
      i_len : length comp = n;
      i_old : forall v, v < n -> cu comp0 v <> 0 -> cu comp v = cu comp0 v;
      i_new : forall v, v < n -> cu comp v <> cu comp0 v -> cu comp v = idx /\ ~ inK v /\ P v;
      i_br : bridge = bridge0 \/ bridge = bridge0 ++ [Some c] /\ c < n /\ inK c;
      i_q : Forall (fun v => v < n /\ cu comp v = idx) queue;
      i_done : forall v, v < n -> cu comp v = idx -> In v queue \/ Some v = ex \/ forall z, In z (hs v) -> okn comp bridge z;
      i_r : cu comp r = idx }.

    Lemma old_idx v : v < n -> cu comp0 v <> idx.
    Proof. intros Hv. pose proof (w_le _ _ HW v Hv). unfold idx. lia. Qed.

    Lemma okn_mono comp bridge comp' bridge' z : z < n -> length comp' = n -> okn comp bridge z -> (forall v, v < n -> cu comp v = idx -> cu comp' v = idx) -> (forall y, bridge = bridge0 ++ [Some y] -> bridge' = bridge) -> okn comp' bridge' z.
    Proof. intros Hz HL [O1 O2] H1 H2. split; intros H. - rewrite (H2 z); auto. - auto. Qed.

    Definition csize (comp : list nat) (queue : list nat) : N := (N.of_nat (length queue) + sumN n (fun v => if (cu comp v =? 0)%nat then 1 else 0))%N.

    Lemma neighbor_ok x comp bridge queue z : CI (Some x) comp bridge queue -> x < n -> cu comp x = idx -> In z (hs x) ->
      exists comp' bridge' queue', cmp_neighbor debug core idx (comp, bridge, queue) z = Some (comp', bridge', queue') /\ CI (Some x) comp' bridge' queue' /\ okn comp' bridge' z /\
        cu comp' x = idx /\ (forall v, v < n -> cu comp v = idx -> cu comp' v = idx) /\ (forall y, bridge = bridge0 ++ [Some y] -> bridge' = bridge) /\ csize comp' queue' = csize comp queue.
    Proof.
      intros HI Hx Ex Hz. assert (Hzn : z < n). { pose proof (Hlt x Hx) as F. rewrite Forall_forall in F. auto. }
      destruct HI as [A1 A2 A3 A4 A5 A6 A7].
      assert (Px : ~ inK x /\ P x). { destruct (A3 x Hx); auto. rewrite Ex. pose proof (old_idx x Hx). auto. } destruct Px as [Kx Px].
      unfold cmp_neighbor. rewrite core_err by auto. cbn [bind]. destruct (nth z core false) eqn:Ez.
      - (* core *) assert (Kz : inK z) by exact Ez. destruct HP as [_ HP']. destruct (HP' x z Hx Px Kx Hz) as [[_ ->]|[]]; [|tauto].
        destruct A4 as [->|(-> & Hc & Kc)].
        + destruct (Nat.ltb_spec (length bridge0) idx); [|unfold idx in *; lia]. do 3 eexists; split; [reflexivity|]. split.
          { split; auto. intros v Hv Ev. destruct (A6 v Hv Ev) as [|[|D]]; auto. right; right. intros w Hw. destruct (D w Hw) as [D1 D2]. split; auto.
            intros Kw. exfalso. specialize (D1 Kw). apply (f_equal (@length _)) in D1. rewrite app_length in D1. cbn in D1. lia. }
          split. { split; [auto|intros X; destruct (X Kz)]. } split; auto. split; auto. split; auto.
          intros y E. exfalso. apply (f_equal (@length _)) in E. rewrite app_length in E. cbn in E. lia.
        + rewrite app_length. cbn [length]. fold idx. rewrite Nat.ltb_irrefl.
          assert (En : nth_error (bridge0 ++ [Some c]) (idx - 1) = Some (Some c)). { unfold idx. rewrite nth_error_app2 by lia. replace (length bridge0 + 1 - 1 - length bridge0) with 0 by lia. auto. }
          rewrite En, Nat.eqb_refl, orb_true_r. cbn [guard bind]. do 3 eexists; split; [reflexivity|]. split. { split; auto. } split. { split; [auto|intros X; destruct (X Kz)]. } split; auto.
      - (* another node of the component *) assert (Kz : ~ inK z) by (unfold inK; congruence). rewrite (cu_err comp z) by lia. cbn [bind].
        destruct HP as [_ HP']. destruct (HP' x z Hx Px Kx Hz) as [[? _]|[_ Pz]]; [tauto|].
        destruct (Nat.eqb_spec (cu comp z) 0) as [E0|N0].
        + rewrite set_at_lt by lia. cbn [bind].
          assert (EU : forall v, cu (upd comp z idx) v = if v =? z then idx else cu comp v). { intros v. unfold cu. rewrite nth_upd by lia. auto. }
          assert (Hm : forall v, v < n -> cu comp v = idx -> cu (upd comp z idx) v = idx). { intros v _ Ev. rewrite EU. destruct (v =? z); auto. }
          do 3 eexists; split; [reflexivity|]. split.
          { split; auto.
            - rewrite upd_length; auto.
            - intros v Hv Hne. rewrite EU. destruct (Nat.eqb_spec v z) as [->|]; auto. exfalso. rewrite <- (A2 z Hv Hne) in Hne. auto.
            - intros v Hv. rewrite EU. destruct (Nat.eqb_spec v z) as [->|]; auto.
            - apply Forall_app. split. { eapply Forall_impl; [|exact A5]. intros v [Hv Ev]. split; auto. } constructor; auto. split; auto. rewrite EU, Nat.eqb_refl; auto.
            - intros v Hv. rewrite EU. intros Ev. destruct (Nat.eqb_spec v z) as [->|]. { left. apply in_or_app. right; left; auto. }
              destruct (A6 v Hv Ev) as [|[|D]]; auto. { left. apply in_or_app; auto. } right; right. intros w Hw.
              assert (w < n). { pose proof (Hlt v Hv) as F. rewrite Forall_forall in F. auto. } apply (okn_mono comp bridge); auto. rewrite upd_length; auto.
            - apply Hm; [apply Hr|auto]. }
          split. { split; [tauto|]. intros _. rewrite EU, Nat.eqb_refl; auto. } split; auto. split; auto. split; auto.
          unfold csize. rewrite app_length. cbn [length].
          pose proof (sumN_change n (fun v => if cu (upd comp z idx) v =? 0 then 1%N else 0%N) (fun v => if cu comp v =? 0 then 1%N else 0%N) z Hzn) as SC. cbv beta in SC.
          rewrite EU, Nat.eqb_refl, E0 in SC. cbn [Nat.eqb] in SC. assert (X : (idx =? 0) = false) by (apply Nat.eqb_neq; unfold idx; lia). rewrite X in SC.
          assert (Y : forall j, j <> z -> (if cu (upd comp z idx) j =? 0 then 1%N else 0%N) = (if cu comp j =? 0 then 1%N else 0%N)). { intros j Hj. rewrite EU. destruct (Nat.eqb_spec j z); [lia|auto]. }
          specialize (SC Y). lia.
        + assert (Ei : cu comp z = idx).
          { destruct (Nat.eq_dec (cu comp z) (cu comp0 z)) as [E|E]; [|apply (A3 z Hzn E)]. exfalso. rewrite E in N0.
            destruct (w_nb _ _ HW z Hzn N0 x) as [_ X]. { apply Hsym; auto. } specialize (X Kx). pose proof (old_idx x Hx).
            destruct (Nat.eq_dec (cu comp0 x) 0) as [E0|E0]; [congruence|]. rewrite (A2 x Hx E0) in Ex. congruence. }
          rewrite Ei, Nat.eqb_refl, orb_true_r. cbn [guard bind]. do 3 eexists; split; [reflexivity|]. split. { split; auto. } split. { split; [tauto|auto]. } auto.
    Qed.

    Lemma neighbors_ok x comp bridge queue : CI (Some x) comp bridge queue -> x < n -> cu comp x = idx ->
      exists comp' bridge' queue', foldM (cmp_neighbor debug core idx) (hs x) (comp, bridge, queue) = Some (comp', bridge', queue') /\ CI None comp' bridge' queue' /\ csize comp' queue' = csize comp queue.
    Proof.
      intros HI Hx Ex.
      destruct (foldM_inv (cmp_neighbor debug core idx) (fun pre st => let '(comp', bridge', queue') := st in
        CI (Some x) comp' bridge' queue' /\ cu comp' x = idx /\ csize comp' queue' = csize comp queue /\ forall z, In z pre -> okn comp' bridge' z) (hs x) (comp, bridge, queue)) as ([[comp' bridge'] queue'] & E & B1 & B2 & B3 & B4).
      - split; auto. split; auto. split; auto. intros z [].
      - intros pre z post [[cm br] q] Eq (B1 & B2 & B3 & B4).
        assert (Hz : In z (hs x)) by (rewrite Eq; apply in_elt).
        destruct (neighbor_ok x cm br q z B1 Hx B2 Hz) as (cm' & br' & q' & E & C1 & C2 & C3 & C4 & C5 & C6).
        exists (cm', br', q'). split; auto. split; auto. split; auto. split; [congruence|]. intros w Hw. apply in_app_or in Hw. destruct Hw as [Hw|[<-|[]]]; auto.
        apply (okn_mono cm br cm' br'); auto; [|apply C1]. assert (Hw' : In w (hs x)) by (rewrite Eq; apply in_or_app; auto). pose proof (Hlt x Hx) as F. rewrite Forall_forall in F. auto.
      - exists comp', bridge', queue'. split; auto. split; auto. destruct B1 as [A1 A2 A3 A4 A5 A6 A7]. split; auto.
        intros v Hv Ev. destruct (A6 v Hv Ev) as [|[[= ->]|D]]; auto.
    Qed.

    Lemma search_comp fuel comp : CI None comp bridge0 [r] -> (csize comp [r] < fuel)%N ->
      exists comp' bridge', loopN fuel (cmp_step debug heads core idx) (comp, bridge0, [r]) = Some (comp', bridge', []) /\ CI None comp' bridge' [].
    Proof.
      intros HI HM.
      destruct (loopN_ghost (cmp_step debug heads core idx) (fun g st => g = st /\ let '(comp', bridge', queue') := st in CI None comp' bridge' queue')
        (fun st => let '(comp', bridge', queue') := st in CI None comp' bridge' queue' /\ queue' = []) (fun st => let '(comp', _, queue') := st in csize comp' queue') fuel (comp, bridge0, [r]) (comp, bridge0, [r])) as ([[comp' bridge'] q'] & E & HQ & ->).
      - intros g st [-> H]. destruct st as [[cm br] q]. unfold cmp_step. destruct q as [|x q].
        + eexists; split; [reflexivity|]. cbn beta iota. split; auto.
        + destruct H as [A1 A2 A3 A4 A5 A6 A7]. apply Forall_cons_iff in A5. destruct A5 as [[Hx Ex] A5]. rewrite (Hheads x Hx). cbn [bind].
          destruct (neighbors_ok x cm br q) as (cm' & br' & q' & E & C1 & C2); auto.
          { split; auto. intros v Hv Ev. destruct (A6 v Hv Ev) as [[->|]|[|]]; auto. discriminate. }
          rewrite E. cbn [bind]. eexists; split; [reflexivity|]. exists (cm', br', q'). split; [split; auto|]. rewrite C2. unfold csize. cbn [length]. lia.
      - auto.
      - auto.
      - eauto.
    Qed.

    Lemma search_end comp bridge : CI None comp bridge [] -> CW comp (if length bridge <? idx then bridge ++ [None] else bridge) /\ cu comp r <> 0 /\ (forall v, v < n -> cu comp0 v <> 0 -> cu comp v <> 0).
    Proof.
      intros [A1 A2 A3 A4 A5 A6 A7]. split; [|split].
      - set (b1 := if length bridge <? idx then bridge ++ [None] else bridge).
        assert (HB : exists o, b1 = bridge0 ++ [o] /\ (forall y, o = Some y -> y < n /\ inK y) /\ forall y, bridge = bridge0 ++ [Some y] -> o = Some y).
        { unfold b1. destruct A4 as [->|(-> & Hc & Kc)].
          - destruct (Nat.ltb_spec (length bridge0) idx); [|unfold idx in *; lia]. exists None. split; auto. split; [discriminate|]. intros y E. apply (f_equal (@length _)) in E. rewrite app_length in E. cbn in E. lia.
          - rewrite app_length. cbn [length]. fold idx. rewrite Nat.ltb_irrefl. exists (Some c). split; auto. split; [intros y [= <-]; auto|]. intros y E. apply app_inj_tail in E. tauto. }
        destruct HB as (o & -> & Ho & HB2). split; auto.
        + intros v Hv. rewrite app_length. cbn [length]. fold idx. destruct (Nat.eq_dec (cu comp v) (cu comp0 v)) as [->|E]; [pose proof (w_le _ _ HW v Hv); unfold idx; lia|destruct (A3 v Hv E) as [-> _]; lia].
        + intros v Hv Kv. destruct (Nat.eq_dec (cu comp v) (cu comp0 v)) as [->|E]; [apply (w_core _ _ HW); auto|destruct (A3 v Hv E) as (_ & X & _); tauto].
        + intros v Hv Hne z Hz. assert (Hzn : z < n). { pose proof (Hlt v Hv) as F. rewrite Forall_forall in F. auto. }
          destruct (Nat.eq_dec (cu comp v) (cu comp0 v)) as [E|E].
          * rewrite E in *. destruct (w_nb _ _ HW v Hv Hne z Hz) as [X1 X2]. split; [|intros Kz; rewrite (A2 z Hzn); auto; rewrite X2; auto]. intros Kz. rewrite nth_error_app1; auto. pose proof (w_le _ _ HW v Hv). lia.
          * destruct (A3 v Hv E) as (Ev & Kv & Pv). destruct (A6 v Hv Ev) as [[]|[|D]]; [discriminate|]. destruct (D z Hz) as [D1 D2]. rewrite Ev. split; auto.
            intros Kz. specialize (D1 Kz). rewrite (HB2 z D1). unfold idx. rewrite nth_error_app2 by lia. replace (length bridge0 + 1 - 1 - length bridge0) with 0 by lia. auto.
        + intros i y E. destruct (Nat.lt_ge_cases i (length bridge0)) as [L|L]. { rewrite nth_error_app1 in E by auto. apply (w_br _ _ HW i y E). }
          rewrite nth_error_app2 in E by auto. destruct (i - length bridge0) as [|j]; [|destruct j; discriminate]. cbn in E. injection E as ->. auto.
      - rewrite A7. unfold idx. lia.
      - intros v Hv Hne. rewrite A2; auto.
    Qed.
  End Search.

  Lemma cmp_roots_ok fuel : (N.of_nat n + 1 < fuel)%N ->
    exists comp bridge, foldM (cmp_root debug fuel heads core) (seq 0 n) (repeat 0 n, []) = Some (comp, bridge) /\ CW comp bridge /\ forall v, v < n -> ~ inK v -> cu comp v <> 0.
  Proof.
    intros Hf.
    destruct (foldM_inv (cmp_root debug fuel heads core) (fun pre st => CW (fst st) (snd st) /\ forall v, In v pre -> v < n -> ~ inK v -> cu (fst st) v <> 0) (seq 0 n) (repeat 0 n, [])) as ([comp bridge] & E & HW & HV).
    - cbn [fst snd]. split; [|intros v []]. assert (E0 : forall v, cu (repeat 0 n) v = 0). { intros v. unfold cu. apply nth_repeat. }
      split.
      + apply repeat_length.
      + intros v _. rewrite E0. lia.
      + auto.
      + intros v _ Hne. destruct Hne; auto.
      + intros i c E. destruct i; discriminate.
    - intros pre r post [comp bridge] Eq [HW HV]. cbn [fst snd] in *.
      assert (Hr : r < n). { assert (In r (seq 0 n)) by (rewrite Eq; apply in_elt). apply in_seq in H. lia. }
      assert (HL : length comp = n) by apply HW.
      unfold cmp_root. rewrite core_err by auto. cbn [bind]. rewrite (cu_err comp r) by lia. cbn [bind].
      destruct (negb (nth r core false) && (cu comp r =? 0)) eqn:Eb.
      + apply andb_true_iff in Eb. destruct Eb as [Eb1 Eb2]. apply negb_true_iff in Eb1. apply Nat.eqb_eq in Eb2.
        assert (Kr : ~ inK r) by (unfold inK; congruence). destruct (Hreg r Hr Kr) as (P & c & Pr & HPc).
        rewrite set_at_lt by lia. cbn [bind]. fold (idx bridge).
        assert (EU : forall v, cu (upd comp r (idx bridge)) v = if v =? r then idx bridge else cu comp v). { intros v. unfold cu. rewrite nth_upd by lia. auto. }
        assert (HI : CI comp bridge P c r None (upd comp r (idx bridge)) bridge [r]).
        { split; auto.
          - rewrite upd_length; auto.
          - intros v Hv Hne. rewrite EU. destruct (Nat.eqb_spec v r) as [->|]; auto. congruence.
          - intros v Hv. rewrite EU. destruct (Nat.eqb_spec v r) as [->|]; auto. congruence.
          - constructor; auto. split; auto. rewrite EU, Nat.eqb_refl; auto.
          - intros v Hv. rewrite EU. destruct (Nat.eqb_spec v r) as [->|]. { left; left; auto. } pose proof (w_le _ _ HW v Hv). unfold idx. lia.
          - rewrite EU, Nat.eqb_refl; auto. }
        destruct (search_comp comp bridge P c r HW (conj Hr (conj Kr Eb2)) (conj Pr HPc) fuel (upd comp r (idx bridge)) HI) as (comp' & bridge' & E & HI').
        { unfold csize. cbn [length]. assert (sumN n (fun v => if (cu (upd comp r (idx bridge)) v =? 0)%nat then 1 else 0) <= sumN n (fun _ => 1%N))%N. { apply sumN_le. intros i _. destruct (_ =? 0); lia. } pose proof (sumN_const n 1%N (fun _ => 1%N) (fun _ _ => N.le_refl 1)) as HH. cbv beta in *. lia. }
        rewrite E. cbn [bind]. destruct (search_end comp bridge P c r HW (conj Hr (conj Kr Eb2)) (conj Pr HPc) comp' bridge' HI') as (W1 & W2 & W3).
        eexists; split; [reflexivity|]. cbn [fst snd]. split; auto. intros v Hv. apply in_app_or in Hv. destruct Hv as [Hv|[<-|[]]]; auto.
      + exists (comp, bridge). split; auto. cbn [fst snd]. split; auto. intros v Hv. apply in_app_or in Hv. destruct Hv as [Hv|[<-|[]]]; auto.
        intros _ Kr. apply andb_false_iff in Eb. rewrite negb_false_iff, Nat.eqb_neq in Eb. destruct Eb; auto; destruct Kr; auto.
    - exists comp, bridge. split; auto. split; auto. intros v Hv. apply HV; auto. apply in_seq. lia.
  Qed.
End Comps.
