(** Contraction with witness search returns: graphs without parallel arcs whose weights do not overflow. *)
From Verif Require Import Base SpecGraph SpecCCH SpecCH IndexHeap TsVec TsVecProof Graph GraphProof GraphRevProof GraphSpecProof Dijkstra LoopProof DijServer Bidir DijkstraRef BidirProof BidirServerProof
  CCHContractProof CHPrep CHPrepProof CHContrProof CHInitProof.

Definition has (ls : list carc) (y : nat) (x : N) : Prop := exists a, In a ls /\ ca_node a = y /\ ca_weight a = x.
Lemma has_nil y x : ~ has [] y x.
Proof. intros (a & [] & _). Qed.
Lemma has_cons a ls y x : has (a :: ls) y x <-> (ca_node a = y /\ ca_weight a = x) \/ has ls y x.
Proof. split. - intros (b & [<-|Hb] & E); [left; auto|right; exists b; auto]. - intros [E|(b & Hb & E)]; [exists a; split; [left; auto|auto]|exists b; split; [right; auto|auto]]. Qed.
Lemma has_cnt ls y x : has ls y x -> 1 <= cnt ls y.
Proof. intros (a & Ha & Ea & _). destruct (cnt ls y) eqn:E; [|lia]. destruct (proj1 (cnt_0 ls y) E a Ha Ea). Qed.
Lemma cnt_has ls y : 1 <= cnt ls y -> exists x, has ls y x.
Proof. induction ls as [|a ls IH]; [cbn; lia|]. rewrite cnt_cons. destruct (Nat.eqb_spec (ca_node a) y) as [E|]; intros H. { exists (ca_weight a). exists a. split; [left|]; auto. } destruct IH as (x & Hx); [lia|]. exists x. apply has_cons. auto. Qed.
Lemma has_unique ls y x x' : cnt ls y <= 1 -> has ls y x -> has ls y x' -> x = x'.
Proof.
  induction ls as [|a ls IH]; [intros _ (? & [] & _)|]. rewrite cnt_cons, !has_cons. destruct (Nat.eqb_spec (ca_node a) y) as [E|Ne]; intros C H1 H2.
  - assert (Z : forall z, ~ has ls y z) by (intros z Hz; apply has_cnt in Hz; lia). destruct H1 as [[_ <-]|H1]; [|destruct (Z _ H1)]. destruct H2 as [[_ <-]|H2]; [|destruct (Z _ H2)]. auto.
  - destruct H1 as [[X _]|H1]; [congruence|]. destruct H2 as [[X _]|H2]; [congruence|]. apply IH; auto; lia.
Qed.

(** What insert_or_decrease does to a list with at most one arc per head. *)
Lemma ins_exact v w o : forall ls r res, cnt ls v <= 1 -> ins_or_dec ls v w o = (r, res) ->
  (forall y x, y <> v -> has r y x <-> has ls y x) /\
  (forall x, has r v x <-> (has ls v x /\ (x <= w)%N) \/ (x = w /\ forall x', has ls v x' -> (w < x')%N)) /\
  match res with NewShortcut => forall x, ~ has ls v x | ShortenedExisting => exists x, has ls v x /\ (w < x)%N | ShorterExisting => exists x, has ls v x /\ (x <= w)%N end.
Proof.
  induction ls as [|b ls IH]; intros r res C E; cbn [ins_or_dec] in E.
  - injection E as <- <-. split. { intros y x Ny. rewrite has_cons. cbn. split; [intros [[X _]|X]; [congruence|auto]|auto]. } split; [|intros x; apply has_nil].
    intros x. rewrite has_cons. unfold ca_node, ca_weight; cbn [fst snd]. split.
    + intros [[_ <-]|X]; [|destruct (has_nil _ _ X)]. right. split; auto. intros x' X. destruct (has_nil _ _ X).
    + intros [[X _]|[-> _]]; [destruct (has_nil _ _ X)|auto].
  - rewrite cnt_cons in C. destruct (Nat.eqb_spec v (ca_node b)) as [Ev|Nv].
    + rewrite <- Ev, Nat.eqb_refl in C. assert (Z : forall z, ~ has ls v z) by (intros z Hz; apply has_cnt in Hz; lia).
      destruct (N.ltb_spec w (ca_weight b)) as [Lt|Ge]; injection E as <- <-.
      * split. { intros y x Ny. rewrite !has_cons. unfold ca_node at 1; cbn [fst]. rewrite <- Ev. split; (intros [[X _]|X]; [congruence|auto]). } split.
        { intros x. rewrite !has_cons. unfold ca_node at 1, ca_weight at 1; cbn [fst snd]. split.
          - intros [[_ <-]|X]; [|destruct (Z _ X)]. right. split; auto. intros x' [[_ <-]|X]%has_cons; [auto|destruct (Z _ X)].
          - intros [[[[_ <-]|X] L]|[-> _]]; [lia|destruct (Z _ X)|]. left. auto. }
        exists (ca_weight b). split; [apply has_cons; auto|auto].
      * split; [reflexivity|]. split.
        { intros x. split.
          - intros X. left. split; auto. apply has_cons in X as [[_ <-]|X]; [lia|destruct (Z _ X)].
          - intros [[X _]|[-> X]]; auto. specialize (X (ca_weight b)). exfalso. assert (w < ca_weight b)%N; [|lia]. apply X. apply has_cons. auto. }
        exists (ca_weight b). split; [apply has_cons; auto|auto].
    + replace (ca_node b =? v) with false in C by lia. destruct (ins_or_dec ls v w o) as [r1 x1] eqn:E1. injection E as <- <-. destruct (IH r1 x1 ltac:(lia) eq_refl) as (H1 & H2 & H3).
      assert (HV : forall l x, has (b :: l) v x <-> has l v x). { intros l x. rewrite has_cons. split; [intros [[X _]|X]; [congruence|auto]|auto]. }
      split. { intros y x Ny. rewrite !has_cons, H1 by auto. tauto. } split.
      { intros x. rewrite !HV, H2. split; (intros [X|[X Y]]; [auto|right; split; auto]); intros x' Hx'; apply Y; (apply (proj1 (HV _ _)) in Hx' || apply (proj2 (HV _ _))); auto. }
      destruct x1; [intros x X; apply (proj1 (HV _ _)) in X; apply (H3 x X)|destruct H3 as (x & X & L); exists x; split; [apply (proj2 (HV _ _))|]; auto..].
Qed.
Lemma ins_same l1 l2 v1 v2 w o r1 r2 x1 x2 : cnt l1 v1 <= 1 -> cnt l2 v2 <= 1 -> (forall x, has l1 v1 x <-> has l2 v2 x) ->
  ins_or_dec l1 v1 w o = (r1, x1) -> ins_or_dec l2 v2 w o = (r2, x2) -> x1 = x2.
Proof.
  intros C1 C2 HS E1 E2. destruct (ins_exact _ _ _ _ _ _ C1 E1) as (_ & _ & H1). destruct (ins_exact _ _ _ _ _ _ C2 E2) as (_ & _ & H2).
  destruct x1, x2; auto; exfalso.
  - destruct H2 as (x & X & _). apply (H1 x). apply HS; auto.
  - destruct H2 as (x & X & _). apply (H1 x). apply HS; auto.
  - destruct H1 as (x & X & _). apply (H2 x). apply HS; auto.
  - destruct H1 as (x & X & L1), H2 as (y & Y & L2). apply HS in Y. pose proof (has_unique _ _ _ _ C1 X Y). lia.
  - destruct H1 as (x & X & _). apply (H2 x). apply HS; auto.
  - destruct H1 as (x & X & L1), H2 as (y & Y & L2). apply HS in Y. pose proof (has_unique _ _ _ _ C1 X Y). lia.
Qed.

(** Removing the arcs to the contracted node never fails. *)
Lemma ca_remove_ok ls v : 1 <= cnt ls v -> exists r, ca_remove ls v = Some r.
Proof.
  intros H. unfold ca_remove. assert (X : exists p, ca_pos ls v = Some p); [|destruct X as (p & ->); cbn; eauto].
  induction ls as [|a ls IH]; [cbn in H; lia|]. cbn [ca_pos]. rewrite cnt_cons in H. destruct (Nat.eqb_spec v (ca_node a)) as [->|Ne]; eauto.
  replace (ca_node a =? v) with false in H by lia. destruct IH as (p & ->); [lia|]. cbn. eauto.
Qed.
Lemma rm_out_total t : forall l nodes, (forall a, In a l -> t < ca_node a < length nodes) -> (forall y, cnt l y <= cnt (Og nodes y) t) -> exists nodes', foldM (rm_out (S t)) l nodes = Some nodes'.
Proof.
  induction l as [|a l IH]; intros nodes Hl HC; cbn [foldM]; eauto. destruct (Hl a (or_introl eq_refl)) as [H1 H2].
  destruct (nth_error_lt nodes (ca_node a) H2) as ((o & i) & En). pose proof (nth_error_nth nodes _ ([], []) En) as Nn.
  assert (C0 : 1 <= cnt o t). { specialize (HC (ca_node a)). rewrite cnt_cons, Nat.eqb_refl in HC. unfold Og in HC. rewrite Nn in HC. cbn [fst snd] in HC. lia. }
  destruct (ca_remove_ok o t C0) as (o' & Er). unfold rm_out at 1, pn_at. rewrite (proj2 (Nat.leb_le (S t) (ca_node a))) by lia. cbn [guard bind]. rewrite En. cbn [bind]. cbn [Nat.sub]. rewrite Nat.sub_0_r, Er. cbn [bind].
  rewrite set_at_lt by auto. destruct (ca_remove_spec _ _ _ Er) as (b & Hb & Pb). apply IH.
  - intros c Hc. rewrite upd_length. apply Hl. right; auto.
  - intros y. specialize (HC y). rewrite cnt_cons in HC. unfold Og in HC |- *. destruct (Nat.eqb_spec (ca_node a) y) as [Ey|Ne].
    + rewrite <- Ey in *. rewrite nth_upd_eq by auto. rewrite Nn in HC. cbn [fst] in *. rewrite (cnt_perm _ _ t Pb), cnt_cons, Hb, Nat.eqb_refl in HC. lia.
    + rewrite nth_upd_neq by auto. lia.
Qed.
Lemma rm_in_total t : forall l nodes, (forall a, In a l -> t < ca_node a < length nodes) -> (forall y, cnt l y <= cnt (Ig nodes y) t) -> exists nodes', foldM (rm_in (S t)) l nodes = Some nodes'.
Proof.
  induction l as [|a l IH]; intros nodes Hl HC; cbn [foldM]; eauto. destruct (Hl a (or_introl eq_refl)) as [H1 H2].
  destruct (nth_error_lt nodes (ca_node a) H2) as ((o & i) & En). pose proof (nth_error_nth nodes _ ([], []) En) as Nn.
  assert (C0 : 1 <= cnt i t). { specialize (HC (ca_node a)). rewrite cnt_cons, Nat.eqb_refl in HC. unfold Ig in HC. rewrite Nn in HC. cbn [fst snd] in HC. lia. }
  destruct (ca_remove_ok i t C0) as (o' & Er). unfold rm_in at 1, pn_at. rewrite (proj2 (Nat.leb_le (S t) (ca_node a))) by lia. cbn [guard bind]. rewrite En. cbn [bind]. cbn [Nat.sub]. rewrite Nat.sub_0_r, Er. cbn [bind].
  rewrite set_at_lt by auto. destruct (ca_remove_spec _ _ _ Er) as (b & Hb & Pb). apply IH.
  - intros c Hc. rewrite upd_length. apply Hl. right; auto.
  - intros y. specialize (HC y). rewrite cnt_cons in HC. unfold Ig in HC |- *. destruct (Nat.eqb_spec (ca_node a) y) as [Ey|Ne].
    + rewrite <- Ey in *. rewrite nth_upd_eq by auto. rewrite Nn in HC. cbn [snd] in *. rewrite (cnt_perm _ _ t Pb), cnt_cons, Hb, Nat.eqb_refl in HC. lia.
    + rewrite nth_upd_neq by auto. lia.
Qed.

Section Total.
  Variable n : nat.
  Variable A : nat -> nat -> N -> Prop.
  Variables K D : N.
  Hypothesis HD : forall u v l, walk A u v l -> exists l', walk A u v l' /\ (l' <= l)%N /\ (l' <= D)%N.
  Hypothesis HK : (1 <= K)%N.
  Hypothesis HKD : (K * D < INF)%N.

  (** the two lists agree, there is at most one arc per head, and no arc is more than [K] times as long as necessary *)
  Record SG (t : nat) (nodes : list cnode) : Prop := {
    sg_flip : forall u v w, t <= u -> t <= v -> (carc_of (Og nodes) u v w <-> carc_of (Ig nodes) v u w);
    sg_oo : forall u v, cnt (Og nodes u) v <= 1;
    sg_oi : forall u v, cnt (Ig nodes u) v <= 1;
    sg_wo : forall u v w l, carc_of (Og nodes) u v w -> walk A u v l -> (w <= K * l)%N;
    sg_wi : forall u v w l, carc_of (Ig nodes) v u w -> walk A u v l -> (w <= K * l)%N }.

  Lemma small_walk u v w : walk A u v w -> (forall l, walk A u v l -> (w <= K * l)%N) -> (w < INF)%N.
  Proof using HD HK HKD. intros W H. destruct (HD _ _ _ W) as (l' & W' & _ & L). specialize (H _ W'). nia. Qed.
  Lemma out_small t nodes u v w : PG n A t nodes -> SG t nodes -> carc_of (Og nodes) u v w -> (w < INF)%N.
  Proof using HD HK HKD. intros P S H. eapply small_walk; [eapply pg_so; eauto|]. intros l W. eapply sg_wo; eauto. Qed.
  Lemma in_small t nodes u v w : PG n A t nodes -> SG t nodes -> carc_of (Ig nodes) v u w -> (w < INF)%N.
  Proof using HD HK HKD. intros P S H. eapply small_walk; [eapply pg_si; eauto|]. intros l W. eapply sg_wi; eauto. Qed.

  (** ** removing *)
  Lemma rm_total t nodes node : PG n A t nodes -> SG t nodes -> t < n -> nth_error nodes t = Some node ->
    exists nodes', rm_edges (S t) nodes node = Some nodes' /\ SG (S t) nodes'.
  Proof using HD HK HKD.
    intros H S Ht En. pose proof (pg_len _ _ _ _ H) as HL. pose proof (nth_error_nth nodes t ([], []) En) as Nn.
    assert (ES : snd node = Ig nodes t) by (unfold Ig; rewrite Nn; auto). assert (EF : fst node = Og nodes t) by (unfold Og; rewrite Nn; auto).
    assert (HI : forall a, In a (Ig nodes t) -> t < ca_node a < n). { intros a Ha. destruct (pg_hi _ _ _ _ H t a (le_n _) Ha). lia. }
    assert (HO : forall a, In a (Og nodes t) -> t < ca_node a < n). { intros a Ha. destruct (pg_ho _ _ _ _ H t a (le_n _) Ha). lia. }
    assert (X : exists nodes', rm_edges (Datatypes.S t) nodes node = Some nodes').
    { unfold rm_edges. rewrite ES, EF.
      destruct (rm_out_total t (Ig nodes t) nodes) as (n1 & E1). { intros a Ha. rewrite HL. auto. }
      { intros y. destruct (le_lt_dec t y) as [L|L]. { rewrite (pg_cnt _ _ _ _ H y t); auto. } replace (cnt (Ig nodes t) y) with 0; [lia|]. symmetry. apply cnt_0. intros a Ha Ea. specialize (HI a Ha). lia. }
      rewrite E1. cbn [bind]. destruct (rm_outs A t _ _ _ (fun a Ha => proj1 (HI a Ha)) E1) as (L1 & I1 & _).
      apply rm_in_total. { intros a Ha. rewrite L1, HL. auto. }
      intros y. rewrite I1. destruct (le_lt_dec t y) as [L|L]. { rewrite (pg_cnt _ _ _ _ H t y); auto. } replace (cnt (Og nodes t) y) with 0; [lia|]. symmetry. apply cnt_0. intros a Ha Ea. specialize (HO a Ha). lia. }
    destruct X as (nodes' & E). exists nodes'. split; auto. destruct (rm_spec n A t nodes node nodes' H Ht En E) as (P1 & S1 & D1 & D2).
    assert (FO : forall u, u <= t -> Og nodes' u = Og nodes u) by (intros u Hu; unfold Og; rewrite S1; auto). assert (FI : forall u, u <= t -> Ig nodes' u = Ig nodes u) by (intros u Hu; unfold Ig; rewrite S1; auto).
    assert (SO : forall u v w, carc_of (Og nodes') u v w -> carc_of (Og nodes) u v w).
    { intros u v w (a & Ha & Ea). exists a. split; auto. destruct (le_lt_dec u t); [rewrite <- FO; auto|]. apply (D1 u); auto. }
    assert (SI : forall u v w, carc_of (Ig nodes') u v w -> carc_of (Ig nodes) u v w).
    { intros u v w (a & Ha & Ea). exists a. split; auto. destruct (le_lt_dec u t); [rewrite <- FI; auto|]. apply (D2 u); auto. }
    split.
    - intros u v w Hu Hv. split; intros X.
      + pose proof (SO _ _ _ X) as Y. apply (sg_flip _ _ S) in Y as (a & Ha & Ea & Ew); [|lia..]. exists a. split; auto. apply (D2 v); [lia|]. split; auto. lia.
      + pose proof (SI _ _ _ X) as Y. apply (sg_flip _ _ S) in Y as (a & Ha & Ea & Ew); [|lia..]. exists a. split; auto. apply (D1 u); [lia|]. split; auto. lia.
    - intros u v. destruct (le_lt_dec u t); [rewrite FO by auto; apply (sg_oo _ _ S)|]. destruct (D1 u) as (C0 & C1 & _); auto. destruct (Nat.eq_dec v t) as [->|]; [lia|]. rewrite C1 by auto. apply (sg_oo _ _ S).
    - intros u v. destruct (le_lt_dec u t); [rewrite FI by auto; apply (sg_oi _ _ S)|]. destruct (D2 u) as (C0 & C1 & _); auto. destruct (Nat.eq_dec v t) as [->|]; [lia|]. rewrite C1 by auto. apply (sg_oi _ _ S).
    - intros u v w l X. apply (sg_wo _ _ S); auto.
    - intros u v w l X. apply (sg_wi _ _ S); auto.
  Qed.

  (** ** inserting *)
  Lemma ins_total off nodes p z w o : PG n A off nodes -> SG off nodes -> off <= p < n -> off <= z < n -> p <> z -> (forall l, walk A p z l -> (w <= K * l)%N) ->
    exists nodes', pn_insert off nodes p z w o = Some nodes' /\ SG off nodes'.
  Proof using HD HK HKD.
    intros H S Hp Hz Npz HW. unfold pn_insert, pn_at. rewrite (proj2 (Nat.leb_le off p)), (proj2 (Nat.leb_le off z)) by lia. cbn [guard bind].
    pose proof (pg_len _ _ _ _ H) as HL. destruct (nth_error_lt nodes p) as ((op & ip) & E1); [lia|]. destruct (nth_error_lt nodes z) as ((oz & iz) & E2); [lia|].
    rewrite E1. cbn [bind]. destruct (ins_or_dec op z w o) as [op' r1] eqn:I1. rewrite set_at_lt by lia. cbn [bind]. rewrite nth_error_upd_neq by auto. rewrite E2. cbn [bind]. destruct (ins_or_dec iz p w o) as [iz' r2] eqn:I2.
    rewrite set_at_lt by (rewrite upd_length; lia). cbn [bind]. set (nodes' := upd (upd nodes p (op', ip)) z (oz, iz')).
    pose proof (nth_error_nth nodes p ([], []) E1) as Np. pose proof (nth_error_nth nodes z ([], []) E2) as Nz.
    assert (OO : forall u, Og nodes' u = if u =? p then op' else Og nodes u).
    { intros u. unfold Og, nodes'. destruct (Nat.eqb_spec u p) as [->|]. { rewrite nth_upd_neq by auto. rewrite nth_upd_eq by lia. auto. }
      destruct (Nat.eq_dec u z) as [->|]. { rewrite nth_upd_eq by (rewrite upd_length; lia). rewrite Nz. auto. } rewrite !nth_upd_neq by auto. auto. }
    assert (II : forall u, Ig nodes' u = if u =? z then iz' else Ig nodes u).
    { intros u. unfold Ig, nodes'. destruct (Nat.eqb_spec u z) as [->|]. { rewrite nth_upd_eq by (rewrite upd_length; lia). auto. } rewrite nth_upd_neq by auto.
      destruct (Nat.eq_dec u p) as [->|]. { rewrite nth_upd_eq by lia. rewrite Np. auto. } rewrite !nth_upd_neq by auto. auto. }
    assert (OP : Og nodes p = op) by (unfold Og; rewrite Np; auto). assert (IZ : Ig nodes z = iz) by (unfold Ig; rewrite Nz; auto).
    assert (C1 : cnt op z <= 1) by (rewrite <- OP; apply (sg_oo _ _ S)). assert (C2 : cnt iz p <= 1) by (rewrite <- IZ; apply (sg_oi _ _ S)).
    assert (HS : forall x, has op z x <-> has iz p x). { intros x. rewrite <- OP, <- IZ. apply (sg_flip _ _ S); lia. }
    rewrite (ins_same _ _ _ _ _ _ _ _ _ _ C1 C2 HS I1 I2). destruct (ins_exact _ _ _ _ _ _ C1 I1) as (A1 & A2 & _). destruct (ins_exact _ _ _ _ _ _ C2 I2) as (B1 & B2 & _).
    replace (sresult_eqb r2 r2) with true by (destruct r2; auto). cbn [guard bind]. exists nodes'. split; auto.
    assert (XO : forall u v x, carc_of (Og nodes') u v x <-> if (u =? p) && (v =? z) then has op' z x else carc_of (Og nodes) u v x).
    { intros u v x. unfold carc_of. rewrite OO. destruct (Nat.eqb_spec u p) as [->|]; cbn [andb]; [|reflexivity]. destruct (Nat.eqb_spec v z) as [->|Nv]; [reflexivity|]. rewrite OP. apply (A1 v x Nv). }
    assert (XI : forall u v x, carc_of (Ig nodes') u v x <-> if (u =? z) && (v =? p) then has iz' p x else carc_of (Ig nodes) u v x).
    { intros u v x. unfold carc_of. rewrite II. destruct (Nat.eqb_spec u z) as [->|]; cbn [andb]; [|reflexivity]. destruct (Nat.eqb_spec v p) as [->|Nv]; [reflexivity|]. rewrite IZ. apply (B1 v x Nv). }
    split.
    - intros u v x Hu Hv. rewrite XO, XI. rewrite (andb_comm (v =? z)). destruct ((u =? p) && (v =? z)); [|apply (sg_flip _ _ S); auto]. rewrite A2, B2.
      split; (intros [[X Y]|[X Y]]; [left; split; [apply HS|]; auto|right; split; auto; intros x' X'; apply Y; apply HS; auto]).
    - intros u v. rewrite OO. destruct (Nat.eqb_spec u p) as [->|]; [|apply (sg_oo _ _ S)]. destruct (ins_spec z w o _ _ _ I1) as (_ & _ & _ & ->).
      pose proof (sg_oo _ _ S p v) as Y. rewrite OP in Y. destruct (Nat.eqb_spec v z) as [->|]; cbn [andb]; [|lia]. destruct (Nat.eqb_spec (cnt op z) 0); lia.
    - intros u v. rewrite II. destruct (Nat.eqb_spec u z) as [->|]; [|apply (sg_oi _ _ S)]. destruct (ins_spec p w o _ _ _ I2) as (_ & _ & _ & ->).
      pose proof (sg_oi _ _ S z v) as Y. rewrite IZ in Y. destruct (Nat.eqb_spec v p) as [->|]; cbn [andb]; [|lia]. destruct (Nat.eqb_spec (cnt iz p) 0); lia.
    - intros u v x l X W. apply XO in X. destruct (Nat.eqb_spec u p) as [->|]; cbn [andb] in X; [|eapply (sg_wo _ _ S); eauto]. destruct (Nat.eqb_spec v z) as [->|]; [|eapply (sg_wo _ _ S); eauto].
      apply A2 in X as [[X _]|[-> _]]; auto. apply (sg_wo _ _ S p z); auto. unfold carc_of. rewrite OP. exact X.
    - intros u v x l X W. apply XI in X. destruct (Nat.eqb_spec v z) as [->|]; cbn [andb] in X; [|eapply (sg_wi _ _ S); eauto]. destruct (Nat.eqb_spec u p) as [->|]; [|eapply (sg_wi _ _ S); eauto].
      apply B2 in X as [[X _]|[-> _]]; auto. apply (sg_wi _ _ S p z); auto. unfold carc_of. rewrite IZ. exact X.
  Qed.

  (** ** the witness search *)
  Definition sh (off : nat) (a : carc) : nat * N := (ca_node a - off, ca_weight a).
  Lemma shifted_ok off ls : (forall a, In a ls -> off <= ca_node a) -> shifted off ls = Some (map (sh off) ls).
  Proof using HD HK HKD. clear. intros H. unfold shifted. apply mapM_Some. intros a Ha. rewrite (proj2 (Nat.leb_le off (ca_node a))) by auto. auto. Qed.
  Definition inr_links (m : nat) (links : nat -> option (list (nat * N))) (u : nat) : option (list (nat * N)) := if u <? m then links u else Some [].
  Definition fe (off : nat) (nodes : list cnode) := inr_links (n - off) (fw_wrap off nodes).
  Definition be (off : nat) (nodes : list cnode) := inr_links (n - off) (bw_wrap off nodes).

  Section Wit.
    Variable off : nat.
    Variable nodes : list cnode.
    Hypothesis H : PG n A off nodes.
    Hypothesis S : SG off nodes.
    Lemma fw_some u : u < n - off -> fw_wrap off nodes u = Some (map (sh off) (Og nodes (off + u))).
    Proof using H HD HK HKD. intros Hu. unfold fw_wrap. destruct (nth_error_lt nodes (off + u)) as ((o & i) & E). { rewrite (pg_len _ _ _ _ H). lia. } rewrite E. cbn [bind]. unfold Og. rewrite (nth_error_nth nodes _ ([], []) E). cbn [fst].
      apply shifted_ok. intros a Ha. apply (pg_ho _ _ _ _ H (off + u) a); [lia|]. unfold Og. rewrite (nth_error_nth nodes _ ([], []) E). auto. Qed.
    Lemma bw_some u : u < n - off -> bw_wrap off nodes u = Some (map (sh off) (Ig nodes (off + u))).
    Proof using H HD HK HKD. intros Hu. unfold bw_wrap. destruct (nth_error_lt nodes (off + u)) as ((o & i) & E). { rewrite (pg_len _ _ _ _ H). lia. } rewrite E. cbn [bind]. unfold Ig. rewrite (nth_error_nth nodes _ ([], []) E). cbn [snd].
      apply shifted_ok. intros a Ha. apply (pg_hi _ _ _ _ H (off + u) a); [lia|]. unfold Ig. rewrite (nth_error_nth nodes _ ([], []) E). auto. Qed.
    Lemma fe_arc u v w : garc (fe off nodes) u v w <-> u < n - off /\ carc_of (Og nodes) (off + u) (off + v) w.
    Proof using H HD HK HKD.
      unfold garc, fe, inr_links. split.
      - intros (l & E & Hin). destruct (Nat.ltb_spec u (n - off)) as [Hu|]; [|injection E as <-; destruct Hin]. split; auto. rewrite fw_some in E by auto. injection E as <-. apply in_map_iff in Hin as (a & [= Ea Ew] & Ha).
        exists a. split; auto. destruct (pg_ho _ _ _ _ H (off + u) a) as [X _]; [lia|auto|]. split; [lia|auto].
      - intros [Hu (a & Ha & Ea & Ew)]. rewrite (proj2 (Nat.ltb_lt _ _) Hu), fw_some by auto. eexists. split; [reflexivity|]. apply in_map_iff. exists a. split; auto. unfold sh. f_equal; auto. lia.
    Qed.
    Lemma be_arc u v w : garc (be off nodes) u v w <-> u < n - off /\ carc_of (Ig nodes) (off + u) (off + v) w.
    Proof using H HD HK HKD.
      unfold garc, be, inr_links. split.
      - intros (l & E & Hin). destruct (Nat.ltb_spec u (n - off)) as [Hu|]; [|injection E as <-; destruct Hin]. split; auto. rewrite bw_some in E by auto. injection E as <-. apply in_map_iff in Hin as (a & [= Ea Ew] & Ha).
        exists a. split; auto. destruct (pg_hi _ _ _ _ H (off + u) a) as [X _]; [lia|auto|]. split; [lia|auto].
      - intros [Hu (a & Ha & Ea & Ew)]. rewrite (proj2 (Nat.ltb_lt _ _) Hu), bw_some by auto. eexists. split; [reflexivity|]. apply in_map_iff. exists a. split; auto. unfold sh. f_equal; auto. lia.
    Qed.
    Lemma out_lt u v w : u < n - off -> carc_of (Og nodes) (off + u) (off + v) w -> v < n - off.
    Proof using H HD HK HKD. intros Hu (a & Ha & Ea & _). destruct (pg_ho _ _ _ _ H (off + u) a) as [X _]; [lia|auto|]. lia. Qed.
    Lemma in_lt u v w : u < n - off -> carc_of (Ig nodes) (off + u) (off + v) w -> v < n - off.
    Proof using H HD HK HKD. intros Hu (a & Ha & Ea & _). destruct (pg_hi _ _ _ _ H (off + u) a) as [X _]; [lia|auto|]. lia. Qed.
    Lemma fe_wf : wf_links n (fe off nodes).
    Proof using H S HD HK HKD.
      intros u Hu. assert (X : exists ls, fe off nodes u = Some ls). { unfold fe, inr_links. destruct (Nat.ltb_spec u (n - off)); [rewrite fw_some by auto|]; eauto. }
      destruct X as (ls & E). exists ls. split; auto. intros v w Hin. assert (X : garc (fe off nodes) u v w) by (exists ls; auto). apply fe_arc in X as [X1 X2]. split; [pose proof (out_lt _ _ _ X1 X2); lia|]. pose proof (out_small _ _ _ _ _ H S X2). lia.
    Qed.
    Lemma be_wf : wf_links n (be off nodes).
    Proof using H S HD HK HKD.
      intros u Hu. assert (X : exists ls, be off nodes u = Some ls). { unfold be, inr_links. destruct (Nat.ltb_spec u (n - off)); [rewrite bw_some by auto|]; eauto. }
      destruct X as (ls & E). exists ls. split; auto. intros v w Hin. assert (X : garc (be off nodes) u v w) by (exists ls; auto). apply be_arc in X as [X1 X2]. split; [pose proof (in_lt _ _ _ X1 X2); lia|]. pose proof (in_small _ _ _ _ _ H S X2). lia.
    Qed.
    Lemma fe_flip u v w : garc (be off nodes) v u w <-> garc (fe off nodes) u v w.
    Proof using H S HD HK HKD.
      rewrite fe_arc, be_arc. split; intros [X Y].
      - pose proof (in_lt _ _ _ X Y). split; auto. apply (sg_flip _ _ S); auto; apply Nat.le_add_r.
      - pose proof (out_lt _ _ _ X Y). split; auto. apply (sg_flip _ _ S); auto; apply Nat.le_add_r.
    Qed.
    Lemma fe_reach s u l : s < n - off -> walk (garc (fe off nodes)) s u l -> u < n - off.
    Proof using H HD HK HKD. intros Hs W. induction W as [|a b c w l Ha W IH]; auto. apply IH. apply fe_arc in Ha as [X Y]. eapply out_lt; eauto. Qed.
    Lemma be_reach s u l : s < n - off -> walk (garc (be off nodes)) s u l -> u < n - off.
    Proof using H HD HK HKD. intros Hs W. induction W as [|a b c w l Ha W IH]; auto. apply IH. apply be_arc in Ha as [X Y]. eapply in_lt; eauto. Qed.
    Lemma fe_walk p z l : off <= p < n -> walk (FOg off nodes) p z l -> walk (garc (fe off nodes)) (p - off) (z - off) l.
    Proof using H HD HK HKD.
      intros Hp W. induction W as [|a b c w l [Ha Ha'] W IH]; [constructor|]. pose proof Ha' as (e & He & Ee & _). destruct (pg_ho _ _ _ _ H a e Ha He) as [X _]. rewrite Ee in X.
      econstructor; [|apply IH; auto]. apply fe_arc. split; [lia|]. replace (off + (a - off)) with a by lia. replace (off + (b - off)) with b by lia. auto.
    Qed.

    Lemma wit_total sv p z w : off <= p < n -> off <= z < n -> Ready n (bs_fw sv) -> Ready n (bs_bw sv) ->
      exists sv' r, bd_distance_cap n (fw_wrap off nodes) (bw_wrap off nodes) zero_bipot min_key_dir sv (p - off) (z - off) w = Some (sv', r) /\
        forall l, walk (FOg off nodes) p z l -> (l < INF)%N -> (l < w)%N -> exists x, r = Some x /\ (x <= l)%N.
    Proof using H S HD HK HKD.
      intros Hp Hz R1 R2. pose proof (zero_min_key n (fe off nodes) (be off nodes) fe_wf be_wf fe_flip) as BC.
      destruct (bd_query_agree n _ _ _ _ _ _ _ _ _ BC (fw_wrap off nodes) (bw_wrap off nodes) sv (p - off) (z - off) w) as (sv' & r & E & _ & (_ & CA) & _).
      - split; auto.
      - split; lia.
      - intros u l W. apply fe_reach in W; [|lia]. unfold fe, inr_links. rewrite (proj2 (Nat.ltb_lt _ _) W). auto.
      - intros u l W. apply be_reach in W; [|lia]. unfold be, inr_links. rewrite (proj2 (Nat.ltb_lt _ _) W). auto.
      - exists sv', r. split; auto. intros l W. apply CA. apply fe_walk; auto.
    Qed.
  End Wit.

  (** ** one pair of neighbours *)
  Lemma try_total x a b st : Later n A (S x) (fst st) st -> SG (S x) (fst st) -> S x <= ca_node a < n -> S x <= ca_node b < n -> (ca_weight a < INF)%N -> (ca_weight b < INF)%N ->
    (forall l, walk A (ca_node a) (ca_node b) l -> (exists l', walk (FOg (S x) (fst st)) (ca_node a) (ca_node b) l' /\ (l' <= l)%N) \/ (ca_weight a + ca_weight b <= K * l)%N) ->
    exists st', try_shortcut (S x) a b st = Some st' /\ SG (S x) (fst st').
  Proof using HD HK HKD.
    intros HL HS Ha Hb La Lb HP. destruct st as [nodes (d1 & d2)]. cbn [fst] in *. pose proof HL as [H _ _ R1 R2]. cbn [fst snd] in H, R1, R2. unfold try_shortcut. rewrite cadd_ok by (unfold INF, U32 in *; lia). cbn [bind].
    unfold shortcut_required. destruct (Nat.eqb_spec (ca_node a) (ca_node b)) as [Eab|Nab]. { cbn [bind]. eexists. split; [reflexivity|]. auto. }
    rewrite (proj2 (Nat.leb_le (S x) (ca_node a))), (proj2 (Nat.leb_le (S x) (ca_node b))) by lia. cbn [guard bind fst snd].
    rewrite (pg_len _ _ _ _ H). destruct (wit_total (S x) nodes H HS (mkBS d1 d2 0 tt) (ca_node a) (ca_node b) (ca_weight a + ca_weight b)%N Ha Hb R1 R2) as (sv & r & E & HR). rewrite E. cbn [bind].
    assert (HW : match r with Some l => negb (l <? ca_weight a + ca_weight b)%N | None => true end = true -> forall l, walk A (ca_node a) (ca_node b) l -> (ca_weight a + ca_weight b <= K * l)%N).
    { intros Hq l W. destruct (HD _ _ _ W) as (l0 & W0 & L0 & LD). assert ((ca_weight a + ca_weight b <= K * l0)%N); [|nia].
      destruct (HP l0 W0) as [(l' & W' & L')|]; auto. destruct (N.lt_ge_cases l' (ca_weight a + ca_weight b)) as [Lt|]; [|nia].
      destruct (HR l' W') as (y & -> & Ly); auto. { assert (K * l' <= K * D)%N by nia. nia. } destruct (N.ltb_spec y (ca_weight a + ca_weight b)); [discriminate|lia]. }
    destruct (match r with Some _ => _ | None => _ end); [|eexists; split; [reflexivity|auto]].
    destruct (ins_total (S x) nodes (ca_node a) (ca_node b) (ca_weight a + ca_weight b) (S x - 1) H HS Ha Hb Nab (HW eq_refl)) as (nodes' & Ei & S'). rewrite Ei. cbn [bind]. eexists. split; [reflexivity|auto].
  Qed.

  (** a walk avoids [x] or passes it *)
  Lemma avoid_or_pass x nodes nodes1 p z l : PG n A x nodes -> (forall u, x < u -> drops x (Og nodes u) (Og nodes1 u)) -> walk (FOg x nodes) p z l -> z <> x -> p <> x -> x <= p ->
    walk (FOg (S x) nodes1) p z l \/ exists l1 l2, walk (FOg x nodes) p x l1 /\ walk (FOg x nodes) x z l2 /\ l = (l1 + l2)%N.
  Proof using HD HK HKD.
    intros H D1 W. induction W as [u|u v t w l [Hu Ha] W IH]; intros Nz Np Lp; [left; constructor|].
    destruct (Nat.eq_dec v x) as [->|Nv]. { right. exists w, l. split; [apply walk_arc; split; auto|]. auto. }
    pose proof Ha as (a & Ia & Ea & Ew). destruct (pg_ho _ _ _ _ H u a Hu Ia) as [Hv _]. rewrite Ea in Hv. destruct (IH Nz Nv ltac:(lia)) as [W'|(l1 & l2 & W1 & W2 & ->)].
    - left. econstructor; [|exact W']. split; [lia|]. exists a. split; auto. apply (D1 u); [lia|]. split; auto. lia.
    - right. exists (w + l1)%N, l2. split; [econstructor; [split; eauto|exact W1]|]. split; auto. lia.
  Qed.
  Lemma walk_FOg t nodes p z l : PG n A t nodes -> walk (FOg t nodes) p z l -> walk A p z l.
  Proof using HD HK HKD. clear. intros H W. induction W as [|u v w x l [_ Ha] W IH]; [constructor|]. eapply walk_app; [eapply pg_so; eauto|exact IH]. Qed.

  (** ** one round *)
  Lemma round_total x st : Good n A x st -> SG x (fst st) -> x < n -> exists st', contract_node st x = Some st' /\ SG (S x) (fst st').
  Proof using HD HK HKD.
    intros G HS Hx. destruct st as [nodes d]. pose proof G as [H R1 R2 HSp]. cbn [fst snd] in *. destruct (nth_error_lt nodes x) as (node & En). { rewrite (pg_len _ _ _ _ H). auto. }
    destruct (rm_total x nodes node H HS Hx En) as (nodes1 & Er & S1). destruct (rm_spec n A x nodes node nodes1 H Hx En Er) as (P1 & Q1 & D1 & _).
    unfold contract_node, remove_lowest. rewrite En. cbn [bind]. rewrite Er. cbn [bind].
    pose proof (nth_error_nth nodes x ([], []) En) as Nn.
    assert (ES : snd node = Ig nodes x) by (unfold Ig; rewrite Nn; auto). assert (EF : fst node = Og nodes x) by (unfold Og; rewrite Nn; auto). rewrite ES, EF.
    assert (HA : forall a, In a (Ig nodes x) -> S x <= ca_node a < n /\ carc_of (Ig nodes) x (ca_node a) (ca_weight a)). { intros a Ha. destruct (pg_hi _ _ _ _ H x a (le_n _) Ha). split; [lia|]. exists a; auto. }
    assert (HB : forall b, In b (Og nodes x) -> S x <= ca_node b < n /\ carc_of (Og nodes) x (ca_node b) (ca_weight b)). { intros a Ha. destruct (pg_ho _ _ _ _ H x a (le_n _) Ha). split; [lia|]. exists a; auto. }
    assert (L0 : Later n A (S x) nodes1 (nodes1, d)). { split; cbn [fst snd]; auto. apply (covers_refl A). }
    set (I := fun st => Later n A (S x) nodes1 st /\ SG (S x) (fst st)).
    assert (ST : forall a b st, In a (Ig nodes x) -> In b (Og nodes x) -> I st -> exists st', try_shortcut (S x) a b st = Some st' /\ I st').
    { intros a b st Ia Ib [L1 S2]. destruct (HA a Ia) as [Ha Ca]. destruct (HB b Ib) as [Hb Cb].
      assert (L1' : Later n A (S x) (fst st) st). { destruct L1. split; auto. apply (covers_refl A). }
      destruct (try_total x a b st L1' S2 Ha Hb) as (st' & E & S').
      - exact (in_small x nodes _ _ _ H HS Ca).
      - exact (out_small x nodes _ _ _ H HS Cb).
      - intros l W. destruct (HSp _ _ _ W) as (p & q & a1 & b1 & c & W1 & W2 & W3 & L).
        inversion W1 as [|? ? ? ? ? [X _]]; subst; [|lia]. inversion W2 as [|? ? ? ? ? [X _]]; subst; [|lia].
        destruct (avoid_or_pass x nodes nodes1 _ _ _ H D1 W3) as [W'|(l1 & l2 & W4 & W5 & ->)]; [lia..| |].
        + left. destruct (covers_walk (S x) nodes1 (fst st) _ _ _ (la_cov _ _ _ _ _ L1) W') as (l' & W'' & L'). exists l'. split; auto. lia.
        + right. apply (walk_FOg _ _ _ _ _ H) in W4. apply (walk_FOg _ _ _ _ _ H) in W5. pose proof (sg_wi _ _ HS _ _ _ _ Ca W4). pose proof (sg_wo _ _ HS _ _ _ _ Cb W5). nia.
      - exists st'. split; auto. split; auto. refine (Later_trans n A _ _ _ _ L1 _). exact (proj1 (try_ok n A x a b st st' L1' Ha Hb (pg_si _ _ _ _ H _ _ _ Ca) (pg_so _ _ _ _ H _ _ _ Cb) E)). }
    destruct (foldM_inv (fun st a => foldM (fun st b => try_shortcut (S x) a b st) (Og nodes x) st) (fun _ st => I st) (Ig nodes x) (nodes1, d)) as (st' & E & [_ S']).
    - split; auto.
    - intros pre a post s EQ Is. apply (foldM_inv (fun st b => try_shortcut (S x) a b st) (fun _ st => I st)); auto. intros pr b po s1 EQ2 Is1. apply ST; auto; [rewrite EQ|rewrite EQ2]; apply in_or_app; right; left; auto.
    - exists st'. auto.
  Qed.
  Lemma rounds_total k st : k <= n -> Good n A 0 st -> SG 0 (fst st) -> exists st', foldM contract_node (seq 0 k) st = Some st' /\ Good n A k st' /\ SG k (fst st').
  Proof using HD HK HKD.
    intros Hk G HS. destruct (foldM_inv contract_node (fun pre st => Good n A (length pre) st /\ SG (length pre) (fst st)) (seq 0 k) st) as (st' & E & X & Y).
    - auto.
    - intros pre x post s EQ (G1 & S1).
      assert (Ex : x = length pre). { assert (X : nth_error (seq 0 k) (length pre) = Some x) by (rewrite EQ, nth_error_app2, Nat.sub_diag by lia; auto). pose proof (nth_error_Some_lt _ _ _ X) as Lt. rewrite seq_length in Lt.
        rewrite (nth_error_nth' _ 0) in X by (rewrite seq_length; auto). rewrite seq_nth in X by auto. injection X as <-. auto. }
      assert (Hx : x < k). { assert (In x (seq 0 k)) as Hin by (rewrite EQ; apply in_or_app; right; left; auto). apply in_seq in Hin. lia. }
      rewrite <- Ex in *. destruct (round_total x s G1 S1 ltac:(lia)) as (s' & E & S'). exists s'. split; auto. rewrite app_length, <- Ex. cbn [length]. rewrite Nat.add_1_r. split; auto. eapply round_good; eauto. lia.
    - rewrite seq_length in *. eauto.
  Qed.
End Total.

Lemma cnt_NoDup ls : (forall y, cnt ls y <= 1) -> NoDup (map ca_node ls).
Proof.
  induction ls as [|a ls IH]; intros H; cbn [map]; constructor.
  - intros Hin. apply in_map_iff in Hin as (b & Eb & Hb). specialize (H (ca_node a)). rewrite cnt_cons, Nat.eqb_refl in H. assert (X : cnt ls (ca_node a) = 0) by lia. apply (proj1 (cnt_0 ls _) X b Hb Eb).
  - apply IH. intros y. specialize (H y). rewrite cnt_cons in H. lia.
Qed.
Lemma few_heads n ls : (forall y, cnt ls y <= 1) -> (forall a, In a ls -> ca_node a < n) -> length ls <= n.
Proof.
  intros H1 H2. rewrite <- (map_length ca_node), <- (seq_length n 0). apply NoDup_incl_length; [apply cnt_NoDup; auto|]. intros y Hy. apply in_map_iff in Hy as (a & <- & Ha). apply in_seq. specialize (H2 a Ha). lia.
Qed.
Lemma concat_len {B} (ls : list (list B)) m : (forall l, In l ls -> length l <= m) -> length (concat ls) <= length ls * m.
Proof. induction ls as [|l ls IH]; intros H; cbn; [lia|]. rewrite app_length. specialize (IH (fun x Hx => H x (or_intror Hx))). specialize (H l (or_introl eq_refl)). lia. Qed.

Section Ret.
  Variable adj : list (list (nat * N)).
  Variable g : fograph N.
  Variables order ranks : list nat.
  Variables K D : N.
  Let n := length adj.
  Hypothesis HV : valid_adj adj.
  Hypothesis Hg : from_adjacency_lists adj = Some g.
  Hypothesis HO : node_order n order ranks.
  Hypothesis HP : forall u v, u <> v -> length (filter (fun a => fst a =? v) (nth u adj [])) <= 1.
  Hypothesis HS : forall u v w l, u <> v -> adj_arc adj u v w -> walk (adj_arc adj) u v l -> (w <= K * l)%N.
  Hypothesis HD : forall u v l, walk (adj_arc adj) u v l -> exists l', walk (adj_arc adj) u v l' /\ (l' <= l)%N /\ (l' <= D)%N.
  Hypothesis HK : (1 <= K)%N.
  Hypothesis HKD : (K * D < INF)%N.
  Let A := rarc adj order.
  Let st0 := start adj order ranks.

  Lemma ord_neq x y : x < n -> y < n -> x <> y -> nth x order 0 <> nth y order 0.
  Proof. intros Hx Hy Ne E. destruct (ord_nth adj order ranks HO x Hx) as (_ & _ & E1). destruct (ord_nth adj order ranks HO y Hy) as (_ & _ & E2). rewrite E in E1. congruence. Qed.
  Lemma HDr u v l : walk A u v l -> exists l', walk A u v l' /\ (l' <= l)%N /\ (l' <= D)%N.
  Proof.
    intros W. destruct (Nat.lt_ge_cases u n) as [Hu|Hu].
    - assert (Hv : v < n). { clear - W Hu. induction W as [|a b c w l (_ & _ & X & _) W IH]; auto. }
      pose proof (rwalk_sound adj order u v l Hu W) as W'. destruct (HD _ _ _ W') as (l1 & W1 & L1 & L2).
      destruct (ord_nth adj order ranks HO u Hu) as (_ & Ou & Ru). destruct (ord_nth adj order ranks HO v Hv) as (_ & Ov & Rv).
      destruct (rwalk_complete adj order ranks HV HO _ _ _ W1 Ou) as (l2 & W2 & L3). rewrite Ru, Rv in W2. exists l2. split; auto. lia.
    - inversion W as [|a b c w l' (_ & X & _)]; subst; [|unfold n in Hu; lia]. exists 0%N. split; [constructor|lia].
  Qed.
  Lemma start_SG : SG A K 0 st0.
  Proof.
    assert (WO : forall u v w l, A u v w -> walk A u v l -> (w <= K * l)%N).
    { intros u v w l (X1 & X2 & X3 & X4) W. apply (HS (nth u order 0) (nth v order 0) w l); auto. { apply ord_neq; auto. } apply (rwalk_sound adj order u v l X2 W). }
    split.
    - intros u v w _ _. unfold st0. rewrite (start_out adj order ranks HV HO), (start_in adj order ranks HV HO). reflexivity.
    - intros u v. destruct (cnt (Og st0 u) v) as [|k] eqn:E; [lia|]. destruct (cnt_has (Og st0 u) v) as (x & Hx); [lia|]. change (carc_of (Og st0) u v x) in Hx. apply (start_out adj order ranks HV HO) in Hx as (X1 & X2 & X3 & _).
      rewrite <- E. unfold Og, st0. rewrite start_nth. fold n. rewrite (proj2 (Nat.ltb_lt u n)) by auto. cbn [fst]. rewrite (ini_cnt adj order ranks HO); auto; [|apply adj_heads; auto]. apply HP. apply ord_neq; auto.
    - intros u v. destruct (cnt (Ig st0 u) v) as [|k] eqn:E; [lia|]. destruct (cnt_has (Ig st0 u) v) as (x & Hx); [lia|]. change (carc_of (Ig st0) u v x) in Hx. apply (start_in adj order ranks HV HO) in Hx as (X1 & X2 & X3 & _).
      rewrite <- E. unfold Ig, st0. rewrite start_nth. fold n. rewrite (proj2 (Nat.ltb_lt u n)) by auto. cbn [snd]. rewrite (ini_cnt adj order ranks HO); auto; [|apply inc_heads; auto].
      destruct (ord_nth adj order ranks HO v X2) as (_ & Ov & _). rewrite incoming_count by auto. apply HP. apply ord_neq; auto.
    - intros u v w l X. apply (start_out adj order ranks HV HO) in X. apply WO; auto.
    - intros u v w l X. apply (start_in adj order ranks HV HO) in X. apply WO; auto.
  Qed.

  Lemma partially_total : exists nodes d, contract_partially st0 (length st0) = Some nodes /\ Good n A n (nodes, d) /\ SG A K n nodes.
  Proof.
    unfold contract_partially. rewrite Nat.min_id, Nat.ltb_irrefl. pose proof (start_len adj order ranks) as HL. fold st0 n in HL. rewrite HL.
    destruct (rounds_total n A K D HDr HK HKD n (st0, (dij_new n tt, dij_new n tt)) (le_n _)) as ([nodes d] & E & G & S').
    - apply start_good; auto; apply new_Ready.
    - apply start_SG.
    - rewrite E. cbn [bind]. exists nodes, d. auto.
  Qed.

  Lemma from_adj_ok (ls : list (list (nat * N))) : fits_u32 ls -> exists h, from_adjacency_lists ls = Some h.
  Proof. clear. intros [F1 F2]. destruct (from_adjacency_ok _ F1 F2) as (h & E & _). eauto. Qed.

  (** the arcs of the result and their number *)
  Definition few_result (nodes : list cnode) : Prop := (N.of_nat (length (concat (map fst nodes))) < 4294967295)%N /\ (N.of_nat (length (concat (map snd nodes))) < 4294967295)%N.
  Lemma into_total nodes : length nodes = n -> few_result nodes -> exists c, into_graphs nodes = Some c.
  Proof.
    unfold few_result, cnode in *. intros HL [F1 F2]. pose proof (from_adj_fits _ _ Hg) as [G1 _]. unfold into_graphs. generalize (map snd (concat (map fst nodes)), map snd (concat (map snd nodes))).
    assert (X1 : exists f, @from_adjacency_lists N (map (fun nd => map fst (fst nd)) nodes) = Some f).
    { apply from_adj_ok. split; [rewrite map_length; exact (eq_ind_r (fun k => (N.of_nat k + 1 < 4294967295)%N) G1 HL)|]. rewrite <- (map_map fst (map fst)), <- concat_map, map_length. exact F1. }
    assert (X2 : exists f, @from_adjacency_lists N (map (fun nd => map fst (snd nd)) nodes) = Some f).
    { apply from_adj_ok. split; [rewrite map_length; exact (eq_ind_r (fun k => (N.of_nat k + 1 < 4294967295)%N) G1 HL)|]. rewrite <- (map_map snd (map fst)), <- concat_map, map_length. exact F2. }
    destruct X1 as (f & E1), X2 as (b & E2). revert E1 E2. generalize (@from_adjacency_lists N (map (fun nd => map fst (fst nd)) nodes)) (@from_adjacency_lists N (map (fun nd => map fst (snd nd)) nodes)).
    intros o1 o2 -> -> pp. cbn [bind]. eauto.
  Qed.
  Lemma into_light nodes d c : Good n A n (nodes, d) -> SG A K n nodes -> into_graphs nodes = Some c -> Forall (fun w => (w <= INF)%N) (weight (chi_fw c) ++ weight (chi_bw c)).
  Proof.
    intros G S E. pose proof (gd_pg _ _ _ _ G) as H. cbn [fst] in H. destruct (into_inv _ _ E) as [E1 E2]. apply from_adj_weight in E1, E2. rewrite E1, E2. apply Forall_app. split; apply Forall_forall; intros w Hw.
    - rewrite <- concat_map, map_map in Hw. apply in_map_iff in Hw as (a & Ea & Ha). apply in_concat in Ha as (l & Hl & Ha). destruct (In_nth _ _ [] Hl) as (u & Hu & Eu). rewrite nth_out in Eu.
      assert (X : carc_of (Og nodes) u (ca_node a) w). { exists a. rewrite Eu. split; auto. } pose proof (out_small n A K D HDr HK HKD n nodes _ _ _ H S X). lia.
    - rewrite <- concat_map, map_map in Hw. apply in_map_iff in Hw as (a & Ea & Ha). apply in_concat in Ha as (l & Hl & Ha). destruct (In_nth _ _ [] Hl) as (u & Hu & Eu). rewrite nth_in in Eu.
      assert (X : carc_of (Ig nodes) u (ca_node a) w). { exists a. rewrite Eu. split; auto. } pose proof (in_small n A K D HDr HK HKD n nodes _ _ _ H S X). lia.
  Qed.
  Lemma small_few nodes d : Good n A n (nodes, d) -> SG A K n nodes -> (N.of_nat n * N.of_nat n < 4294967295)%N -> few_result nodes.
  Proof.
    intros G S Hn. pose proof (gd_pg _ _ _ _ G) as H. cbn [fst] in H. pose proof (pg_len _ _ _ _ H) as HL.
    assert (X1 : length (concat (map fst nodes)) <= n * n).
    { etransitivity; [apply (concat_len _ n)|rewrite map_length; exact (eq_ind_r (fun k => k * n <= n * n) (le_n _) HL)]. intros l Hl. destruct (In_nth _ _ [] Hl) as (u & Hu & Eu). rewrite nth_out in Eu. rewrite map_length in Hu. assert (Hu' : u < n) by exact (eq_ind _ (fun k => u < k) Hu _ HL). rewrite <- Eu. apply few_heads; [apply (sg_oo _ _ _ _ S)|].
      intros a Ha. apply (pg_lo _ _ _ _ H u a Hu' Ha). }
    assert (X2 : length (concat (map snd nodes)) <= n * n).
    { etransitivity; [apply (concat_len _ n)|rewrite map_length; exact (eq_ind_r (fun k => k * n <= n * n) (le_n _) HL)]. intros l Hl. destruct (In_nth _ _ [] Hl) as (u & Hu & Eu). rewrite nth_in in Eu. rewrite map_length in Hu. assert (Hu' : u < n) by exact (eq_ind _ (fun k => u < k) Hu _ HL). rewrite <- Eu. apply few_heads; [apply (sg_oi _ _ _ _ S)|].
      intros a Ha. apply (pg_li _ _ _ _ H u a Hu' Ha). }
    split; lia.
  Qed.

  Lemma contract_of nodes c : contract_partially st0 (length st0) = Some nodes -> into_graphs nodes = Some c -> ch_contract g order ranks = Some c.
  Proof.
    intros E1 E2. destruct (cg_new_ok adj g order ranks HV Hg HO) as [E0 _]. fold st0 in E0. unfold ch_contract. rewrite E0. cbn [bind]. rewrite E1. cbn [bind]. exact E2.
  Qed.
  Lemma contract_total : exists nodes, contract_partially st0 (length st0) = Some nodes /\ length nodes = n /\
    (few_result nodes -> exists c, ch_contract g order ranks = Some c /\ Forall (fun w => (w <= INF)%N) (weight (chi_fw c) ++ weight (chi_bw c))) /\
    ((N.of_nat n * N.of_nat n < 4294967295)%N -> few_result nodes).
  Proof.
    destruct partially_total as (nodes & d & E & G & S). exists nodes. split; auto. pose proof (pg_len _ _ _ _ (gd_pg _ _ _ _ G)) as HL. cbn [fst] in HL. split; auto. split.
    - intros F. destruct (into_total nodes HL F) as (c & E2). exists c. split; [eapply contract_of; eauto|]. eapply into_light; eauto.
    - intros Hn. eapply small_few; eauto.
  Qed.
End Ret.
