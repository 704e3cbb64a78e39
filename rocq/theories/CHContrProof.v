(** Contraction with witness search: the invariant of the remaining graph and what is preserved in every round. *)
From Verif Require Import Base SpecGraph SpecCCH SpecCH IndexHeap TsVec TsVecProof Graph Dijkstra LoopProof DijServer Bidir DijkstraRef CHPrep CHPrepProof.

Definition Og (nodes : list cnode) (u : nat) : list carc := fst (nth u nodes ([], [])).
Definition Ig (nodes : list cnode) (u : nat) : list carc := snd (nth u nodes ([], [])).
Definition carc_of (ls : nat -> list carc) (u v : nat) (w : N) : Prop := exists a, In a (ls u) /\ ca_node a = v /\ ca_weight a = w.
Definition cnt (ls : list carc) (y : nat) : nat := length (filter (fun a => ca_node a =? y) ls).

Lemma cnt_perm l l' y : Permutation l l' -> cnt l y = cnt l' y.
Proof. unfold cnt. induction 1; cbn; auto; repeat match goal with |- context [if ?b then _ else _] => destruct b end; cbn; congruence. Qed.
Lemma cnt_cons a l y : cnt (a :: l) y = (if ca_node a =? y then 1 else 0) + cnt l y.
Proof. unfold cnt. cbn. destruct (ca_node a =? y); auto. Qed.
Lemma cnt_app l l' y : cnt (l ++ l') y = cnt l y + cnt l' y.
Proof. unfold cnt. rewrite filter_app, app_length. auto. Qed.
Lemma cnt_0 l y : cnt l y = 0 <-> forall a, In a l -> ca_node a <> y.
Proof.
  induction l as [|a l IH]. { split; auto. } rewrite cnt_cons. split.
  - intros E b [<-|Hb]. { destruct (Nat.eqb_spec (ca_node a) y); auto. lia. } apply IH; auto. lia.
  - intros H. rewrite (proj2 IH) by (intros; apply H; right; auto). destruct (Nat.eqb_spec (ca_node a) y) as [E|]; auto. destruct (H a); cbn; auto.
Qed.

Lemma ins_spec v w o : forall ls r res, ins_or_dec ls v w o = (r, res) ->
  (forall a, In a r -> In a ls \/ ca_node a = v /\ ca_weight a = w) /\
  (forall a, In a ls -> exists a', In a' r /\ ca_node a' = ca_node a /\ (ca_weight a' <= ca_weight a)%N) /\
  (exists a', In a' r /\ ca_node a' = v /\ (ca_weight a' <= w)%N) /\
  (forall y, cnt r y = cnt ls y + if (y =? v) && (cnt ls v =? 0) then 1 else 0).
Proof.
  induction ls as [|b ls IH]; intros r res E; cbn [ins_or_dec] in E.
  - injection E as <- <-. split. { intros a [<-|[]]. auto. } split. { intros a []. } split. { exists (v, w, o). cbn. split; auto. split; auto. unfold ca_weight; cbn; lia. }
    intros y. rewrite cnt_cons. change (cnt [] y) with 0. change (cnt [] v) with 0. unfold ca_node; cbn. rewrite (Nat.eqb_sym y v). destruct (v =? y); auto.
  - destruct (Nat.eqb_spec v (ca_node b)) as [Ev|Nv].
    + assert (C : cnt (b :: ls) v <> 0). { rewrite cnt_cons, Ev, Nat.eqb_refl. lia. }
      destruct (N.ltb_spec w (ca_weight b)); injection E as <- <-.
      * split. { intros a [<-|Ha]; [right; split; auto|left; right; auto]. } split.
        { intros a [<-|Ha]; [|exists a; split; [right; auto|split; [auto|lia]]]. exists (ca_node b, w, o). split; [left; auto|]. split; auto. unfold ca_weight at 1; cbn; lia. }
        split. { exists (ca_node b, w, o). split; [left; auto|]. split; auto. unfold ca_weight; cbn; lia. }
        intros y. replace (cnt (b :: ls) v =? 0) with false by lia. rewrite andb_false_r, Nat.add_0_r, !cnt_cons. reflexivity.
      * split; [auto|]. split. { intros a Ha. exists a. split; auto. split; auto. lia. } split. { exists b. split; [left; auto|]. split; auto. }
        intros y. replace (cnt (b :: ls) v =? 0) with false by lia. rewrite andb_false_r, Nat.add_0_r. auto.
    + destruct (ins_or_dec ls v w o) as [r1 x1] eqn:E1. injection E as <- <-. destruct (IH r1 x1 eq_refl) as (H1 & H2 & (a3 & H3 & H3') & H4).
      split. { intros a [<-|Ha]; [left; left; auto|]. destruct (H1 a Ha) as [X|X]; [left; right; auto|auto]. } split.
      { intros a [<-|Ha]. { exists b. split; [left; auto|]. split; auto. lia. } destruct (H2 a Ha) as (a' & A1 & A2). exists a'. split; [right; auto|auto]. }
      split. { exists a3. split; [right; auto|auto]. }
      intros y. rewrite !cnt_cons, H4. replace (ca_node b =? v) with false by lia. cbn [Nat.add]. lia.
Qed.

Lemma ca_pos_split v : forall ls p, ca_pos ls v = Some p -> exists l1 a l2, ls = l1 ++ a :: l2 /\ length l1 = p /\ ca_node a = v.
Proof.
  induction ls as [|b ls IH]; intros p E; cbn [ca_pos] in E; [discriminate|]. destruct (Nat.eqb_spec v (ca_node b)) as [->|Ne].
  - injection E as <-. exists [], b, ls. auto.
  - destruct (ca_pos ls v) as [q|]; cbn in E; [|discriminate]. injection E as <-. destruct (IH q eq_refl) as (l1 & a & l2 & -> & <- & Ha). exists (b :: l1), a, l2. auto.
Qed.
Lemma ca_remove_spec ls v r : ca_remove ls v = Some r -> exists a, ca_node a = v /\ Permutation ls (a :: r).
Proof.
  unfold ca_remove. destruct (ca_pos ls v) as [p|] eqn:E; cbn [bind]; [|discriminate]. intros [= <-]. destruct (ca_pos_split v ls p E) as (l1 & a & l2 & -> & <- & Ha). exists a. split; auto.
  unfold swap_remove. destruct (@exists_last _ (a :: l2)) as (l3 & z & E3); [discriminate|].
  assert (EE : l1 ++ a :: l2 = (l1 ++ l3) ++ [z]) by (rewrite E3, app_assoc; auto).
  rewrite EE. rewrite app_length. cbn [length]. replace (length (l1 ++ l3) + 1 - 1) with (length (l1 ++ l3)) by lia. rewrite nth_error_app2 by lia. rewrite Nat.sub_diag. cbn [nth_error].
  rewrite <- app_assoc, upd_app_r by lia. rewrite Nat.sub_diag. destruct l3 as [|b l3].
  - cbn [app upd]. injection E3 as -> _. rewrite removelast_last. rewrite <- Permutation_cons_append. auto.
  - cbn [app] in *. injection E3 as <- E3. cbn [upd]. replace (l1 ++ z :: l3 ++ [z]) with ((l1 ++ z :: l3) ++ [z]) by (rewrite <- app_assoc; auto). rewrite removelast_last.
    rewrite <- Permutation_middle. apply perm_skip. apply Permutation_app_head. symmetry. apply Permutation_cons_append.
Qed.

Lemma walk_last (arc : nat -> nat -> N -> Prop) u v l : walk arc u v l -> (u = v /\ l = 0%N) \/ exists r w l', walk arc u r l' /\ arc r v w /\ l = (l' + w)%N.
Proof.
  induction 1 as [u|u v t w l Ha W [[-> ->]|(r & w' & l' & W' & Ha' & ->)]]; auto; right.
  - exists u, w, 0%N. split; [constructor|]. split; auto. lia.
  - exists r, w', (w + l')%N. split; [econstructor; eauto|]. split; auto. lia.
Qed.

Section Inv.
  Variable n : nat.
  Variable A : nat -> nat -> N -> Prop.

  Record PG (t : nat) (nodes : list cnode) : Prop := {
    pg_len : length nodes = n;
    pg_ho : forall u a, t <= u -> In a (Og nodes u) -> t <= ca_node a < n /\ ca_node a <> u;
    pg_hi : forall u a, t <= u -> In a (Ig nodes u) -> t <= ca_node a < n /\ ca_node a <> u;
    pg_lo : forall u a, u < t -> In a (Og nodes u) -> u < ca_node a < n;
    pg_li : forall u a, u < t -> In a (Ig nodes u) -> u < ca_node a < n;
    pg_cnt : forall u v, t <= u -> t <= v -> cnt (Og nodes u) v = cnt (Ig nodes v) u;
    pg_c1 : forall u v w, t <= u -> t <= v -> carc_of (Og nodes) u v w -> exists w', carc_of (Ig nodes) v u w' /\ (w' <= w)%N;
    pg_c2 : forall u v w, t <= u -> t <= v -> carc_of (Ig nodes) v u w -> exists w', carc_of (Og nodes) u v w' /\ (w' <= w)%N;
    pg_so : forall u v w, carc_of (Og nodes) u v w -> walk A u v w;
    pg_si : forall u v w, carc_of (Ig nodes) v u w -> walk A u v w }.

  (** ** remove_edges_to_removed *)
  Section Rm.
    Variable t : nat.
    Lemma rm_outs l nodes nodes' : (forall a, In a l -> t < ca_node a) -> foldM (rm_out (S t)) l nodes = Some nodes' ->
      length nodes' = length nodes /\ (forall u, Ig nodes' u = Ig nodes u) /\ (forall u, u <= t -> Og nodes' u = Og nodes u) /\
      forall u, exists R, (forall a, In a R -> ca_node a = t) /\ length R = cnt l u /\ Permutation (Og nodes u) (R ++ Og nodes' u).
    Proof.
      intros Hl E. refine (foldM_pres0 (rm_out (S t)) (fun l nodes' => (length nodes' = length nodes /\ (forall u, Ig nodes' u = Ig nodes u) /\ (forall u, u <= t -> Og nodes' u = Og nodes u) /\
        forall u, exists R, (forall a, In a R -> ca_node a = t) /\ length R = cnt l u /\ Permutation (Og nodes u) (R ++ Og nodes' u))) l nodes nodes' _ _ E).
      - intros p a q s s' EQ (H1 & H2 & H3 & H4) Es. unfold rm_out, pn_at in Es. destruct (guard _) as [[]|]; cbn [bind] in Es; [|discriminate].
        destruct (nth_error s (ca_node a)) as [[o i]|] eqn:En; cbn [bind] in Es; [|discriminate]. destruct (ca_remove o _) as [o'|] eqn:Er; cbn [bind] in Es; [|discriminate].
        pose proof (nth_error_Some_lt _ _ _ En) as Lt. rewrite set_at_lt in Es by auto. injection Es as <-. cbn [Nat.sub] in Er. rewrite Nat.sub_0_r in Er.
        destruct (ca_remove_spec _ _ _ Er) as (b & Hb & Pb). assert (Ha : t < ca_node a) by (apply Hl; rewrite EQ; apply in_or_app; right; left; auto).
        pose proof (nth_error_nth s (ca_node a) ([], []) En) as Nn.
        split; [rewrite upd_length; auto|]. split. { intros u. rewrite <- H2. unfold Ig. rewrite nth_upd. destruct (Nat.eqb_spec (ca_node a) u) as [<-|]; cbn [andb]; auto. destruct (_ <? _); auto. rewrite Nn. auto. }
        split. { intros u Hu. rewrite <- H3 by auto. unfold Og. rewrite nth_upd_neq by lia. auto. }
        intros u. destruct (H4 u) as (R & R1 & R2 & R3). unfold Og at 2. destruct (Nat.eq_dec (ca_node a) u) as [<-|Ne].
        + exists (b :: R). split. { intros c [<-|Hc]; auto. } split. { rewrite cnt_app, cnt_cons, Nat.eqb_refl. cbn. change (cnt [] _) with 0. lia. }
          rewrite nth_upd_eq by auto. cbn [fst]. rewrite R3. unfold Og. rewrite Nn. cbn [fst]. rewrite Pb. rewrite <- Permutation_middle. cbn. auto.
        + exists R. split; auto. split. { rewrite cnt_app, cnt_cons. replace (ca_node a =? u) with false by lia. cbn. change (cnt [] _) with 0. lia. }
          rewrite nth_upd_neq by auto. auto.
      - split; auto. split; auto. split; auto. intros u. exists []. split. { intros a []. } split; auto.
    Qed.
    Lemma rm_ins l nodes nodes' : (forall a, In a l -> t < ca_node a) -> foldM (rm_in (S t)) l nodes = Some nodes' ->
      length nodes' = length nodes /\ (forall u, Og nodes' u = Og nodes u) /\ (forall u, u <= t -> Ig nodes' u = Ig nodes u) /\
      forall u, exists R, (forall a, In a R -> ca_node a = t) /\ length R = cnt l u /\ Permutation (Ig nodes u) (R ++ Ig nodes' u).
    Proof.
      intros Hl E. refine (foldM_pres0 (rm_in (S t)) (fun l nodes' => (length nodes' = length nodes /\ (forall u, Og nodes' u = Og nodes u) /\ (forall u, u <= t -> Ig nodes' u = Ig nodes u) /\
        forall u, exists R, (forall a, In a R -> ca_node a = t) /\ length R = cnt l u /\ Permutation (Ig nodes u) (R ++ Ig nodes' u))) l nodes nodes' _ _ E).
      - intros p a q s s' EQ (H1 & H2 & H3 & H4) Es. unfold rm_in, pn_at in Es. destruct (guard _) as [[]|]; cbn [bind] in Es; [|discriminate].
        destruct (nth_error s (ca_node a)) as [[o i]|] eqn:En; cbn [bind] in Es; [|discriminate]. destruct (ca_remove i _) as [o'|] eqn:Er; cbn [bind] in Es; [|discriminate].
        pose proof (nth_error_Some_lt _ _ _ En) as Lt. rewrite set_at_lt in Es by auto. injection Es as <-. cbn [Nat.sub] in Er. rewrite Nat.sub_0_r in Er.
        destruct (ca_remove_spec _ _ _ Er) as (b & Hb & Pb). assert (Ha : t < ca_node a) by (apply Hl; rewrite EQ; apply in_or_app; right; left; auto).
        pose proof (nth_error_nth s (ca_node a) ([], []) En) as Nn.
        split; [rewrite upd_length; auto|]. split. { intros u. rewrite <- H2. unfold Og. rewrite nth_upd. destruct (Nat.eqb_spec (ca_node a) u) as [<-|]; cbn [andb]; auto. destruct (_ <? _); auto. rewrite Nn. auto. }
        split. { intros u Hu. rewrite <- H3 by auto. unfold Ig. rewrite nth_upd_neq by lia. auto. }
        intros u. destruct (H4 u) as (R & R1 & R2 & R3). unfold Ig at 2. destruct (Nat.eq_dec (ca_node a) u) as [<-|Ne].
        + exists (b :: R). split. { intros c [<-|Hc]; auto. } split. { rewrite cnt_app, cnt_cons, Nat.eqb_refl. cbn. change (cnt [] _) with 0. lia. }
          rewrite nth_upd_eq by auto. cbn [snd]. rewrite R3. unfold Ig. rewrite Nn. cbn [snd]. rewrite Pb. rewrite <- Permutation_middle. cbn. auto.
        + exists R. split; auto. split. { rewrite cnt_app, cnt_cons. replace (ca_node a =? u) with false by lia. cbn. change (cnt [] _) with 0. lia. }
          rewrite nth_upd_neq by auto. auto.
      - split; auto. split; auto. split; auto. intros u. exists []. split. { intros a []. } split; auto.
    Qed.
    (** lists that lose exactly the arcs to [t] *)
    Definition drops (l l' : list carc) : Prop := cnt l' t = 0 /\ (forall y, y <> t -> cnt l' y = cnt l y) /\ (forall a, In a l' <-> In a l /\ ca_node a <> t).
    Lemma drops_of l l' R : (forall a, In a R -> ca_node a = t) -> length R = cnt l t -> Permutation l (R ++ l') -> drops l l'.
    Proof.
      intros HR L P. assert (CR : cnt R t = length R). { clear - HR. induction R as [|a R IH]; auto. rewrite cnt_cons, IH by (intros; apply HR; right; auto). rewrite (HR a) by (left; auto). rewrite Nat.eqb_refl. auto. }
      assert (C0 : cnt l' t = 0). { rewrite (cnt_perm _ _ t P), cnt_app in L. lia. }
      split; auto. split.
      - intros y Hy. rewrite (cnt_perm _ _ y P), cnt_app. replace (cnt R y) with 0; auto. symmetry. apply cnt_0. intros a Ha E. rewrite (HR a Ha) in E. auto.
      - intros a. split.
        + intros Ha. split. { apply (Permutation_in _ (Permutation_sym P)). apply in_or_app; auto. } apply (proj1 (cnt_0 l' t) C0 a Ha).
        + intros [Ha Na]. apply (Permutation_in _ P) in Ha. apply in_app_or in Ha as [Ha|Ha]; auto. destruct Na; auto.
    Qed.

    Lemma rm_spec nodes node nodes' : PG t nodes -> t < n -> nth_error nodes t = Some node -> rm_edges (S t) nodes node = Some nodes' ->
      PG (S t) nodes' /\ (forall u, u <= t -> nth u nodes' ([], []) = nth u nodes ([], [])) /\
      (forall u, t < u -> drops (Og nodes u) (Og nodes' u)) /\ (forall u, t < u -> drops (Ig nodes u) (Ig nodes' u)).
    Proof.
      intros H Ht En E. unfold rm_edges in E. destruct (foldM (rm_out (S t)) (snd node) nodes) as [n1|] eqn:E1; cbn [bind] in E; [|discriminate].
      pose proof (nth_error_nth nodes t ([], []) En) as Nn.
      assert (ES : snd node = Ig nodes t) by (unfold Ig; rewrite Nn; auto). assert (EF : fst node = Og nodes t) by (unfold Og; rewrite Nn; auto). rewrite ES in E1. rewrite EF in E.
      apply rm_outs in E1 as (L1 & I1 & O1 & R1). 2:{ intros a Ha. destruct (pg_hi _ _ H t a (le_n _) Ha). lia. }
      apply rm_ins in E as (L2 & I2 & O2 & R2). 2:{ intros a Ha. destruct (pg_ho _ _ H t a (le_n _) Ha). lia. }
      assert (DO : forall u, t < u -> drops (Og nodes u) (Og nodes' u)). { intros u Hu. destruct (R1 u) as (R & Q1 & Q2 & Q3). rewrite I2. apply (drops_of _ _ R Q1); auto. rewrite Q2. symmetry. apply (pg_cnt _ _ H); lia. }
      assert (DI : forall u, t < u -> drops (Ig nodes u) (Ig nodes' u)). { intros u Hu. destruct (R2 u) as (R & Q1 & Q2 & Q3). rewrite I1 in Q3. apply (drops_of _ _ R Q1); auto. rewrite Q2. apply (pg_cnt _ _ H); lia. }
      assert (FO : forall u, u <= t -> Og nodes' u = Og nodes u). { intros u Hu. rewrite I2. auto. }
      assert (FI : forall u, u <= t -> Ig nodes' u = Ig nodes u). { intros u Hu. rewrite O2 by auto. auto. }
      assert (SO : forall u a, In a (Og nodes' u) -> In a (Og nodes u)). { intros u a Ha. destruct (le_lt_dec u t); [rewrite <- FO; auto|]. apply (DO u); auto. }
      assert (SI : forall u a, In a (Ig nodes' u) -> In a (Ig nodes u)). { intros u a Ha. destruct (le_lt_dec u t); [rewrite <- FI; auto|]. apply (DI u); auto. }
      split; [|split; [|auto]]. 2:{ intros u Hu. pose proof (FO u Hu) as X. pose proof (FI u Hu) as Y. unfold Og, Ig in X, Y. destruct (nth u nodes' _), (nth u nodes _). cbn in X, Y. congruence. }
      split.
      - rewrite L2, L1. apply (pg_len _ _ H).
      - intros u a Hu Ha. apply (DO u) in Ha as [Ha Na]; [|lia]. destruct (pg_ho _ _ H u a ltac:(lia) Ha). lia.
      - intros u a Hu Ha. apply (DI u) in Ha as [Ha Na]; [|lia]. destruct (pg_hi _ _ H u a ltac:(lia) Ha). lia.
      - intros u a Hu Ha. apply SO in Ha. destruct (Nat.eq_dec u t) as [->|]; [destruct (pg_ho _ _ H t a (le_n _) Ha); lia|]. apply (pg_lo _ _ H); auto; lia.
      - intros u a Hu Ha. apply SI in Ha. destruct (Nat.eq_dec u t) as [->|]; [destruct (pg_hi _ _ H t a (le_n _) Ha); lia|]. apply (pg_li _ _ H); auto; lia.
      - intros u v Hu Hv. destruct (DO u Hu) as (_ & -> & _); [|lia]. destruct (DI v Hv) as (_ & -> & _); [|lia]. apply (pg_cnt _ _ H); lia.
      - intros u v w Hu Hv (a & Ha & Ea & Ew). destruct (pg_c1 _ _ H u v w) as (w' & (a' & Ha' & Ea' & Ew') & L); [lia..|exists a; auto|]. exists w'. split; auto. exists a'. split; auto. apply (DI v); [lia|]. split; auto. lia.
      - intros u v w Hu Hv (a & Ha & Ea & Ew). destruct (pg_c2 _ _ H u v w) as (w' & (a' & Ha' & Ea' & Ew') & L); [lia..|exists a; auto|]. exists w'. split; auto. exists a'. split; auto. apply (DO u); [lia|]. split; auto. lia.
      - intros u v w (a & Ha & Ea). apply (pg_so _ _ H). exists a; auto.
      - intros u v w (a & Ha & Ea). apply (pg_si _ _ H). exists a; auto.
    Qed.
  End Rm.

  (** ** insert_or_decrease *)
  Definition covers (nodes nodes' : list cnode) : Prop := forall u v w, carc_of (Og nodes) u v w -> exists w', carc_of (Og nodes') u v w' /\ (w' <= w)%N.
  Lemma ins_ok off nodes p z w o nodes' : PG off nodes -> off <= p < n -> off <= z < n -> p <> z -> walk A p z w -> pn_insert off nodes p z w o = Some nodes' ->
    PG off nodes' /\ (forall u, u < off -> nth u nodes' ([], []) = nth u nodes ([], [])) /\ covers nodes nodes' /\ exists w', carc_of (Og nodes') p z w' /\ (w' <= w)%N.
  Proof.
    intros H Hp Hz Npz W E. unfold pn_insert, pn_at in E. rewrite (proj2 (Nat.leb_le off p)), (proj2 (Nat.leb_le off z)) in E by lia. cbn [guard bind] in E.
    pose proof (pg_len _ _ H) as HL. destruct (nth_error nodes p) as [[op ip]|] eqn:E1; cbn [bind] in E; [|discriminate]. destruct (ins_or_dec op z w o) as [op' r1] eqn:I1.
    rewrite set_at_lt in E by lia. cbn [bind] in E. rewrite nth_error_upd_neq in E by auto. destruct (nth_error nodes z) as [[oz iz]|] eqn:E2; cbn [bind] in E; [|discriminate]. destruct (ins_or_dec iz p w o) as [iz' r2] eqn:I2.
    rewrite set_at_lt in E by (rewrite upd_length; lia). cbn [bind] in E. destruct (guard _) as [[]|]; cbn [bind] in E; [|discriminate]. injection E as <-.
    set (nodes' := upd (upd nodes p (op', ip)) z (oz, iz')).
    pose proof (nth_error_nth nodes p ([], []) E1) as Np. pose proof (nth_error_nth nodes z ([], []) E2) as Nz.
    assert (OO : forall u, Og nodes' u = if u =? p then op' else Og nodes u).
    { intros u. unfold Og, nodes'. destruct (Nat.eqb_spec u p) as [->|]. { rewrite nth_upd_neq by auto. rewrite nth_upd_eq by lia. auto. }
      destruct (Nat.eq_dec u z) as [->|]. { rewrite nth_upd_eq by (rewrite upd_length; lia). rewrite Nz. auto. } rewrite !nth_upd_neq by auto. auto. }
    assert (II : forall u, Ig nodes' u = if u =? z then iz' else Ig nodes u).
    { intros u. unfold Ig, nodes'. destruct (Nat.eqb_spec u z) as [->|]. { rewrite nth_upd_eq by (rewrite upd_length; lia). auto. } rewrite nth_upd_neq by auto.
      destruct (Nat.eq_dec u p) as [->|]. { rewrite nth_upd_eq by lia. rewrite Np. auto. } rewrite !nth_upd_neq by auto. auto. }
    assert (OP : Og nodes p = op) by (unfold Og; rewrite Np; auto). assert (IZ : Ig nodes z = iz) by (unfold Ig; rewrite Nz; auto).
    destruct (ins_spec z w o _ _ _ I1) as (A1 & A2 & A3 & A4). destruct (ins_spec p w o _ _ _ I2) as (B1 & B2 & B3 & B4).
    assert (NO : forall u a, In a (Og nodes' u) -> In a (Og nodes u) \/ u = p /\ ca_node a = z /\ ca_weight a = w).
    { intros u a. rewrite OO. destruct (Nat.eqb_spec u p) as [->|]; auto. intros Ha. rewrite OP. destruct (A1 a Ha) as [X|[X Y]]; auto. }
    assert (NI : forall u a, In a (Ig nodes' u) -> In a (Ig nodes u) \/ u = z /\ ca_node a = p /\ ca_weight a = w).
    { intros u a. rewrite II. destruct (Nat.eqb_spec u z) as [->|]; auto. intros Ha. rewrite IZ. destruct (B1 a Ha) as [X|[X Y]]; auto. }
    assert (CO : covers nodes nodes').
    { intros u v x (a & Ha & Ea & Ew). destruct (Nat.eq_dec u p) as [->|Ne].
      - rewrite OP in Ha. destruct (A2 a Ha) as (a' & Q1 & Q2 & Q3). exists (ca_weight a'). split; [|lia]. exists a'. rewrite OO, Nat.eqb_refl. split; auto. split; auto. lia.
      - exists x. split; [|lia]. exists a. rewrite OO. replace (u =? p) with false by lia. auto. }
    assert (CI : forall u v x, carc_of (Ig nodes) u v x -> exists w', carc_of (Ig nodes') u v w' /\ (w' <= x)%N).
    { intros u v x (a & Ha & Ea & Ew). destruct (Nat.eq_dec u z) as [->|Ne].
      - rewrite IZ in Ha. destruct (B2 a Ha) as (a' & Q1 & Q2 & Q3). exists (ca_weight a'). split; [|lia]. exists a'. rewrite II, Nat.eqb_refl. split; auto. split; auto. lia.
      - exists x. split; [|lia]. exists a. rewrite II. replace (u =? z) with false by lia. auto. }
    assert (XO : exists w', carc_of (Og nodes') p z w' /\ (w' <= w)%N). { destruct A3 as (a & Q1 & Q2 & Q3). exists (ca_weight a). split; auto. exists a. rewrite OO, Nat.eqb_refl. auto. }
    assert (XI : exists w', carc_of (Ig nodes') z p w' /\ (w' <= w)%N). { destruct B3 as (a & Q1 & Q2 & Q3). exists (ca_weight a). split; auto. exists a. rewrite II, Nat.eqb_refl. auto. }
    split; [|split; [|split; auto]]. 2:{ intros u Hu. unfold nodes'. rewrite !nth_upd_neq by lia. auto. }
    split.
    - unfold nodes'. rewrite !upd_length. auto.
    - intros u a Hu Ha. destruct (NO u a Ha) as [X|(-> & -> & _)]; [apply (pg_ho _ _ H); auto|]. split; lia.
    - intros u a Hu Ha. destruct (NI u a Ha) as [X|(-> & -> & _)]; [apply (pg_hi _ _ H); auto|]. split; lia.
    - intros u a Hu Ha. destruct (NO u a Ha) as [X|(-> & _)]; [apply (pg_lo _ _ H); auto|lia].
    - intros u a Hu Ha. destruct (NI u a Ha) as [X|(-> & _)]; [apply (pg_li _ _ H); auto|lia].
    - intros u v Hu Hv. rewrite OO, II. pose proof (pg_cnt _ _ H u v Hu Hv) as C. pose proof (pg_cnt _ _ H p z ltac:(lia) ltac:(lia)) as C'. rewrite OP, IZ in C'.
      destruct (Nat.eqb_spec u p) as [->|Nu], (Nat.eqb_spec v z) as [->|Nv]; auto.
      + rewrite A4, B4, !Nat.eqb_refl. cbn [andb]. rewrite C'. auto.
      + rewrite A4, <- C, OP. replace (v =? z) with false by lia. cbn [andb]. lia.
      + rewrite B4, C, IZ. replace (u =? p) with false by lia. cbn [andb]. lia.
    - intros u v x Hu Hv (a & Ha & Ea & Ew). destruct (NO u a Ha) as [X|(-> & E1' & E2')].
      + destruct (pg_c1 _ _ H u v x Hu Hv) as (w' & X1 & X2); [exists a; auto|]. destruct (CI _ _ _ X1) as (w'' & Y1 & Y2). exists w''. split; auto. lia.
      + rewrite <- Ea, E1', <- Ew, E2'. auto.
    - intros u v x Hu Hv (a & Ha & Ea & Ew). destruct (NI v a Ha) as [X|(-> & E1' & E2')].
      + destruct (pg_c2 _ _ H u v x Hu Hv) as (w' & X1 & X2); [exists a; auto|]. destruct (CO _ _ _ X1) as (w'' & Y1 & Y2). exists w''. split; auto. lia.
      + rewrite <- Ea, E1', <- Ew, E2'. auto.
    - intros u v x (a & Ha & Ea & Ew). destruct (NO u a Ha) as [X|(-> & E1' & E2')]; [apply (pg_so _ _ H); exists a; auto|]. rewrite <- Ea, E1', <- Ew, E2'. auto.
    - intros u v x (a & Ha & Ea & Ew). destruct (NI v a Ha) as [X|(-> & E1' & E2')]; [apply (pg_si _ _ H); exists a; auto|]. rewrite <- Ea, E1', <- Ew, E2'. auto.
  Qed.

  (** ** the witness search *)
  Definition FOg (t : nat) (nodes : list cnode) (u v : nat) (w : N) : Prop := t <= u /\ carc_of (Og nodes) u v w.
  Lemma shifted_in off : forall ls r v w, shifted off ls = Some r -> In (v, w) r -> exists a, In a ls /\ ca_node a = off + v /\ ca_weight a = w.
  Proof.
    unfold shifted. induction ls as [|a ls IH]; intros r v w E Hin; cbn [mapM] in E. { injection E as <-. destruct Hin. }
    destruct (Nat.leb_spec off (ca_node a)); cbn [guard bind] in E; [|discriminate]. destruct (mapM _ ls) as [r1|] eqn:E1; cbn [bind] in E; [|discriminate]. injection E as <-.
    destruct Hin as [[= <- <-]|Hin]. { exists a. split; [left; auto|]. split; auto. lia. } destruct (IH r1 v w eq_refl Hin) as (b & B1 & B2). exists b. split; [right; auto|auto].
  Qed.
  Lemma fw_arc off nodes u v w : garc (fw_wrap off nodes) u v w -> carc_of (Og nodes) (off + u) (off + v) w.
  Proof.
    intros (ls & E & Hin). unfold fw_wrap in E. destruct (nth_error nodes (off + u)) as [[o i]|] eqn:En; cbn [bind] in E; [|discriminate]. destruct (shifted_in _ _ _ _ _ E Hin) as (a & B1 & B2 & B3).
    exists a. unfold Og. rewrite (nth_error_nth nodes _ ([], []) En). auto.
  Qed.
  Lemma bw_arc off nodes u v w : garc (bw_wrap off nodes) u v w -> carc_of (Ig nodes) (off + u) (off + v) w.
  Proof.
    intros (ls & E & Hin). unfold bw_wrap in E. destruct (nth_error nodes (off + u)) as [[o i]|] eqn:En; cbn [bind] in E; [|discriminate]. destruct (shifted_in _ _ _ _ _ E Hin) as (a & B1 & B2 & B3).
    exists a. unfold Ig. rewrite (nth_error_nth nodes _ ([], []) En). auto.
  Qed.
  Lemma fw_walk off nodes u v l : walk (garc (fw_wrap off nodes)) u v l -> walk (FOg off nodes) (off + u) (off + v) l.
  Proof. induction 1 as [u|u v t w l Ha W IH]; [constructor|]. econstructor; [|exact IH]. split; [lia|]. apply fw_arc; auto. Qed.
  Lemma bw_walk off nodes u v l : PG off nodes -> walk (garc (bw_wrap off nodes)) u v l -> exists l', walk (FOg off nodes) (off + v) (off + u) l' /\ (l' <= l)%N.
  Proof.
    intros H. induction 1 as [u|u v t w l Ha W (l' & IH & L)]. { exists 0%N. split; [constructor|lia]. } apply bw_arc in Ha.
    destruct (pg_c2 _ _ H (off + v) (off + u) w) as (w' & X1 & X2); [lia..|auto|]. exists (l' + w')%N. split; [|lia]. eapply walk_snoc; [exact IH|]. split; [lia|auto].
  Qed.

  Definition served (t : nat) (nodes : list cnode) (p z : nat) (w : N) : Prop := p <> z -> exists c, walk (FOg t nodes) p z c /\ (c <= w)%N.
  Lemma covers_walk t nodes nodes' p z l : covers nodes nodes' -> walk (FOg t nodes) p z l -> exists l', walk (FOg t nodes') p z l' /\ (l' <= l)%N.
  Proof. intros H. apply walk_le. intros u v w [Hu Ha]. destruct (H _ _ _ Ha) as (w' & Ha' & L). exists w'. split; [split; auto|auto]. Qed.
  Lemma covers_served t nodes nodes' p z w : covers nodes nodes' -> served t nodes p z w -> served t nodes' p z w.
  Proof. intros H S Ne. destruct (S Ne) as (c & W & L). destruct (covers_walk _ _ _ _ _ _ H W) as (c' & W' & L'). exists c'. split; auto. lia. Qed.
  Lemma covers_refl nodes : covers nodes nodes.
  Proof. intros u v w H. exists w. split; auto. lia. Qed.
  Lemma covers_trans a b c : covers a b -> covers b c -> covers a c.
  Proof. intros H1 H2 u v w H. destruct (H1 _ _ _ H) as (w1 & X1 & L1). destruct (H2 _ _ _ X1) as (w2 & X2 & L2). exists w2. split; auto. lia. Qed.

  (** a state reached from [nodes0] by inserting shortcuts among the nodes from [off] on *)
  Record Later (off : nat) (nodes0 : list cnode) (st : list cnode * wdata) : Prop := {
    la_pg : PG off (fst st);
    la_same : forall u, u < off -> nth u (fst st) ([], []) = nth u nodes0 ([], []);
    la_cov : covers nodes0 (fst st);
    la_fw : Ready n (fst (snd st));
    la_bw : Ready n (snd (snd st)) }.
  Lemma Later_trans off a st st' : Later off a st -> Later off (fst st) st' -> Later off a st'.
  Proof. intros [A1 A2 A3 A4 A5] [B1 B2 B3 B4 B5]. split; auto. { intros u Hu. rewrite B2; auto. } eapply covers_trans; eauto. Qed.

  Lemma try_ok x a b st st' : Later (S x) (fst st) st -> S x <= ca_node a < n -> S x <= ca_node b < n -> walk A (ca_node a) x (ca_weight a) -> walk A x (ca_node b) (ca_weight b) ->
    try_shortcut (S x) a b st = Some st' -> Later (S x) (fst st) st' /\ served (S x) (fst st') (ca_node a) (ca_node b) (ca_weight a + ca_weight b).
  Proof.
    intros HL Ha Hb Wa Wb E. destruct st as [nodes (d1 & d2)]. cbn [fst] in *. unfold try_shortcut in E. destruct (cadd _ _) as [w|] eqn:Ew; cbn [bind] in E; [|discriminate]. apply cadd_some in Ew as [-> _].
    destruct (shortcut_required _ _ _ _ _ _) as [[req (d1' & d2')]|] eqn:Er; cbn [bind] in E; [|discriminate].
    unfold shortcut_required in Er. pose proof HL as [H _ _ R1 R2]. cbn [fst snd] in H, R1, R2.
    destruct (Nat.eqb_spec (ca_node a) (ca_node b)) as [Eab|Nab].
    { injection Er as <- <- <-. injection E as <-. split; auto. intros Ne. destruct (Ne Eab). }
    rewrite (proj2 (Nat.leb_le (S x) (ca_node a))), (proj2 (Nat.leb_le (S x) (ca_node b))) in Er by lia. cbn [guard bind] in Er.
    destruct (bd_distance_cap _ _ _ _ _ _ _ _ _) as [[sv r]|] eqn:Ed; cbn [bind] in Er; [|discriminate]. injection Er as Eq <- <-.
    pose proof (pg_len _ _ H) as HN. rewrite HN in Ed.
    apply witness_sound in Ed as (R1' & R2' & HW); cbn [bs_fw bs_bw]; auto; [|lia..].
    destruct req.
    - destruct (pn_insert _ _ _ _ _ _) as [nodes'|] eqn:Ei; cbn [bind] in E; [|discriminate]. injection E as <-.
      destruct (ins_ok (S x) nodes _ _ _ _ _ H Ha Hb Nab (walk_app _ _ _ _ _ _ Wa Wb) Ei) as (I1 & I2 & I3 & (w' & I4 & I5)). split. { split; auto. }
      intros _. exists w'. split; auto. cbn [fst]. apply walk_arc. split; [lia|auto].
    - injection E as <-. split. { split; auto. apply covers_refl. } intros _. destruct r as [l|]; [|discriminate]. destruct (N.ltb_spec l (ca_weight a + ca_weight b)); [|discriminate].
      destruct (HW l eq_refl) as (m & p & q & W1 & W2 & ->). apply fw_walk in W1. apply (bw_walk _ _ _ _ _ H) in W2 as (q' & W2 & L2).
      replace (S x + (ca_node a - S x)) with (ca_node a) in W1 by lia. replace (S x + (ca_node b - S x)) with (ca_node b) in W2 by lia.
      exists (p + q')%N. split; [|lia]. eapply walk_app; eauto.
  Qed.

  (** ** one round *)
  Lemma round_ok x nodes d node st' : PG x nodes -> x < n -> Ready n (fst d) -> Ready n (snd d) -> nth_error nodes x = Some node -> contract_node (nodes, d) x = Some st' ->
    exists nodes1, (forall u, x < u -> drops x (Og nodes u) (Og nodes1 u)) /\ (forall u, u <= x -> nth u (fst st') ([], []) = nth u nodes ([], [])) /\
    Later (S x) nodes1 st' /\ forall a b, In a (Ig nodes x) -> In b (Og nodes x) -> served (S x) (fst st') (ca_node a) (ca_node b) (ca_weight a + ca_weight b).
  Proof.
    intros H Hx R1 R2 En E. unfold contract_node, remove_lowest in E. rewrite En in E. cbn [bind] in E. destruct (rm_edges (S x) nodes node) as [nodes1|] eqn:Er; cbn [bind] in E; [|discriminate].
    destruct (rm_spec x nodes node nodes1 H Hx En Er) as (P1 & S1 & D1 & _). exists nodes1. split; auto.
    pose proof (nth_error_nth nodes x ([], []) En) as Nn.
    assert (ES : snd node = Ig nodes x) by (unfold Ig; rewrite Nn; auto). assert (EF : fst node = Og nodes x) by (unfold Og; rewrite Nn; auto). rewrite ES, EF in E.
    assert (HA : forall a, In a (Ig nodes x) -> S x <= ca_node a < n /\ walk A (ca_node a) x (ca_weight a)).
    { intros a Ha. destruct (pg_hi _ _ H x a (le_n _) Ha). split; [lia|]. apply (pg_si _ _ H). exists a; auto. }
    assert (HB : forall b, In b (Og nodes x) -> S x <= ca_node b < n /\ walk A x (ca_node b) (ca_weight b)).
    { intros b Hb. destruct (pg_ho _ _ H x b (le_n _) Hb). split; [lia|]. apply (pg_so _ _ H). exists b; auto. }
    assert (L0 : Later (S x) nodes1 (nodes1, d)). { split; auto. apply covers_refl. }
    assert (X : Later (S x) nodes1 st' /\ forall a b, In a (Ig nodes x) -> In b (Og nodes x) -> served (S x) (fst st') (ca_node a) (ca_node b) (ca_weight a + ca_weight b)).
    { refine (foldM_pres0 _ (fun pre st => Later (S x) nodes1 st /\ forall a b, In a pre -> In b (Og nodes x) -> served (S x) (fst st) (ca_node a) (ca_node b) (ca_weight a + ca_weight b)) _ _ _ _ _ E); [|split; [auto|intros a b []]].
      intros pre a post s1 s2 EQ (L1 & V1) E1. assert (Ha : In a (Ig nodes x)) by (rewrite EQ; apply in_or_app; right; left; auto).
      assert (Y : Later (S x) nodes1 s2 /\ (forall a0 b, In a0 pre -> In b (Og nodes x) -> served (S x) (fst s2) (ca_node a0) (ca_node b) (ca_weight a0 + ca_weight b)) /\
        forall b, In b (Og nodes x) -> served (S x) (fst s2) (ca_node a) (ca_node b) (ca_weight a + ca_weight b)).
      { refine (foldM_pres0 _ (fun pr st => Later (S x) nodes1 st /\ (forall a0 b, In a0 pre -> In b (Og nodes x) -> served (S x) (fst st) (ca_node a0) (ca_node b) (ca_weight a0 + ca_weight b)) /\
          forall b, In b pr -> served (S x) (fst st) (ca_node a) (ca_node b) (ca_weight a + ca_weight b)) _ _ _ _ _ E1); [|split; [auto|split; [auto|intros b []]]].
        intros pr b po s3 s4 EQ2 (L3 & V3 & V3') E2. assert (Hb : In b (Og nodes x)) by (rewrite EQ2; apply in_or_app; right; left; auto).
        destruct (HA a Ha) as [Ha1 Ha2]. destruct (HB b Hb) as [Hb1 Hb2].
        assert (L3' : Later (S x) (fst s3) s3). { destruct L3. split; auto. apply covers_refl. }
        destruct (try_ok x a b s3 s4 L3' Ha1 Hb1 Ha2 Hb2 E2) as (L4 & V4). pose proof (la_cov _ _ _ L4) as C4.
        split; [eapply Later_trans; eauto|]. split. { intros. eapply covers_served; eauto. }
        intros b' Hb'. apply in_app_or in Hb' as [Hb'|[<-|[]]]; auto. eapply covers_served; eauto. }
      destruct Y as (Y1 & Y2 & Y3). split; auto. intros a' b Ha' Hb. apply in_app_or in Ha' as [Ha'|[<-|[]]]; auto. }
    destruct X as (X1 & X2). split; auto. intros u Hu. rewrite (la_same _ _ _ X1) by lia. apply S1; auto.
  Qed.

  (** ** frozen arcs and the arcs that remain *)
  Definition FF (t : nat) (nodes : list cnode) (u v : nat) (w : N) : Prop := u < t /\ carc_of (Og nodes) u v w.
  Definition FB (t : nat) (nodes : list cnode) (u v : nat) (w : N) : Prop := u < t /\ carc_of (Ig nodes) u v w.
  Definition split_at (t : nat) (nodes : list cnode) (u v : nat) (l : N) : Prop :=
    exists p q a b c, walk (FF t nodes) u p a /\ walk (FB t nodes) v q b /\ walk (FOg t nodes) p q c /\ (a + b + c <= l)%N.

  Lemma round_split x nodes d node st' p q c : PG x nodes -> x < n -> Ready n (fst d) -> Ready n (snd d) -> nth_error nodes x = Some node -> contract_node (nodes, d) x = Some st' ->
    walk (FOg x nodes) p q c -> split_at (S x) (fst st') p q c.
  Proof.
    intros H Hx R1 R2 En E W. destruct (round_ok x nodes d node st' H Hx R1 R2 En E) as (nodes1 & D1 & S1 & L1 & V1).
    assert (KO : forall w, carc_of (Og nodes) x w = carc_of (Og (fst st')) x w). { intros w. unfold carc_of, Og. rewrite S1 by lia. auto. }
    assert (KI : forall w, carc_of (Ig nodes) x w = carc_of (Ig (fst st')) x w). { intros w. unfold carc_of, Ig. rewrite S1 by lia. auto. }
    assert (HR : forall p q c, walk (FOg x nodes) p q c -> q <> x ->
      (p <> x -> exists c', walk (FOg (S x) (fst st')) p q c' /\ (c' <= c)%N) /\
      (p = x -> exists z w c', carc_of (Og nodes) x z w /\ walk (FOg (S x) (fst st')) z q c' /\ (w + c' <= c)%N)).
    { clear p q c W. induction 1 as [p|p r q w l [Hp Ha] W IH]; intros Nq. { split; [|intros X; destruct (Nq X)]. intros _. exists 0%N. split; [constructor|lia]. }
      specialize (IH Nq). destruct IH as [IH1 IH2]. pose proof Ha as (a & Ia & Ea & Ew). destruct (pg_ho _ _ H p a Hp Ia) as [Hr Nr]. rewrite Ea in *. split; intros Ep.
      - destruct (Nat.eq_dec r x) as [->|Nx].
        + destruct (IH2 eq_refl) as (z & w1 & c' & (b & Ib & Eb & Ewb) & Wz & L). destruct (pg_c1 _ _ H p x w) as (w' & (a' & Ia' & Ea' & Ew') & L'); [lia..|auto|].
          pose proof (V1 a' b Ia' Ib) as V. rewrite Ea', Eb, Ew', Ewb in V. destruct (Nat.eq_dec p z) as [->|Npz]. { exists c'. split; auto. lia. }
          destruct (V Npz) as (c2 & W2 & L2). exists (c2 + c')%N. split; [eapply walk_app; eauto|lia].
        + destruct (IH1 Nx) as (c' & W' & L'). destruct (la_cov _ _ _ L1 p r w) as (w' & X1 & X2). { exists a. split; [|auto]. apply (D1 p); [lia|]. split; auto. lia. }
          exists (w' + c')%N. split; [|lia]. econstructor; [|exact W']. split; [lia|auto].
      - subst p. assert (Nx : r <> x) by auto. destruct (IH1 Nx) as (c' & W' & L'). exists r, w, c'. split; auto. split; auto. lia. }
    assert (HQ : forall p q c, walk (FOg x nodes) p q c -> q <> x -> exists p' a c', walk (FF (S x) (fst st')) p p' a /\ walk (FOg (S x) (fst st')) p' q c' /\ (a + c' <= c)%N).
    { intros p0 q0 c0 W0 Nq. destruct (HR _ _ _ W0 Nq) as [Q1 Q2]. destruct (Nat.eq_dec p0 x) as [->|Np].
      - destruct (Q2 eq_refl) as (z & w & c' & X1 & X2 & X3). exists z, w, c'. split; auto. apply walk_arc. split; [lia|]. rewrite <- KO. auto.
      - destruct (Q1 Np) as (c' & X1 & X2). exists p0, 0%N, c'. split; [constructor|]. split; auto. }
    destruct (Nat.eq_dec q x) as [->|Nq].
    - clear HR. destruct (Nat.eq_dec p x) as [->|Np]. { exists x, x, 0%N, 0%N, 0%N. split; [constructor|]. split; [constructor|]. split; [constructor|lia]. }
      destruct (walk_last _ _ _ _ W) as [[E1 _]|(r & w & l & W1 & [Hr Ha] & ->)]; [congruence|]. pose proof Ha as (a & Ia & Ea & Ew). destruct (pg_ho _ _ H r a Hr Ia) as [_ Nr]. rewrite Ea in Nr.
      destruct (HQ _ _ _ W1) as (p' & a1 & c' & X1 & X2 & X3); auto. destruct (pg_c1 _ _ H r x w) as (w' & Y1 & Y2); [lia..|auto|].
      exists p', r, a1, w', c'. split; auto. split. { apply walk_arc. split; [lia|]. rewrite <- KI. auto. } split; auto. lia.
    - destruct (HQ _ _ _ W Nq) as (p' & a1 & c' & X1 & X2 & X3). exists p', q, a1, 0%N, c'. split; auto. split; [constructor|]. split; auto. lia.
  Qed.

  (** ** all rounds *)
  Record Good (t : nat) (st : list cnode * wdata) : Prop := {
    gd_pg : PG t (fst st);
    gd_fw : Ready n (fst (snd st));
    gd_bw : Ready n (snd (snd st));
    gd_split : forall u v l, walk A u v l -> split_at t (fst st) u v l }.
  Lemma round_good x st st' : Good x st -> x < n -> contract_node st x = Some st' -> Good (S x) st'.
  Proof.
    intros [H R1 R2 HS] Hx E. destruct st as [nodes d]. cbn [fst snd] in *. destruct (nth_error_lt nodes x) as (node & En). { rewrite (pg_len _ _ H). auto. }
    destruct (round_ok x nodes d node st' H Hx R1 R2 En E) as (nodes1 & D1 & S1 & L1 & V1). pose proof L1 as [L1a L1b L1c L1d L1e]. split; auto.
    intros u v l W. destruct (HS u v l W) as (p & q & a & b & c & W1 & W2 & W3 & L).
    destruct (round_split x nodes d node st' p q c H Hx R1 R2 En E W3) as (p' & q' & a' & b' & c' & W1' & W2' & W3' & L').
    exists p', q', (a + a')%N, (b + b')%N, c'. split; [|split; [|split; [auto|lia]]].
    - eapply walk_app; [|exact W1']. apply (walk_mono (FF x nodes)); auto. intros y z w [Hy Hw]. split; [lia|]. unfold carc_of, Og in *. rewrite S1 by lia. auto.
    - eapply walk_app; [|exact W2']. apply (walk_mono (FB x nodes)); auto. intros y z w [Hy Hw]. split; [lia|]. unfold carc_of, Ig in *. rewrite S1 by lia. auto.
  Qed.
  Lemma rounds_good k st st' : k <= n -> Good 0 st -> foldM contract_node (seq 0 k) st = Some st' -> Good k st'.
  Proof.
    intros Hk H E. assert (X : Good (length (seq 0 k)) st'); [|rewrite seq_length in X; auto].
    refine (foldM_pres0 contract_node (fun pre st => Good (length pre) st) (seq 0 k) st st' _ H E). intros pre x post s s' EQ G Es.
    assert (Ex : x = length pre). { assert (X : nth_error (seq 0 k) (length pre) = Some x) by (rewrite EQ, nth_error_app2, Nat.sub_diag by lia; auto). pose proof (nth_error_Some_lt _ _ _ X) as Lt. rewrite seq_length in Lt.
      rewrite (nth_error_nth' _ 0) in X by (rewrite seq_length; auto). rewrite seq_nth in X by auto. injection X as <-. auto. }
    rewrite app_length. cbn [length]. rewrite Nat.add_1_r, <- Ex. apply (round_good x s); auto; [rewrite Ex; auto|].
    assert (In x (seq 0 k)) as Hin by (rewrite EQ; apply in_or_app; right; left; auto). apply in_seq in Hin. lia.
  Qed.

  Lemma good_end st u v l : Good n st -> walk A u v l -> exists l', meets (carc_of (Og (fst st))) (carc_of (Ig (fst st))) u v l' /\ (l' <= l)%N.
  Proof.
    intros G W. destruct (gd_split _ _ G u v l W) as (p & q & a & b & c & W1 & W2 & W3 & L). pose proof (gd_pg _ _ G) as H.
    inversion W3 as [x|x y z w l' [Hx Ha] W4]; subst. 2:{ destruct Ha as (e & Ia & _). destruct (pg_ho _ _ H p e Hx Ia). lia. }
    exists (a + b)%N. split; [|lia]. exists q, a, b. split; [|split; auto]. { apply (walk_mono (FF n (fst st))); auto. intros ? ? ? [_ X]; auto. } apply (walk_mono (FB n (fst st))); auto. intros ? ? ? [_ X]; auto.
  Qed.
End Inv.
