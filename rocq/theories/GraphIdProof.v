(** Edge ids: edge_indices, link_id_to_tail, LinkIdToTailMapper, line graph, parallel edges. *)
From Verif Require Import Base BitVec SpecBits BitVecProof SpecGraph Graph GraphProof GraphRevProof GraphOpsProof.

(** Contract of slice::binary_search on a sorted slice. *)
Definition ascending (l : list nat) : Prop := forall i j a b, i <= j -> nth_error l i = Some a -> nth_error l j = Some b -> a <= b.
Definition bs_contract (bs : list nat -> nat -> option (nat + nat)) : Prop :=
  forall l x, ascending l -> exists r, bs l x = Some r /\
    match r with
    | inl i => nth_error l i = Some x
    | inr i => i <= length l /\ (forall j y, j < i -> nth_error l j = Some y -> y < x) /\ (forall j y, i <= j -> nth_error l j = Some y -> x < y)
    end.

Lemma binary_search_contract : bs_contract binary_search.
Proof.
  intros l x HA. unfold binary_search.
  enough (G : forall fuel left right, right <= length l -> right - left < fuel -> left <= right ->
    (forall j y, j < left -> nth_error l j = Some y -> y < x) -> (forall j y, right <= j -> nth_error l j = Some y -> x < y) ->
    exists r, binary_search_loop fuel l x left right = Some r /\
    match r with
    | inl i => nth_error l i = Some x
    | inr i => i <= length l /\ (forall j y, j < i -> nth_error l j = Some y -> y < x) /\ (forall j y, i <= j -> nth_error l j = Some y -> x < y)
    end).
  { apply G; try lia. intros j y Hj H. apply nth_error_Some_lt in H. lia. }
  induction fuel as [|fuel IH]; intros left right Hr Hf Hlr HL HR; [lia|]. cbn [binary_search_loop].
  destruct (Nat.ltb_spec left right).
  - pose proof (Nat.div_mod (right - left) 2 ltac:(lia)). pose proof (Nat.mod_upper_bound (right - left) 2 ltac:(lia)).
    set (mid := left + (right - left) / 2). assert (Hm : left <= mid < right) by (unfold mid; lia).
    destruct (nth_error_lt l mid) as [y Hy]; [lia|]. rewrite Hy; cbn [bind].
    destruct (Nat.ltb_spec y x).
    + apply IH; try lia; auto. intros j z Hj Hz. assert (z <= y) by (eapply (HA j mid); eauto; lia). lia.
    + destruct (Nat.ltb_spec x y).
      * apply IH; try lia; auto. intros j z Hj Hz. assert (y <= z) by (eapply (HA mid j); eauto). lia.
      * eexists; split; [reflexivity|]. cbn. rewrite Hy; f_equal; lia.
  - eexists; split; [reflexivity|]. cbn. assert (left = right) by lia. subst. auto.
Qed.

Section Ids.
  Context {W : Type}.
  Implicit Type g : fograph W.

  Lemma wf_ascending g : wf g -> ascending (first_out g).
  Proof. intros H i j a b Hij Ha Hb. eapply wf_mono_le; eauto. Qed.

  Lemma edge_indices_ok g u v : wf g -> u < num_nodes g ->
    exists a b, range g u = Some (a, b) /\ edge_indices g u v = Some (filter (fun e => nth e (head g) 0 =? v) (seq a (b - a))).
  Proof.
    intros H Hu. destruct (range_ok g u H Hu) as (a & b & E & _ & _ & L). exists a, b. split; auto.
    unfold edge_indices. rewrite E; cbn [bind].
    assert (G : forall es acc, (forall e, In e es -> e < length (head g)) ->
      foldM (fun acc e => h <- nth_error (head g) e ;; Some (if h =? v then acc ++ [e] else acc)) es acc = Some (acc ++ filter (fun e => nth e (head g) 0 =? v) es)).
    { induction es as [|e es IH]; intros acc He; cbn [foldM filter]. { rewrite app_nil_r; auto. }
      rewrite (nth_error_nth_some (head g) e 0) by (apply He; left; auto). cbn [bind]. rewrite IH by (intros; apply He; right; auto).
      destruct (_ =? v); auto. rewrite <- app_assoc; auto. }
    rewrite G; auto. intros e He. apply in_seq in He. lia.
  Qed.

  Lemma skip_equal_ok fo x (AS : ascending fo) : forall fuel i, length fo - i < fuel -> nth_error fo i = Some x -> 
    (exists k z, nth_error fo k = Some z /\ x < z) ->
    exists u a b, skip_equal fuel fo x i = Some u /\ nth_error fo u = Some a /\ nth_error fo (u + 1) = Some b /\ a <= x < b.
  Proof.
    induction fuel as [|fuel IH]; intros i Hf Hi (k & z & Hk & Hz); [lia|]. cbn [skip_equal].
    assert (Hik : i < k). { destruct (Nat.lt_ge_cases i k); auto. pose proof (AS k i z x H Hk Hi). lia. }
    pose proof (nth_error_Some_lt _ _ _ Hk). destruct (nth_error_lt fo (i + 1)) as [y Hy]; [lia|]. rewrite Hy; cbn [bind].
    destruct (Nat.eqb_spec y x) as [->|Hne].
    - apply IH; eauto. lia.
    - exists i, x, y. repeat split; auto. pose proof (AS i (i + 1) x y ltac:(lia) Hi Hy). lia.
  Qed.

  Lemma link_id_to_tail_ok bs g e : bs_contract bs -> wf g -> e < num_arcs g ->
    exists u a b, link_id_to_tail bs (first_out g) e = Some u /\ u < num_nodes g /\
      range g u = Some (a, b) /\ a <= e < b.
  Proof.
    intros HB H He. pose proof (wf_ascending g H) as AS. pose proof (wf_last g H) as HL. unfold num_arcs in He. unfold link_id_to_tail.
    enough (exists u a b, (r <- bs (first_out g) e ;; match r with inl i => skip_equal (S (length (first_out g))) (first_out g) e i | inr i => _ <- guard (0 <? i) ;; Some (i - 1) end) = Some u
       /\ nth_error (first_out g) u = Some a /\ nth_error (first_out g) (u + 1) = Some b /\ a <= e < b) as (u & a & b & E & Ha & Hb & L).
    { exists u, a, b. split; auto. split. { apply nth_error_Some_lt in Hb. unfold num_nodes. lia. }
      split; auto. unfold range. rewrite Ha; cbn [bind]; rewrite Hb; auto. }
    destruct (HB _ e AS) as (r & -> & Hr). cbn [bind]. destruct r as [i|i].
    - apply skip_equal_ok; auto; try lia. exists (num_nodes g), (length (head g)). auto.
    - destruct Hr as (Hi & H1 & H2). pose proof (wf_first g H) as H0.
      destruct i as [|i]. { specialize (H2 0 0 ltac:(lia) H0). lia. } cbn [guard Nat.ltb Nat.leb bind]. replace (S i - 1) with i by lia.
      assert (i < num_nodes g). { destruct (Nat.lt_ge_cases i (num_nodes g)); auto. specialize (H1 (num_nodes g) _ ltac:(lia) HL). lia. }
      unfold num_nodes in *. destruct (nth_error_lt (first_out g) i) as [a Ha]; [lia|]. destruct (nth_error_lt (first_out g) (i + 1)) as [b Hb]; [lia|].
      exists i, a, b. repeat split; auto. { specialize (H1 i a ltac:(lia) Ha). lia. } apply (H2 (i + 1) b); auto; lia.
  Qed.
End Ids.

(** ** LinkIdToTailMapper *)
Section Mapper.
  Variable g : fograph N.
  Hypothesis H : wf g.
  Let fo u := nth u (first_out g) 0.
  Let n := num_nodes g.
  Let pos u := fo u <? fo (S u).

  Lemma mfo_nth u : u <= n -> nth_error (first_out g) u = Some (fo u).
  Proof. intros Hu. apply nth_error_nth_some. pose proof (wf_ne g H). unfold n, num_nodes in Hu. lia. Qed.
  Lemma mfo_mono u v : u <= v -> v <= n -> fo u <= fo v.
  Proof. intros H1 H2. apply (wf_mono_le g u v); auto; apply mfo_nth; lia. Qed.
  Lemma mfo_n : fo n = num_arcs g.
  Proof. pose proof (wf_last g H) as E. fold n in E. rewrite mfo_nth in E by auto. unfold num_arcs; congruence. Qed.

  Fixpoint sset (k : nat) : nat -> bool := match k with O => fun _ => false | S k' => fun j => (pos k' && (j =? fo k')) || sset k' j end.
  Fixpoint zlist (k : nat) : list nat := match k with O => [] | S k' => zlist k' ++ (if pos k' then [] else [fo k']) end.

  Lemma degree_ok u : u < n -> degree g u = Some (fo (S u) - fo u).
  Proof. intros Hu. unfold degree. rewrite Nat.add_1_r, !mfo_nth by lia. reflexivity. Qed.

  Lemma sset_high k j : k <= n -> fo k <= j -> sset k j = false.
  Proof.
    induction k as [|k IH]; intros Hk Hj; auto. cbn [sset]. pose proof (mfo_mono k (S k) ltac:(lia) Hk).
    rewrite IH by lia. unfold pos. destruct (Nat.ltb_spec (fo k) (fo (S k))), (Nat.eqb_spec j (fo k)); auto; lia.
  Qed.
  Lemma sset_low k k' j : k <= k' -> k' <= n -> j < fo k -> sset k' j = sset k j.
  Proof.
    induction 1 as [|k' Hk IH]; intros Hn Hj; auto. cbn [sset]. rewrite IH by (auto; lia).
    pose proof (mfo_mono k k' Hk ltac:(lia)). destruct (Nat.eqb_spec j (fo k')); try lia. rewrite andb_false_r; auto.
  Qed.
  Lemma count_sset k : k <= n -> count (sset n) (fo k) + length (zlist k) = k.
  Proof.
    induction k as [|k IH]; intros Hk.
    - assert (fo 0 = 0). { pose proof (wf_first g H). rewrite mfo_nth in H0 by lia. congruence. } rewrite H0. auto.
    - specialize (IH ltac:(lia)). cbn [zlist]. rewrite app_length.
      pose proof (mfo_mono k (S k) ltac:(lia) Hk) as M.
      destruct (pos k) eqn:Ep; unfold pos in Ep; cbn [length].
      + apply Nat.ltb_lt in Ep. replace (fo (S k)) with (S (fo k) + (fo (S k) - S (fo k))) by lia. rewrite count_add. cbn [count].
        rewrite (sset_low (S k) n (fo k)) by lia. cbn [sset]. unfold pos. rewrite (proj2 (Nat.ltb_lt _ _) Ep), Nat.eqb_refl. cbn [andb orb].
        rewrite (count_false (fun j => sset n (S (fo k) + j))). { lia. } intros i Hi. rewrite (sset_low (S k) n) by lia. cbn [sset]. rewrite sset_high by lia.
        destruct (Nat.eqb_spec (S (fo k) + i) (fo k)); [lia|]. apply orb_false_iff; split; auto using andb_false_r.
      + apply Nat.ltb_ge in Ep. replace (fo (S k)) with (fo k) by lia. lia.
  Qed.

  Lemma zlist_nth k : k <= n -> forall j y, nth_error (zlist k) j = Some y -> exists u, u < k /\ y = fo u.
  Proof.
    induction k as [|k IH]; intros Hk j y Hj. { destruct j; discriminate. } cbn [zlist] in Hj.
    destruct (Nat.lt_ge_cases j (length (zlist k))).
    - rewrite nth_error_app1 in Hj by auto. destruct (IH ltac:(lia) j y Hj) as (u & Hu & E). exists u. split; auto.
    - rewrite nth_error_app2 in Hj by auto. destruct (pos k); destruct (j - length (zlist k)) as [|[|]]; try discriminate. injection Hj as <-. eauto.
  Qed.
  Lemma zlist_asc k : k <= n -> ascending (zlist k).
  Proof.
    induction k as [|k IH]; intros Hk i j a b Hij Ha Hb. { destruct i; discriminate. } cbn [zlist] in Ha, Hb.
    destruct (Nat.lt_ge_cases j (length (zlist k))) as [J|J].
    - rewrite nth_error_app1 in Ha, Hb by lia. apply (IH ltac:(lia) i j); auto.
    - rewrite nth_error_app2 in Hb by auto. destruct (pos k). { destruct (j - length (zlist k)); discriminate. }
      destruct (j - length (zlist k)) as [|[|]] eqn:J2; try discriminate. injection Hb as <-.
      destruct (Nat.lt_ge_cases i (length (zlist k))).
      + rewrite nth_error_app1 in Ha by auto. destruct (zlist_nth k ltac:(lia) i a Ha) as (u & Hu & ->). apply mfo_mono; lia.
      + rewrite nth_error_app2 in Ha by auto. destruct (i - length (zlist k)) as [|[|]]; try discriminate. injection Ha as <-. auto.
  Qed.
  Lemma zlist_split k k' : k <= k' -> k' <= n -> exists r, zlist k' = zlist k ++ r /\ forall y, In y r -> fo k <= y.
  Proof.
    induction 1 as [|k' Hk IH]; intros Hn. { exists []. rewrite app_nil_r. split; auto. intros y []. }
    destruct (IH ltac:(lia)) as (r & E & Hr). cbn [zlist]. rewrite E. exists (r ++ (if pos k' then [] else [fo k'])). rewrite app_assoc. split; auto.
    intros y Hy. apply in_app_or in Hy. destruct Hy as [Hy|Hy]; auto. destruct (pos k'); cbn in Hy; [tauto|]. destruct Hy as [<-|[]]. apply mfo_mono; lia.
  Qed.

  Lemma skip_equal_to_end_ok l x : ascending l -> forall fuel i, i <= length l -> length l - i <= fuel ->
    (forall j y, j < i -> nth_error l j = Some y -> y <= x) -> (forall y, nth_error l i = Some y -> x <= y) ->
    let r := skip_equal_to_end fuel l x i in
    r <= length l /\ (forall j y, j < r -> nth_error l j = Some y -> y <= x) /\ (forall j y, r <= j -> nth_error l j = Some y -> x < y).
  Proof.
    intros AS. induction fuel as [|fuel IH]; intros i Hi Hf H1 H2; cbn [skip_equal_to_end].
    - split; [auto|]. split; auto. intros j y Hj Hy. apply nth_error_Some_lt in Hy. lia.
    - destruct (nth_error l i) as [y|] eqn:Hy.
      + apply nth_error_Some_lt in Hy as Hlt. specialize (H2 y eq_refl). destruct (Nat.eqb_spec y x) as [->|Hne].
        * apply IH; try lia.
          -- intros j z Hj Hz. pose proof (AS j i z x ltac:(lia) Hz Hy). auto.
          -- intros z Hz. apply (AS i (i + 1) x z); auto. lia.
        * split; [auto|]. split; auto. intros j z Hj Hz. pose proof (AS i j y z Hj Hy Hz). lia.
      + split; [auto|]. split; auto. intros j z Hj Hz. apply nth_error_None in Hy. apply nth_error_Some_lt in Hz. lia.
  Qed.

  Lemma prefix_count_unique l x r1 r2 :
    r1 <= length l -> (forall j y, j < r1 -> nth_error l j = Some y -> y <= x) -> (forall j y, r1 <= j -> nth_error l j = Some y -> x < y) ->
    r2 <= length l -> (forall j y, j < r2 -> nth_error l j = Some y -> y <= x) -> (forall j y, r2 <= j -> nth_error l j = Some y -> x < y) ->
    r1 = r2.
  Proof.
    intros A1 B1 C1 A2 B2 C2. destruct (lt_eq_lt_dec r1 r2) as [[D|D]|D]; auto; exfalso.
    - destruct (nth_error_lt l r1) as [y Hy]; [lia|]. pose proof (B2 _ _ D Hy). pose proof (C1 r1 y ltac:(lia) Hy). lia.
    - destruct (nth_error_lt l r2) as [y Hy]; [lia|]. pose proof (B1 _ _ D Hy). pose proof (C2 r2 y ltac:(lia) Hy). lia.
  Qed.

  Lemma tm_ok bs : bs_contract bs -> exists t, tm_new g = Some t /\
    forall u e, u < n -> fo u <= e < fo (S u) -> tm_tail bs t e = Some u.
  Proof.
    intros HB. unfold tm_new. fold n.
    set (body := fun (st : bitvec * list nat * nat) (u : nat) => _).
    destruct (foldM_inv body (fun pre st => let '(bits, zeros, counter) := st in
       BInv false (num_arcs g + 1) bits (sset (length pre)) /\ zeros = zlist (length pre) /\ counter = fo (length pre))
       (seq 0 n) (bv_new (num_arcs g + 1), [], 0)) as ([[bits zeros] counter] & E & IB & EZ & EC).
    - split; [apply bv_new_inv|]. split; auto. pose proof (wf_first g H) as F. rewrite mfo_nth in F by lia. cbn. congruence.
    - intros pre u post [[bits zeros] counter] E (IB & -> & ->).
      assert (Eu : u = length pre /\ u < n).
      { assert (nth_error (seq 0 n) (length pre) = Some u) by (rewrite E, nth_error_app2, Nat.sub_diag by lia; auto).
        assert (length pre < n). { apply nth_error_Some_lt in H0. rewrite seq_length in H0. auto. }
        rewrite (nth_error_nth_some _ _ 0) in H0 by (rewrite seq_length; auto). rewrite seq_nth in H0 by auto. cbn in H0. split; congruence. }
      destruct Eu as [Eu Hu]. rewrite <- Eu in *. rewrite app_length, <- Eu. cbn [length]. replace (u + 1) with (S u) by lia. cbn [sset zlist].
      unfold body. rewrite degree_ok by auto. cbn [bind]. pose proof (mfo_mono u (S u) ltac:(lia) Hu). unfold pos.
      destruct (Nat.eqb_spec (fo (S u) - fo u) 0).
      + destruct (Nat.ltb_spec (fo u) (fo (S u))); [lia|]. eexists; split; [reflexivity|]. cbn [andb orb]. repeat split; auto; try apply IB. lia.
      + destruct (Nat.ltb_spec (fo u) (fo (S u))); [|lia].
        pose proof (bv_step_ok false _ bits (sset u) (BSet (fo u)) IB ltac:(discriminate) ltac:(discriminate)) as ST.
        cbn [bits_step bv_step] in ST. pose proof (mfo_mono (S u) n Hu ltac:(lia)). rewrite mfo_n in H2.
        destruct (Nat.ltb_spec (fo u) (num_arcs g + 1)); [|lia].
        destruct ST as (b' & Eb & IB'). destruct (bv_set bits (fo u)) as [b''|]; cbn [bind] in Eb |- *; [|discriminate]. injection Eb as <-.
        eexists; split; [reflexivity|]. split; [|split].
        * cbn [andb]. exact IB'. * rewrite app_nil_r; auto. * lia.
    - rewrite E; cbn [bind]. rewrite seq_length in *. destruct (rm_queries _ bits _ IB) as (m & Em & Q). rewrite Em; cbn [bind].
      eexists; split; [reflexivity|]. intros u e Hu He. unfold tm_tail; cbn [tm_zero tm_map]. subst zeros.
      pose proof (zlist_asc n ltac:(lia)) as AS. destruct (HB _ e AS) as (r & -> & Hr). cbn [bind].
      set (below := match r with inl i => _ | inr i => i end).
      assert (Hb : below = length (zlist (S u))).
      { destruct (zlist_split (S u) n ltac:(lia) ltac:(lia)) as (rest & EZ & HZ).
        apply (prefix_count_unique (zlist n) e); try (rewrite EZ, app_length; lia).
        - unfold below. destruct r as [i|i]; [|tauto]. apply skip_equal_to_end_ok; auto; try lia.
          { apply nth_error_Some_lt in Hr; lia. } { intros j y Hj Hy. pose proof (AS j i y e ltac:(lia) Hy Hr). auto. } { intros y Hy. rewrite Hr in Hy. injection Hy as <-. lia. }
        - unfold below. destruct r as [i|i].
          + apply skip_equal_to_end_ok; auto; try lia.
            { apply nth_error_Some_lt in Hr; lia. } { intros j y Hj Hy. pose proof (AS j i y e ltac:(lia) Hy Hr). auto. } { intros y Hy. rewrite Hr in Hy. injection Hy as <-. lia. }
          + intros j y Hj Hy. destruct Hr as (_ & Hr & _). specialize (Hr j y Hj Hy). lia.
        - unfold below. destruct r as [i|i]; [|tauto]. apply skip_equal_to_end_ok; auto; try lia.
          { apply nth_error_Some_lt in Hr; lia. } { intros j y Hj Hy. pose proof (AS j i y e ltac:(lia) Hy Hr). auto. } { intros y Hy. rewrite Hr in Hy. injection Hy as <-. lia. }
        - intros j y Hj Hy. rewrite EZ, nth_error_app1 in Hy by auto. cbn [zlist] in Hy, Hj. unfold pos in *.
          destruct (Nat.ltb_spec (fo u) (fo (S u))); [|lia]. rewrite app_nil_r in *.
          destruct (zlist_nth u ltac:(lia) j y Hy) as (u' & Hu' & ->). pose proof (mfo_mono u' u ltac:(lia) ltac:(lia)). lia.
        - intros j y Hj Hy. rewrite EZ, nth_error_app2 in Hy by auto. apply nth_error_In in Hy. apply HZ in Hy. lia. }
      clearbody below. subst below.
      destruct (Q e) as (_ & _ & Q3). rewrite Q3.
      2:{ pose proof (mfo_mono (S u) n Hu ltac:(lia)). rewrite mfo_n in H0. lia. }
      pose proof (count_sset u ltac:(lia)) as CS.
      assert (Ce : count (sset n) (S e) = S (count (sset n) (fo u))).
      { replace (S e) with (S (fo u) + (e - fo u)) by lia. rewrite count_add. cbn [count].
        rewrite (sset_low (S u) n (fo u)) by lia. cbn [sset]. unfold pos at 1. destruct (Nat.ltb_spec (fo u) (fo (S u))); [|lia]. rewrite Nat.eqb_refl. cbn [andb orb].
        rewrite (count_false (fun j => sset n (S (fo u) + j))). { lia. } intros i Hi. rewrite (sset_low (S u) n) by lia. cbn [sset]. rewrite sset_high by lia.
        destruct (Nat.eqb_spec (S (fo u) + i) (fo u)); [lia|]. apply orb_false_iff; split; auto using andb_false_r. }
      rewrite Ce. cbn [Nat.ltb Nat.leb bind]. f_equal. cbn [zlist]. unfold pos. destruct (Nat.ltb_spec (fo u) (fo (S u))); [|lia]. rewrite app_nil_r. lia.
  Qed.
End Mapper.
