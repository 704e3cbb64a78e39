(** ch_split, permutated, line graph, parallel edge unification, edge id look-ups. *)
From Verif Require Import Base BitVec SpecGraph Graph GraphProof GraphRevProof.
From Coq Require Import Sorted.

Lemma concat_upd_length {A} (ls : list (list A)) i l x : nth_error ls i = Some l ->
  length (concat (upd ls i (l ++ [x]))) = S (length (concat ls)).
Proof.
  revert i; induction ls as [|a ls IH]; intros [|i]; cbn [nth_error upd concat]; intros H; try discriminate.
  - injection H as ->. rewrite !app_length. cbn. lia.
  - rewrite !app_length, IH by auto. lia.
Qed.

Section Split.
  Context {W : Type}.
  Notation arcT := (nat * (nat * W))%type.
  Variable ranks : list nat.
  Notation rk u := (nth u ranks 0).

  Lemma filter_all_arcs_out (P : nat -> nat * W -> bool) (n u : nat) nb : u < n ->
    map snd (filter (fun a : arcT => (fst a =? u) && P (fst a) (snd a)) (all_arcs n nb)) = filter (P u) (nb u).
  Proof.
    unfold all_arcs. intros H.
    assert (E : forall u', map snd (filter (fun a : arcT => (fst a =? u) && P (fst a) (snd a)) (map (fun a => (u', a)) (nb u'))) =
       if u' =? u then filter (P u) (nb u) else []).
    { intros u'. destruct (Nat.eqb_spec u' u) as [->|Hn].
      - induction (nb u) as [|a l IH]; auto. cbn [map filter fst snd]. rewrite Nat.eqb_refl. cbn [andb]. destruct (P u a); cbn [map snd]; congruence.
      - induction (nb u') as [|a l IH]; auto. cbn [map filter fst snd]. destruct (Nat.eqb_spec u' u); [congruence|]. auto. }
    assert (G : forall k b, map snd (filter (fun a : arcT => (fst a =? u) && P (fst a) (snd a)) (concat (map (fun u => map (fun a => (u, a)) (nb u)) (seq b k)))) =
       if (b <=? u) && (u <? b + k) then filter (P u) (nb u) else []).
    { induction k as [|k IH]; intros b; cbn [seq map concat].
      - cbn [filter map]. destruct (Nat.leb_spec b u), (Nat.ltb_spec u (b + 0)); auto; lia.
      - rewrite filter_app, map_app, E, IH. destruct (Nat.eqb_spec b u) as [->|Hn].
        + destruct (Nat.leb_spec (S u) u), (Nat.leb_spec u u), (Nat.ltb_spec u (u + S k)); try lia. cbn [andb]. rewrite app_nil_r; auto.
        + cbn [app]. destruct (Nat.leb_spec (S b) u), (Nat.leb_spec b u), (Nat.ltb_spec u (S b + k)), (Nat.ltb_spec u (b + S k)); try lia; auto. }
    rewrite G. destruct (Nat.leb_spec 0 u), (Nat.ltb_spec u (0 + n)); try lia. auto.
  Qed.

  Lemma into_filter (P : nat -> nat * W -> bool) v n nb : into v (filter (fun a : arcT => P (fst a) (snd a)) (all_arcs n nb)) =
    flat_map (fun u => map (fun a => (u, snd a)) (filter (fun a => (fst a =? v) && P u a) (nb u))) (seq 0 n).
  Proof.
    unfold all_arcs. induction (seq 0 n) as [|u us IH]; auto. cbn [map concat flat_map]. rewrite filter_app, into_app, IH. f_equal.
    clear. unfold into. induction (nb u) as [|a l IH]; auto. cbn [map filter fst snd].
    destruct (P u a); cbn [filter map fst snd]; destruct (fst a =? v); cbn [andb map fst snd]; congruence.
  Qed.

  Lemma ch_split_ok n links nb : enum n links nb -> length ranks = n ->
    (N.of_nat n + 1 < U32MAX)%N -> (N.of_nat (length (all_arcs n nb)) < U32MAX)%N ->
    exists up down, ch_split n links ranks = Some (up, down) /\ wf up /\ wf down /\ num_nodes up = n /\ num_nodes down = n /\
      (forall u, u < n -> link_iter up u = Some (filter (fun a => rk u <? rk (fst a)) (nb u))) /\
      (forall v, v < n -> link_iter down v = Some (flat_map (fun u => map (fun a : nat * W => (u, snd a))
          (filter (fun a : nat * W => (fst a =? v) && negb (rk u <? rk v)) (nb u))) (seq 0 n))).
  Proof.
    intros He Hr Hn Hm. unfold ch_split. rewrite (arc_seq_ok n links nb He); cbn [bind]. set (L := all_arcs n nb) in *.
    set (P := fun (u : nat) (a : nat * W) => rk u <? rk (fst a)).
    set (body := fun (st : list (list (nat * W)) * list (list (nat * W))) (a : arcT) => _).
    destruct (foldM_inv body (fun pre st => let '(up, down) := st in
        length up = n /\ length down = n /\ length (concat up) + length (concat down) = length pre /\
        (forall u, u < n -> nth_error up u = Some (map snd (filter (fun a : arcT => (fst a =? u) && P (fst a) (snd a)) pre))) /\
        (forall v, v < n -> nth_error down v = Some (into v (filter (fun a : arcT => negb (P (fst a) (snd a))) pre))))
        L (repeat [] n, repeat [] n)) as ([up down] & E & L1 & L2 & LC & HU & HD).
    - rewrite !repeat_length. split; auto. split; auto. split.
      { assert (forall k, length (concat (repeat (@nil (nat * W)) k)) = 0) by (induction k; cbn; auto). rewrite !H. auto. }
      split; intros u Hu; rewrite nth_error_repeat; destruct (Nat.ltb_spec u n); auto; lia.
    - intros pre [u [v w]] post [up down] E (L1 & L2 & LC & HU & HD).
      assert (Hi : In (u, (v, w)) L). { rewrite E. apply in_or_app. right; left; auto. }
      apply all_arcs_In in Hi. destruct Hi as [Hu Hi]. destruct (He u Hu) as [_ Hv]. apply Hv in Hi as Hv'. clear Hv.
      unfold body. rewrite (nth_error_nth_some ranks u 0), (nth_error_nth_some ranks v 0) by lia. cbn [bind].
      assert (HP : P u (v, w) = (rk u <? rk v)) by auto.
      destruct (rk u <? rk v) eqn:Hlt.
      + rewrite (HU u Hu); cbn [bind]. rewrite set_at_lt by lia. cbn [bind]. eexists; split; [reflexivity|].
        cbn beta iota. rewrite upd_length. split; [lia|]. split; [lia|]. split; [|split].
        * rewrite concat_upd_length by auto. rewrite app_length. cbn. lia.
        * intros u' Hu'. rewrite nth_error_upd. rewrite filter_app, map_app. cbn [filter fst snd]. rewrite HP.
          destruct (Nat.eqb_spec u u') as [->|Hne].
          { destruct (Nat.ltb_spec u' (length up)); [|lia]. reflexivity. }
          cbn [andb map]. rewrite app_nil_r. auto.
        * intros v' Hv. rewrite filter_app. cbn [filter fst snd]. rewrite HP. cbn [negb]. rewrite app_nil_r. auto.
      + rewrite (HD v Hv'); cbn [bind]. rewrite set_at_lt by lia. cbn [bind]. eexists; split; [reflexivity|].
        cbn beta iota. rewrite upd_length. split; [lia|]. split; [lia|]. split; [|split].
        * rewrite concat_upd_length by auto. rewrite app_length. cbn. lia.
        * intros u' Hu'. rewrite filter_app, map_app. cbn [filter fst snd]. rewrite HP. rewrite andb_false_r. cbn [map]. rewrite app_nil_r. auto.
        * intros v' Hv. rewrite nth_error_upd. rewrite filter_app. cbn [filter fst snd]. rewrite HP. cbn [negb].
          rewrite into_app, into_one. destruct (Nat.eqb_spec v v') as [->|Hne].
          { destruct (Nat.ltb_spec v' (length down)); [|lia]. reflexivity. }
          cbn [andb]. rewrite app_nil_r. auto.
    - rewrite E; cbn [bind].
      destruct (from_adjacency_ok up) as (g1 & E1 & W1 & N1 & _ & I1); [lia..|]. rewrite E1; cbn [bind].
      destruct (from_adjacency_ok down) as (g2 & E2 & W2 & N2 & _ & I2); [lia..|]. rewrite E2; cbn [bind].
      exists g1, g2. split; auto. split; auto. split; auto. split; [congruence|]. split; [congruence|]. split.
      + intros u Hu. apply I1. rewrite (HU u Hu). f_equal. unfold L. rewrite (filter_all_arcs_out P n u nb Hu). auto.
      + intros v Hv. apply I2. rewrite (HD v Hv). f_equal. unfold L. rewrite (into_filter (fun u a => negb (P u a)) v n nb).
        assert (G : forall u, filter (fun a : nat * W => (fst a =? v) && negb (P u a)) (nb u) = filter (fun a => (fst a =? v) && negb (rk u <? rk v)) (nb u)).
        { intros u. unfold P. induction (nb u) as [|a l IH]; auto. cbn [filter]. rewrite IH.
          destruct (Nat.eqb_spec (fst a) v) as [->|]; auto. }
        clear -G. induction (seq 0 n) as [|u us IH]; auto. cbn [flat_map]. rewrite G, IH. auto.
  Qed.
End Split.

(** Appending adjacency lists one node at a time. *)
Definition adj_state {W} (A : list (list (nat * W))) : list nat * list nat * list W :=
  (degrees_to_first_out (map (@length _) A), map fst (concat A), map snd (concat A)).

Lemma scan_sum_app s d1 d2 : scan_sum s (d1 ++ d2) = scan_sum s d1 ++ scan_sum (s + list_sum d1) d2.
Proof.
  revert s; induction d1 as [|d d1 IH]; intros s; cbn [app scan_sum].
  - cbn. f_equal. lia.
  - rewrite IH. cbn [app]. f_equal. f_equal. f_equal. unfold list_sum; cbn [fold_right]; lia.
Qed.
Lemma d2fo_snoc {W} (A : list (list (nat * W))) l :
  degrees_to_first_out (map (@length _) (A ++ [l])) = degrees_to_first_out (map (@length _) A) ++ [length (concat A) + length l].
Proof.
  unfold degrees_to_first_out. rewrite map_app, scan_sum_app. cbn [map scan_sum app]. repeat f_equal.
  rewrite <- (firstn_all (map (@length _) A)), concat_firstn_length, map_length, firstn_all. auto.
Qed.
Lemma d2fo_last {W} (A : list (list (nat * W))) fo : fo = degrees_to_first_out (map (@length _) A) ->
  nth_error fo (length fo - 1) = Some (length (concat A)).
Proof.
  intros ->. assert (length (degrees_to_first_out (map (@length _) A)) = length A + 1).
  { unfold degrees_to_first_out; cbn. rewrite scan_sum_length, map_length; lia. }
  rewrite H, Nat.add_sub, d2fo_nth by (rewrite map_length; lia). rewrite concat_firstn_length, firstn_all. auto.
Qed.

Definition fo_new_st {W} (st : list nat * list nat * list W) := let '(fo, hd, wt) := st in fo_new fo hd wt.
Lemma adj_state_new {W} (A : list (list (nat * W))) : fo_new_st (adj_state A) = from_adjacency_lists A.
Proof. unfold fo_new_st, adj_state, from_adjacency_lists. exact eq_refl. Qed.

Section Perm.
  Context {W : Type}.
  Variable sort : (nat * W -> nat) -> list (nat * W) -> list (nat * W).
  (** contract of sort_unstable_by_key *)
  Definition sort_contract : Prop := forall key l,
    Permutation (sort key l) l /\ forall i j a b, i <= j -> nth_error (sort key l) i = Some a -> nth_error (sort key l) j = Some b -> key a <= key b.

  Lemma filterM_ok (l : list (nat * W)) (rank : nat -> option nat) (rk : nat -> nat) (p : nat -> bool) :
    (forall a, In a l -> rank (fst a) = Some (rk (fst a))) ->
    foldM (fun acc a => rv <- rank (fst a) ;; Some (if p rv then acc ++ [a] else acc)) l [] = Some (filter (fun a => p (rk (fst a))) l).
  Proof.
    intros H. assert (G : forall acc, foldM (fun acc a => rv <- rank (fst a) ;; Some (if p rv then acc ++ [a] else acc)) l acc = Some (acc ++ filter (fun a => p (rk (fst a))) l)).
    { induction l as [|a l IH]; intros acc; cbn [foldM filter]. { rewrite app_nil_r; auto. }
      rewrite H by (left; auto). cbn [bind]. rewrite IH by (intros; apply H; right; auto). destruct (p _); auto. rewrite <- app_assoc. auto. }
    apply (G []).
  Qed.

  Lemma permutated_ok n links nb order ranks predicate :
    sort_contract -> enum n links nb -> Permutation order (seq 0 n) -> length ranks = n ->
    (N.of_nat n + 1 < U32MAX)%N -> (N.of_nat (length (all_arcs n nb)) < U32MAX)%N ->
    exists g, permutated_filtered sort n links order ranks predicate = Some g /\ wf g /\ num_nodes g = n /\
      forall r u, nth_error order r = Some u -> exists l, link_iter g r = Some l /\
        Permutation l (map (fun a => (nth (fst a) ranks 0, snd a)) (filter (fun a => predicate r (nth (fst a) ranks 0)) (nb u))) /\
        forall i j a b, i <= j -> nth_error l i = Some a -> nth_error l j = Some b -> fst a <= fst b.
  Proof.
    intros HS He HP HR Hn Hm.
    assert (Lo : length order = n). { apply Permutation_length in HP. rewrite seq_length in HP. auto. }
    assert (Ho : forall r u, nth_error order r = Some u -> u < n).
    { intros r u H. apply nth_error_In in H. apply (Permutation_in _ HP) in H. apply in_seq in H. lia. }
    set (rk := fun v => nth v ranks 0).
    set (kept := fun r u => filter (fun a => predicate r (rk (fst a))) (nb u)).
    set (out := fun ru : nat * nat => map (fun a => (rk (fst a), snd a)) (sort (fun l => rk (fst l)) (kept (fst ru) (snd ru)))).
    unfold permutated_filtered.
    set (body := fun (st : list nat * list nat * list W) (ru : nat * nat) => _).
    assert (Hbody : forall pre ru, In ru (combine (seq 0 (length order)) order) -> body (adj_state (map out pre)) ru = Some (adj_state (map out (pre ++ [ru])))).
    { intros pre [r u] Hin. unfold body, adj_state at 1. apply in_combine_r in Hin as Hu. apply In_nth_error in Hu. destruct Hu as [r' Hu]. apply Ho in Hu.
      destruct (He u Hu) as [El Hv]. rewrite El; cbn [bind].
      rewrite (filterM_ok (nb u) (fun v => nth_error ranks v) rk (predicate r)).
      2:{ intros [v w] Ha. apply Hv in Ha. cbn [fst]. apply nth_error_nth_some. lia. }
      cbn [bind]. erewrite d2fo_last by reflexivity. cbn [bind].
      rewrite (mapM_Some _ (fun a => rk (fst a))).
      2:{ intros [v w] Ha. apply (Permutation_in _ (proj1 (HS _ _))) in Ha. apply filter_In in Ha. destruct Ha as [Ha _]. apply Hv in Ha. cbn [fst]. apply nth_error_nth_some. lia. }
      cbn [bind]. fold (kept r u). unfold adj_state. rewrite map_app. cbn [map]. rewrite d2fo_snoc, concat_app. cbn [concat]. rewrite app_nil_r, !map_app.
      assert (O1 : length (out (r, u)) = length (kept r u)).
      { unfold out. cbn [fst snd]. rewrite map_length. apply Permutation_length. apply HS. }
      assert (O2 : map fst (out (r, u)) = map (fun a => rk (fst a)) (sort (fun l => nth (fst l) ranks 0) (kept r u))).
      { unfold out. rewrite map_map. reflexivity. }
      assert (O3 : map snd (out (r, u)) = map snd (sort (fun l => nth (fst l) ranks 0) (kept r u))).
      { unfold out. rewrite map_map. reflexivity. }
      rewrite O1, O2, O3. reflexivity. }
    set (C := combine (seq 0 (length order)) order) in *.
    assert (EF : foldM body C ([0], [], []) = Some (adj_state (map out C))).
    { destruct (foldM_inv body (fun pre st => st = adj_state (map out pre)) C ([0], [], [])) as (st & E & ->); auto.
      intros pre a post s E ->. eexists. split; [|reflexivity]. apply Hbody. rewrite E. apply in_or_app; right; left; auto. }
    fold body C. rewrite EF.
    pose proof (adj_state_new (map out C)) as EN. destruct (adj_state (map out C)) as [[fo hd] wt] eqn:EX. cbn [bind].
    cbn [fo_new_st] in EN. rewrite EN.
    assert (LC : length C = n). { unfold C. rewrite combine_length, seq_length. lia. }
    assert (Cnth : forall r u, nth_error order r = Some u -> nth_error C r = Some (r, u)).
    { intros r u H. assert (Hr : r < length order) by (eapply nth_error_Some_lt; eauto). unfold C.
      assert (GG : forall k b (o : list nat) r, length o = k -> r < k -> nth_error (combine (seq b k) o) r = match nth_error o r with Some u => Some (b + r, u) | None => None end).
      { clear. induction k as [|k IH]; intros b o r Ho Hr; [lia|]. destruct o as [|x o]; [discriminate|]. cbn [seq combine].
        destruct r as [|r]; cbn [nth_error]. { rewrite Nat.add_0_r; auto. } rewrite IH by (cbn in Ho; lia). replace (b + S r) with (S b + r) by lia. auto. }
      rewrite GG by auto. rewrite H. auto. }
    assert (LB : length (concat (map out C)) <= length (all_arcs n nb)).
    { assert (Le : length (all_arcs n nb) = list_sum (map (fun u => length (nb u)) order)).
      { assert (Hs : list_sum (map (fun u => length (nb u)) order) = list_sum (map (fun u => length (nb u)) (seq 0 n))).
        { clear -HP. induction HP; cbn; auto; try lia. }
        rewrite Hs. unfold all_arcs. clear. induction (seq 0 n) as [|u us IH]; auto. cbn. rewrite app_length, map_length, IH. reflexivity. }
      rewrite Le. clear - HS Lo. unfold C. revert HS. generalize (seq_length (length order) 0). generalize (seq 0 (length order)). clear Lo.
      induction order as [|u us IH]; intros [|r rs] Hl HS; cbn; try lia; try (cbn in Hl; discriminate).
      rewrite app_length. specialize (IH rs ltac:(cbn in Hl; lia) HS). cbn in IH.
      enough (length (out (r, u)) <= length (nb u)) by (unfold list_sum in IH; lia).
      unfold out. rewrite map_length, (Permutation_length (proj1 (HS _ _))). unfold kept. cbn [fst snd].
      clear. induction (nb u); cbn; auto. destruct (predicate _ _); cbn; lia. }
    destruct (from_adjacency_ok (map out C)) as (g & Eg & Wg & Ng & _ & Ig).
    { rewrite map_length. lia. } { lia. }
    exists g. split; auto. split; auto. split. { rewrite Ng, map_length. auto. }
    intros r u Hru. exists (out (r, u)). split. { apply Ig. rewrite nth_error_map, (Cnth r u Hru). auto. }
    split.
    - unfold out; cbn [fst snd]. apply Permutation_map. apply HS.
    - intros i j a b Hij Ha Hb. unfold out in Ha, Hb. rewrite nth_error_map in Ha, Hb. cbn [fst snd] in Ha, Hb.
      destruct (nth_error (sort _ _) i) as [a'|] eqn:Ea; cbn in Ha; [|discriminate]. destruct (nth_error (sort _ _) j) as [b'|] eqn:Eb; cbn in Hb; [|discriminate].
      injection Ha as <-. injection Hb as <-. cbn [fst]. destruct (HS (fun l => rk (fst l)) (kept r u)) as [_ H]. eapply H; eauto.
  Qed.
End Perm.
