(** The virtual topocore as a whole: it exists for every nonempty graph, its order is a permutation, its core is
    separated from each outside component by the component's bridge, its degrees are those of the graph. *)
From Verif Require Import Base SpecGraph Graph GraphProof GraphIdProof GraphXProof GraphRevProof GraphOpsProof GraphSpecProof LoopProof CCHContractProof NodeOrder NodeOrderProof SepTree CCH IndexHeap TsVec Dijkstra DijServer PLF TopoDij VTopo VTopoProof BicProof VCompProof.
From Coq Require Import Permutation.

(** contract of a sort by key on node ids *)
Definition key_sort (dsort : (nat -> nat) -> list nat -> list nat) : Prop := forall key l,
  Permutation (dsort key l) l /\ forall i j a b, i <= j -> nth_error (dsort key l) i = Some a -> nth_error (dsort key l) j = Some b -> key a <= key b.

Lemma sumN_add n f g : sumN n (fun v => f v + g v)%N = (sumN n f + sumN n g)%N.
Proof. induction n; cbn [sumN]; auto. rewrite IHn. lia. Qed.
Lemma sumN_zero n : sumN n (fun _ => 0%N) = 0%N.
Proof. induction n; cbn [sumN]; auto. rewrite IHn. auto. Qed.

Lemma count_heads {W} n (l : list (nat * W)) : (forall v w, In (v, w) l -> v < n) -> sumN n (fun v => N.of_nat (length (filter (fun a => fst a =? v) l))) = N.of_nat (length l).
Proof.
  induction l as [|[x w] l IH]; intros H. { cbn. apply sumN_zero. }
  rewrite (sumN_ext n _ (fun v => (if (x =? v)%nat then 1 else 0) + N.of_nat (length (filter (fun a => (fst a =? v)%nat) l)))%N).
  2: { intros v _. cbn [filter fst]. destruct (x =? v); cbn [length]; lia. }
  rewrite sumN_add, IH by (intros; eapply H; right; eauto).
  assert (Hx : x < n) by (apply (H x w); left; auto).
  pose proof (sumN_change n (fun v => if x =? v then 1%N else 0%N) (fun _ => 0%N) x Hx) as SC. cbv beta in SC. rewrite Nat.eqb_refl, sumN_zero in SC.
  assert (Z : forall j, j <> x -> (if x =? j then 1%N else 0%N) = 0%N). { intros j Hj. destruct (Nat.eqb_spec x j); [lia|auto]. }
  specialize (SC Z). cbn [length]. lia.
Qed.

Lemma all_arcs_sum {W} n (nb : nat -> list (nat * W)) : N.of_nat (length (all_arcs n nb)) = sumN n (fun v => N.of_nat (length (nb v))).
Proof.
  unfold all_arcs. induction n; auto. rewrite seq_S, map_app, concat_app, app_length. cbn [map concat sumN]. rewrite app_nil_r, map_length. rewrite <- IHn. cbn [plus]. lia.
Qed.

Lemma rev_sum {W} n (nb : nat -> list (nat * W)) : (forall u v w, u < n -> In (v, w) (nb u) -> v < n) ->
  sumN n (fun v => N.of_nat (length (flat_map (fun u => map (fun a => (u, snd a)) (filter (fun a => fst a =? v) (nb u))) (seq 0 n)))) = sumN n (fun v => N.of_nat (length (nb v))).
Proof.
  intros H. rewrite <- (all_arcs_sum n nb). unfold all_arcs.
  assert (G : forall L, (forall u, In u L -> u < n) -> sumN n (fun v => N.of_nat (length (flat_map (fun u => map (fun a => (u, snd a)) (filter (fun a => fst a =? v) (nb u))) L))) = N.of_nat (length (concat (map (fun u => map (fun a => (u, a)) (nb u)) L)))).
  { induction L as [|u L IH]; intros HL. { cbn. apply sumN_zero. }
    rewrite (sumN_ext n _ (fun v => N.of_nat (length (filter (fun a => (fst a =? v)%nat) (nb u))) + N.of_nat (length (flat_map (fun u => map (fun a => (u, snd a)) (filter (fun a => (fst a =? v)%nat) (nb u))) L)))%N).
    2: { intros v _. cbn [flat_map]. rewrite app_length, map_length. lia. }
    rewrite sumN_add, IH by (intros; apply HL; right; auto). rewrite count_heads. { cbn [map concat]. rewrite app_length, map_length. lia. }
    intros v w Hv. apply (H u v w); auto. apply HL. left; auto. }
  apply G. intros u Hu. apply in_seq in Hu. lia.
Qed.

(** ** the symmetric degree *)
Definition cnt (p : nat -> bool) (l : list nat) : nat := length (filter p l).
Lemma cnt_cons p x l : cnt p (x :: l) = (if p x then 1 else 0) + cnt p l.
Proof. unfold cnt. cbn [filter]. destruct (p x); auto. Qed.
Lemma cnt_perm p l l' : Permutation l l' -> cnt p l = cnt p l'.
Proof. induction 1; rewrite ?cnt_cons in *; auto; lia. Qed.
Lemma sd_merge_nil_l b : sd_merge [] b = length b.
Proof. induction b; [reflexivity|]. cbn [length]. rewrite <- IHb. reflexivity. Qed.
Lemma sd_merge_nil_r f : sd_merge f [] = length f.
Proof. induction f; [reflexivity|]. cbn [length]. rewrite <- IHf. reflexivity. Qed.
Lemma sd_merge_cons x f y b : sd_merge (x :: f) (y :: b) = S (if x =? y then sd_merge f b else if x <? y then sd_merge f (y :: b) else sd_merge (x :: f) b).
Proof. reflexivity. Qed.
Lemma cnt_le p l : cnt p l <= length l.
Proof. induction l; rewrite ?cnt_cons; cbn [length]; auto. destruct (p a); lia. Qed.
Lemma sd_lower u f : forall b, cnt (fun x => negb (x =? u)) f + cnt (fun x => x =? u) b <= sd_merge f b.
Proof.
  induction f as [|x f IHf]; intros b. { rewrite sd_merge_nil_l. pose proof (cnt_le (fun x => x =? u) b). change (cnt (fun x => negb (x =? u)) []) with 0. lia. }
  induction b as [|y b IHb]. { rewrite sd_merge_nil_r. pose proof (cnt_le (fun x => negb (x =? u)) (x :: f)). change (cnt (fun x => x =? u) []) with 0. lia. }
  rewrite sd_merge_cons. destruct (Nat.eqb_spec x y) as [->|Nxy]; [|destruct (x <? y)].
  - rewrite !cnt_cons. specialize (IHf b). destruct (y =? u); cbn [negb]; lia.
  - rewrite cnt_cons. specialize (IHf (y :: b)). destruct (x =? u); cbn [negb]; lia.
  - rewrite (cnt_cons _ y b). destruct (y =? u); lia.
Qed.
Lemma sd_upper f : forall b, sd_merge f b <= length f + length b.
Proof.
  induction f as [|x f IHf]; intros b. { rewrite sd_merge_nil_l. cbn. lia. }
  induction b as [|y b IHb]. { rewrite sd_merge_nil_r. cbn. lia. }
  rewrite sd_merge_cons. destruct (Nat.eqb_spec x y) as [->|Nxy]; [|destruct (x <? y)]; cbn [length] in *.
  - specialize (IHf b). lia.
  - specialize (IHf (y :: b)). cbn [length] in *. lia.
  - lia.
Qed.
Lemma isort_perm l : Permutation (isort l) l.
Proof.
  induction l as [|x l IH]; [auto|]. cbn [isort]. etransitivity; [|apply perm_skip, IH].
  clear IH. induction (isort l) as [|y m IHm]; [auto|]. cbn [ins]. destruct (_ <=? _); auto. etransitivity; [apply perm_skip, IHm|]. apply perm_swap.
Qed.
Lemma symdeg_lower f b u : cnt (fun x => negb (x =? u)) f + cnt (fun x => x =? u) b <= symmetric_degree f b.
Proof. unfold symmetric_degree. rewrite <- (cnt_perm _ _ _ (isort_perm f)), <- (cnt_perm _ _ _ (isort_perm b)). apply sd_lower. Qed.
Lemma symdeg_upper f b : symmetric_degree f b <= length f + length b.
Proof. unfold symmetric_degree. rewrite <- (Permutation_length (isort_perm f)), <- (Permutation_length (isort_perm b)). apply sd_upper. Qed.

(** ** small pieces *)
Lemma max_by_key_in {A} (key : A -> nat) l : l <> [] -> exists x, max_by_key key l = Some x /\ In x l.
Proof.
  intros H. unfold max_by_key. destruct l as [|a l]; [congruence|]. cbn [fold_left].
  assert (G : forall l y L, In y L -> incl l L -> exists x, fold_left (fun o x => match o with None => Some x | Some y => Some (if key y <=? key x then x else y) end) l (Some y) = Some x /\ In x L).
  { clear. induction l as [|b l IH]; intros y L Hy HL; cbn [fold_left]. { eauto. }
    apply IH; [|intros z Hz; apply HL; right; auto]. destruct (key y <=? key b); auto. apply HL; left; auto. }
  apply G. { left; auto. } intros z Hz. right; auto.
Qed.

Lemma core_fill n es : (forall x, ends es x -> x < n) ->
  exists core, foldM (fun c '(u, v) => c' <- set_at c u true ;; set_at c' v true) es (repeat false n) = Some core /\ length core = n /\ forall v, nth v core false = true <-> ends es v.
Proof.
  intros H.
  destruct (foldM_inv (fun c '(u, v) => c' <- set_at c u true ;; set_at c' v true) (fun pre c => length c = n /\ forall v, nth v c false = true <-> ends pre v) es (repeat false n)) as (core & E & HL & HV).
  - split. { apply repeat_length. } intros v. rewrite nth_repeat. split; [discriminate|]. intros X. destruct (ends_nil _ X).
  - intros pre [u v] post c Eq [HL HV].
    assert (Hu : u < n). { apply H. rewrite Eq, ends_app, ends_cons. auto. } assert (Hv : v < n). { apply H. rewrite Eq, ends_app, ends_cons. auto. }
    rewrite set_at_lt by lia. cbn [bind]. rewrite set_at_lt by (rewrite upd_length; lia). eexists; split; [reflexivity|]. split. { rewrite !upd_length; auto. }
    intros w. rewrite nth_upd by (rewrite upd_length; lia). rewrite nth_upd by lia. rewrite ends_app, ends_cons, <- HV.
    destruct (Nat.eqb_spec w v); [tauto|]. destruct (Nat.eqb_spec w u); [tauto|]. split; auto. intros [|[|[|X]]]; auto; try tauto. destruct (ends_nil _ X).
  - exists core. auto.
Qed.

Lemma position_or_spec {A} d (p : A -> bool) l i : 
  (exists j x, position_or d p l i = i + j /\ nth_error l j = Some x /\ p x = true /\ forall j' y, j' < j -> nth_error l j' = Some y -> p y = false) \/
  (position_or d p l i = d /\ forall y, In y l -> p y = false).
Proof.
  revert i. induction l as [|x l IH]; intros i; cbn [position_or]. { right. split; auto. intros y []. }
  destruct (p x) eqn:E. { left. exists 0, x. split; [lia|]. split; auto. split; auto. intros; lia. }
  destruct (IH (S i)) as [(j & y & E1 & E2 & E3 & E4)|[E1 E2]].
  - left. exists (S j), y. split; [lia|]. split; auto. split; auto. intros [|j'] z Hj Ez; cbn in Ez. { congruence. } apply (E4 j' z); auto. lia.
  - right. split; auto. intros y [<-|Hy]; auto.
Qed.

Lemma filter_split_perm {A} (p : A -> bool) l : Permutation (filter p l ++ filter (fun x => negb (p x)) l) l.
Proof.
  induction l as [|x l IH]; auto. cbn [filter]. destruct (p x); cbn [negb app]. { constructor; auto. }
  symmetry. apply Permutation_cons_app. symmetry; auto.
Qed.

Lemma order_ok debug v n : Permutation v (seq 0 n) -> (N.of_nat n < U32MAX)%N ->
  exists r, from_node_order debug v = Some (mkOrder v r) /\ node_order n v r.
Proof.
  intros HP HN. pose proof (Permutation_length HP) as L. rewrite seq_length in L.
  destruct (invert_ok debug v) as (r & E & Lr & K). { unfold perm_vec. rewrite L. auto. } { rewrite L; auto. }
  exists r. unfold from_node_order. rewrite E. cbn [bind]. split; auto. split; auto. split; [lia|]. split; intros; apply K; auto.
Qed.

(** ** the whole construction *)
Section Build.
  Context {W : Type}.
  Variable debug : bool.
  Variable dsort : (nat -> nat) -> list nat -> list nat.
  Hypothesis Hsort : key_sort dsort.
  Variables n m : nat.
  Variable links : nat -> option (list (nat * W)).
  Variable nb : nat -> list (nat * W).
  Hypothesis He : enum n links nb.
  Hypothesis Hm : m = length (all_arcs n nb).
  Hypothesis Hn : (N.of_nat n + 1 < U32MAX)%N.
  Hypothesis Hm1 : (N.of_nat m < U32MAX)%N.
  Hypothesis Hpos : 0 < n.

  Definition ins_of (v : nat) : list nat := flat_map (fun u => map (fun _ => u) (filter (fun a => fst a =? v) (nb u))) (seq 0 n).
  Definition outs_of (u : nat) : list nat := map fst (nb u).
  Definition deg_of (u : nat) : nat := as_u8 (symmetric_degree (outs_of u) (ins_of u)).
  Definition adj (u v : nat) : Prop := In v (ins_of u) \/ In v (outs_of u).

  Lemma ins_spec u v : In u (ins_of v) <-> u < n /\ In v (outs_of u).
  Proof using.
    clear He Hm Hn Hm1 Hpos Hsort links. unfold ins_of, outs_of. rewrite in_flat_map. split.
    - intros (x & Hx & Hu). apply in_map_iff in Hu. destruct Hu as (a & <- & Ha). apply filter_In in Ha. destruct Ha as [Ha E]. apply Nat.eqb_eq in E. apply in_seq in Hx. split; [lia|]. apply in_map_iff. exists a; auto.
    - intros (Hu & Hv). apply in_map_iff in Hv. destruct Hv as (a & <- & Ha). exists u. split. { apply in_seq; lia. } apply in_map_iff. exists a. split; auto. apply filter_In. split; auto. apply Nat.eqb_refl.
  Qed.

  (** what callers may rely on; nodes are ranks, [nd r] is the original node *)
  Record vt_good (vt : vtopo) : Prop := {
    v_order : node_order n (no_order (vt_order vt)) (no_ranks (vt_order vt));
    v_core : vt_core vt <= n;
    v_degs : forall r u, vt_core vt <= r -> nth_error (no_order (vt_order vt)) r = Some u -> nth_error (vt_degs vt) (r - vt_core vt) = Some (deg_of u);
    v_d2 : forall r u, nth_error (no_order (vt_order vt)) r = Some u -> (r < vt_deg2 vt -> 3 <= deg_of u) /\ (vt_deg2 vt <= r < vt_core vt -> deg_of u <= 2);
    v_d3 : forall r u, nth_error (no_order (vt_order vt)) r = Some u -> (r < vt_deg3 vt -> 4 <= deg_of u) /\ (vt_deg3 vt <= r < vt_core vt -> deg_of u <= 3);
    v_d23 : vt_deg3 vt <= vt_deg2 vt <= n;
    v_bcc : forall r u, vt_core vt <= r -> nth_error (no_order (vt_order vt)) r = Some u ->
      exists c ob, nth_error (vt_bcc vt) (r - vt_core vt) = Some c /\ nth_error (vt_bridge vt) c = Some ob /\ (forall b, ob = Some b -> b < vt_core vt) /\
        forall r' u', nth_error (no_order (vt_order vt)) r' = Some u' -> adj u u' ->
          (r' < vt_core vt -> ob = Some r') /\ (vt_core vt <= r' -> nth_error (vt_bcc vt) (r' - vt_core vt) = Some c) }.

  Set Default Proof Using "All".
  Lemma topocore_ok : exists vt, virtual_topocore debug dsort n m links = Some vt /\ vt_good vt.
  Proof.
    unfold virtual_topocore.
    assert (Hrange : forall u v w, u < n -> In (v, w) (nb u) -> v < n). { intros u v w Hu. apply (He u Hu). }
    (* dfs *)
    unfold dfs_pre_order. destruct (dfs_ok n (heads_of links) outs_of) with (fuel := N.of_nat (n + m + 2)) as (vis & ord & E1 & P1).
    { intros u Hu. unfold heads_of. destruct (He u Hu) as [-> X]. cbn [bind]. split; auto. apply Forall_forall. intros v Hv. apply in_map_iff in Hv. destruct Hv as ([v' w] & <- & Hv). eauto. }
    { unfold dsum, outs_of. rewrite (sumN_ext n _ (fun v => N.of_nat (length (nb v)))) by (intros; rewrite map_length; auto). rewrite <- all_arcs_sum. lia. }
    rewrite E1. cbn [bind]. destruct (order_ok debug ord n P1 ltac:(lia)) as (r1 & E2 & NO1). rewrite E2. cbn [bind no_order].
    (* reversed *)
    set (nbu := fun u => map (fun a : nat * W => (fst a, tt)) (nb u)).
    destruct (reversed_ok tt n m (fun u => l <- links u ;; Some (map (fun a => (fst a, tt)) l)) nbu) as (rg & E3 & _ & _ & _ & L3).
    { intros u Hu. destruct (He u Hu) as [-> X]. cbn [bind]. split; auto. intros v w Hv. apply in_map_iff in Hv. destruct Hv as ([v' w'] & [= <- <-] & Hv). eauto. }
    { rewrite Hm. apply Nat2N.inj. rewrite !all_arcs_sum. apply sumN_ext. intros v _. unfold nbu. rewrite map_length. auto. }
    { auto. } { auto. }
    rewrite E3. cbn [bind].
    assert (HI : forall v, v < n -> heads_of (link_iter rg) v = Some (ins_of v)).
    { intros v Hv. unfold heads_of. rewrite (L3 v Hv). cbn [bind]. f_equal. unfold ins_of. rewrite !flat_map_concat_map, concat_map, map_map. f_equal. apply map_ext. intros u.
      rewrite map_map. cbn [fst]. unfold nbu. clear. induction (nb u) as [|[x w] l IH]; auto. cbn [map filter fst]. destruct (x =? v); cbn [map]; congruence. }
    assert (HO : forall v, v < n -> heads_of links v = Some (outs_of v)). { intros v Hv. unfold heads_of. destruct (He v Hv) as [-> _]. auto. }
    (* degrees *)
    rewrite (mapM_Some _ deg_of). 2: { intros u Hu. apply in_seq in Hu. rewrite HO, HI by lia. auto. } cbn [bind].
    (* biconnected components *)
    set (hs := fun u => ins_of u ++ outs_of u).
    assert (HB : forall u, u < n -> both_heads links (link_iter rg) u = Some (hs u)). { intros u Hu. unfold both_heads. rewrite HO, HI by auto. auto. }
    assert (HsLt : forall u, u < n -> Forall (fun v => v < n) (hs u)).
    { intros u Hu. apply Forall_forall. intros v Hv. apply in_app_or in Hv. destruct Hv as [Hv|Hv]. { apply ins_spec in Hv. tauto. } apply in_map_iff in Hv. destruct Hv as ([v' w] & <- & Hv). eauto. }
    assert (HsSym : forall u v, u < n -> v < n -> In v (hs u) -> In u (hs v)).
    { intros u v Hu Hv Hi. apply in_app_or in Hi. apply in_or_app. destruct Hi as [Hi|Hi]. { apply ins_spec in Hi. tauto. } left. apply ins_spec. auto. }
    destruct (biconnected_ok n hs HsLt HsSym debug (both_heads links (link_iter rg)) HB (N.of_nat (2 * (n + m) + 2 + n))) as (comps & E4 & Hne & HC).
    { unfold bsum, hs. rewrite (sumN_ext n _ (fun v => 1 + (N.of_nat (length (ins_of v)) + N.of_nat (length (outs_of v))))%N) by (intros; rewrite app_length; lia).
      rewrite !sumN_add. assert (S1 : sumN n (fun v => N.of_nat (length (ins_of v))) = N.of_nat m).
      { rewrite Hm, all_arcs_sum, <- (rev_sum n nb Hrange). apply sumN_ext. intros v _. f_equal. unfold ins_of. clear. induction (seq 0 n) as [|u L IH]; auto. cbn [flat_map]. rewrite !app_length, !map_length. auto. }
      assert (S2 : sumN n (fun v => N.of_nat (length (outs_of v))) = N.of_nat m). { rewrite Hm, all_arcs_sum. apply sumN_ext. intros v _. unfold outs_of. rewrite map_length. auto. }
      rewrite S1, S2. pose proof (sumN_const n 1%N (fun _ => 1%N) (fun _ _ => N.le_refl 1)). lia. }
    rewrite E4. cbn [bind]. destruct (max_by_key_in (@length (nat * nat)) comps (Hne Hpos)) as (big & E5 & Hbig). rewrite E5. cbn [bind].
    rewrite Forall_forall in HC. destruct (HC big Hbig) as [HK1 HK2].
    destruct (core_fill n big HK1) as (core & E6 & Lc & Kc). rewrite E6. cbn [bind].
    assert (Hreg : forall x, x < n -> ~ inK core x -> region_of n hs (inK core) x).
    { intros x Hx Hnx. destruct (HK2 x Hx) as (P & c & Px & HP). { rewrite <- Kc. auto. } exists P, c. split; auto. intros y z Hy Py Ky Hz. unfold inK in *. rewrite !Kc in *. apply HP with (y := y); auto. }
    destruct (cmp_roots_ok n hs HsLt HsSym debug (both_heads links (link_iter rg)) HB core Lc Hreg (N.of_nat (n + 2))) as (comp & bridge & E7 & HW & HV). { lia. }
    rewrite E7. cbn [bind]. cbv zeta.
    set (deg := fun u => nth u (map deg_of (seq 0 n)) 0). set (incore := fun u => nth u core false).
    assert (Ed : forall u, u < n -> deg u = deg_of u). { intros u Hu. unfold deg. rewrite (nth_indep _ 0 (deg_of 0)) by (rewrite map_length, seq_length; auto). rewrite map_nth, seq_nth; auto. }
    set (cn := dsort (fun u => 4 - Nat.min (deg u) 4) (filter incore ord)). set (other := filter (fun u => negb (incore u)) ord).
    change (dsort (fun u => 4 - Nat.min (nth u (map deg_of (seq 0 n)) 0) 4) (filter incore ord)) with cn. change (filter (fun u => negb (nth u core false)) ord) with other.
    change (fun u => nth u (map deg_of (seq 0 n)) 0 <? 3) with (fun u => deg u <? 3). change (fun u => nth u (map deg_of (seq 0 n)) 0 <? 4) with (fun u => deg u <? 4).
    destruct (Hsort (fun u => 4 - Nat.min (deg u) 4) (filter incore ord)) as [SP SS]. fold cn in SP, SS.
    assert (HPN : Permutation (cn ++ other) (seq 0 n)). { rewrite SP. unfold other. rewrite filter_split_perm. auto. }
    assert (HinN : forall u, In u (cn ++ other) -> u < n). { intros u Hu. apply (Permutation_in _ HPN) in Hu. apply in_seq in Hu. lia. }
    assert (Hoth : forall u, In u other -> u < n /\ ~ inK core u). { intros u Hu. split. { apply HinN, in_or_app; auto. } apply filter_In in Hu. destruct Hu as [_ Hu]. unfold inK. fold (incore u). destruct (incore u); [discriminate|auto]. }
    assert (Hcn : forall u, In u cn -> u < n /\ inK core u). { intros u Hu. split. { apply HinN, in_or_app; auto. } apply (Permutation_in _ SP) in Hu. apply filter_In in Hu. tauto. }
    rewrite (mapM_Some _ (fun u => nth u comp 0 - 1)). 2: { intros u Hu. destruct (Hoth u Hu) as [Hu1 Hu2]. specialize (HV u Hu1 Hu2). unfold cu in HV. unfold csub. destruct (Nat.leb_spec 1 (nth u comp 0)); [auto|lia]. }
    cbn [bind]. destruct (order_ok debug (cn ++ other) n HPN ltac:(lia)) as (ranks & E8 & NO). rewrite E8. cbn [bind].
    pose proof NO as (LO & LR & NO3 & NO4).
    assert (Hrank : forall u, u < n -> exists r, nth_error ranks u = Some r). { intros u Hu. apply nth_error_lt. lia. }
    destruct (mapM_ok (fun b : option nat => match b with Some u => r <- no_rank (mkOrder (cn ++ other) ranks) u ;; Some (Some r) | None => Some None end) bridge) as (bridge' & E9 & F9).
    { intros [u|] Hb; [|eauto]. apply In_nth_error in Hb. destruct Hb as [i Hb]. destruct (w_br _ _ _ _ _ HW i u Hb) as [Hu _]. destruct (Hrank u Hu) as [r Er]. unfold no_rank. cbn [no_ranks]. rewrite Er. cbn. eauto. }
    rewrite E9. cbn [bind]. eexists; split; [reflexivity|].
    assert (Rpos : forall r u, nth_error (cn ++ other) r = Some u -> (r < length cn -> In u cn /\ nth_error cn r = Some u) /\ (length cn <= r -> In u other /\ nth_error other (r - length cn) = Some u)).
    { intros r u E. split; intros L. - rewrite nth_error_app1 in E by auto. split; auto. eapply nth_error_In; eauto. - rewrite nth_error_app2 in E by auto. split; auto. eapply nth_error_In; eauto. }
    assert (Dpos : forall t p, (forall u, p u = (deg u <? t)) -> t <= 4 -> forall r u, nth_error (cn ++ other) r = Some u ->
      (r < position_or n p (cn ++ other) 0 -> t <= deg_of u) /\ (position_or n p (cn ++ other) 0 <= r < length cn -> deg_of u < t)).
    { intros t p Hp Ht r u E. assert (Hu : u < n) by (apply HinN; eapply nth_error_In; eauto). assert (Hr : r < n) by (rewrite <- LO; eapply nth_error_Some_lt; eauto).
      destruct (position_or_spec n p (cn ++ other) 0) as [(j & x & A1 & A2 & A3 & A4)|[A1 A2]].
      - rewrite A1. cbn [plus]. split; intros L. { specialize (A4 r u L E). rewrite Hp, Ed in A4 by auto. apply Nat.ltb_ge in A4. auto. }
        assert (Hx : x < n) by (apply HinN; eapply nth_error_In; eauto). rewrite Hp, Ed in A3 by auto. apply Nat.ltb_lt in A3.
        destruct (Rpos j x A2) as [B1 _]. destruct (Rpos r u E) as [B2 _]. destruct B1 as [_ B1]; [lia|]. destruct B2 as [_ B2]; [lia|].
        assert (Hjr : j <= r) by lia. specialize (SS j r x u Hjr B1 B2). cbv beta in SS. rewrite !Ed in SS by auto. lia.
      - rewrite A1. split; intros L; [|pose proof (app_length cn other); lia]. specialize (A2 u (nth_error_In _ _ E)). rewrite Hp, Ed in A2 by auto. apply Nat.ltb_ge in A2. auto. }
    split; cbn [vt_order vt_core vt_deg2 vt_deg3 vt_degs vt_bcc vt_bridge no_order no_ranks]; auto.
    - rewrite <- LO, app_length. lia.
    - intros r u L E. destruct (Rpos r u E) as [_ X]. destruct (X L) as [Hu X2]. rewrite nth_error_map, X2. cbn. f_equal. apply Ed. apply Hoth; auto.
    - intros r u E. destruct (Dpos 3 (fun u => deg u <? 3) ltac:(auto) ltac:(lia) r u E) as [X Y]. split; auto. intros L. specialize (Y L). lia.
    - intros r u E. destruct (Dpos 4 (fun u => deg u <? 4) ltac:(auto) ltac:(lia) r u E) as [X Y]. split; auto. intros L. specialize (Y L). lia.
    - assert (X : forall p, position_or n p (cn ++ other) 0 <= n). { intros p. destruct (position_or_spec n p (cn ++ other) 0) as [(j & x & A1 & A2 & _)|[A1 _]]; rewrite A1; auto. apply nth_error_Some_lt in A2. lia. }
      split; auto. destruct (position_or_spec n (fun u => deg u <? 3) (cn ++ other) 0) as [(j & x & A1 & A2 & A3 & A4)|[A1 A2]]; rewrite A1; auto.
      destruct (position_or_spec n (fun u => deg u <? 4) (cn ++ other) 0) as [(j' & x' & B1 & B2 & B3 & B4)|[B1 B2]].
      + rewrite B1. cbn [plus]. destruct (Nat.le_gt_cases j' j); auto. specialize (B4 j x H A2). apply Nat.ltb_lt in A3. apply Nat.ltb_ge in B4. lia.
      + specialize (B2 x (nth_error_In _ _ A2)). apply Nat.ltb_lt in A3. apply Nat.ltb_ge in B2. lia.
    - intros r u L E. destruct (Rpos r u E) as [_ X]. destruct (X L) as [Hu X2]. destruct (Hoth u Hu) as [Hun HuK]. specialize (HV u Hun HuK).
      assert (HL' : cu comp u - 1 < length bridge). { pose proof (w_le _ _ _ _ _ HW u Hun). lia. }
      destruct (nth_error_lt bridge _ HL') as [ob Eob]. destruct (Forall2_nth _ _ _ _ _ F9 Eob) as (ob' & Eob' & Hob).
      exists (nth u comp 0 - 1), ob'. rewrite nth_error_map, X2. split; auto. split; auto. split.
      { intros b ->. destruct ob as [c|]; [|discriminate]. destruct (w_br _ _ _ _ _ HW _ _ Eob) as [Hc Kcc]. unfold no_rank in Hob. cbn [no_ranks] in Hob. destruct (nth_error ranks c) as [rc|] eqn:Erc; [|discriminate]. cbn in Hob. injection Hob as <-.
        apply NO4 in Erc. destruct (Nat.lt_ge_cases rc (length cn)); auto. destruct (Rpos rc c Erc) as [_ Y]. destruct (Y H) as [Yc _]. destruct (Hoth c Yc) as [_ Z]. tauto. }
      intros r' u' E' Hadj. assert (Hn' : u' < n) by (apply HinN; eapply nth_error_In; eauto).
      assert (Hin : In u' (hs u)). { unfold hs. apply in_or_app. exact Hadj. }
      destruct (w_nb _ _ _ _ _ HW u Hun HV u' Hin) as [Y1 Y2]. split; intros L'.
      + destruct (Rpos r' u' E') as [Z _]. destruct (Z L') as [Zc _]. destruct (Hcn u' Zc) as [_ Zk]. specialize (Y1 Zk). rewrite Eob in Y1. injection Y1 as ->.
        unfold no_rank in Hob. cbn [no_ranks] in Hob. rewrite (NO3 r' u' E') in Hob. cbn in Hob. congruence.
      + destruct (Rpos r' u' E') as [_ Z]. destruct (Z L') as [Zo Zn]. destruct (Hoth u' Zo) as [_ Zk]. specialize (Y2 Zk). rewrite nth_error_map, Zn. cbn. unfold cu in Y2. rewrite Y2. auto.
  Qed.
End Build.
