(** Chordal completion: properties of CCH.contraction_new and CCH.contraction_contract. *)
From Verif Require Import Base Graph GraphProof GraphRevProof GraphSpecProof SpecGraph SpecCCH CCH CCHTheory.
From Coq Require Import Sorting.Sorted.

Lemma merge_nil_r a : merge_neighbors a [] = a.
Proof. destruct a; reflexivity. Qed.
Lemma merge_cons x a y b : merge_neighbors (x :: a) (y :: b) =
  match Nat.compare x y with Lt => x :: merge_neighbors a (y :: b) | Gt => y :: merge_neighbors (x :: a) b | Eq => x :: merge_neighbors a b end.
Proof. reflexivity. Qed.
Lemma merge_In a : forall b x, In x (merge_neighbors a b) <-> In x a \/ In x b.
Proof.
  induction a as [|y a IHa]; intros b x. { destruct b; cbn; tauto. }
  induction b as [|z b IHb]. { rewrite merge_nil_r. cbn. tauto. }
  rewrite merge_cons. destruct (Nat.compare_spec y z) as [->|L|L]; cbn [In].
  - rewrite IHa. tauto.
  - rewrite IHa. cbn [In]. tauto.
  - rewrite IHb. cbn [In]. tauto.
Qed.
Lemma ss_inv (x : nat) l : ascending_list (x :: l) -> ascending_list l /\ forall y, In y l -> x < y.
Proof. intros H. apply StronglySorted_inv in H. destruct H as [H1 H2]. split; auto. apply Forall_forall. auto. Qed.
Lemma ss_cons (x : nat) l : ascending_list l -> (forall y, In y l -> x < y) -> ascending_list (x :: l).
Proof. intros H1 H2. constructor; auto. apply Forall_forall. auto. Qed.
Lemma merge_sorted a : forall b, ascending_list a -> ascending_list b -> ascending_list (merge_neighbors a b).
Proof.
  induction a as [|y a IHa]; intros b Ha Hb. { destruct b; auto. }
  induction b as [|z b IHb]. { rewrite merge_nil_r. auto. }
  rewrite merge_cons. destruct (ss_inv _ _ Ha) as [Ha1 Ha2]. destruct (ss_inv _ _ Hb) as [Hb1 Hb2].
  destruct (Nat.compare_spec y z) as [->|L|L].
  - apply ss_cons. { apply IHa; auto. } intros w Hw. apply merge_In in Hw. destruct Hw; auto.
  - apply ss_cons. { apply IHa; auto. } intros w Hw. apply merge_In in Hw. destruct Hw as [Hw|[<-|Hw]]; auto. apply Hb2 in Hw. lia.
  - apply ss_cons. { apply IHb; auto. } intros w Hw. apply merge_In in Hw. destruct Hw as [[<-|Hw]|Hw]; auto. apply Ha2 in Hw. lia.
Qed.

Lemma ins_In x l y : In y (ins x l) <-> y = x \/ In y l.
Proof. induction l as [|z l IH]; cbn [ins In]. { intuition. } destruct (x <=? z); cbn [In]; [|rewrite IH]; intuition. Qed.
Lemma isort_In l y : In y (isort l) <-> In y l.
Proof. induction l as [|x l IH]; cbn [isort In]. { tauto. } rewrite ins_In, IH. intuition. Qed.
Lemma ins_sorted x l : StronglySorted le l -> StronglySorted le (ins x l).
Proof.
  induction 1 as [|z l Hl IH HF]; cbn [ins]. { repeat constructor. }
  rewrite Forall_forall in HF. destruct (Nat.leb_spec x z).
  - constructor. { constructor; auto. apply Forall_forall; auto. } apply Forall_forall. intros w [<-|Hw]; auto. apply HF in Hw. lia.
  - constructor; auto. apply Forall_forall. intros w Hw. apply ins_In in Hw. destruct Hw as [->|Hw]; auto. lia.
Qed.
Lemma isort_sorted l : StronglySorted le (isort l).
Proof. induction l; cbn [isort]. { constructor. } apply ins_sorted; auto. Qed.
Lemma dedup_In l y : In y (dedup l) <-> In y l.
Proof.
  induction l as [|x l IH]; cbn [dedup]. { tauto. } destruct (dedup l) as [|z r] eqn:E.
  - cbn [In] in *. intuition.
  - destruct (Nat.eqb_spec x z) as [->|Ne]; cbn [In] in *; intuition.
Qed.
Lemma dedup_sorted l : StronglySorted le l -> ascending_list (dedup l).
Proof.
  induction 1 as [|x l Hl IH HF]; cbn [dedup]. { constructor. } rewrite Forall_forall in HF.
  destruct (dedup l) as [|z r] eqn:E. { repeat constructor. }
  assert (HI : forall y, In y (z :: r) -> x <= y). { intros y Hy. apply HF. rewrite <- dedup_In, E. auto. }
  destruct (Nat.eqb_spec x z) as [->|Ne]; auto.
  apply ss_cons; auto. intros y [<-|Hy]. { specialize (HI z ltac:(left; auto)). lia. }
  destruct (ss_inv _ _ IH) as [_ H2]. specialize (H2 y Hy). specialize (HI z ltac:(left; auto)). lia.
Qed.

Lemma node_insert_In es x y : In y (node_insert es x) <-> y = x \/ In y es.
Proof.
  unfold node_insert. destruct (existsb (Nat.eqb x) es) eqn:E.
  - apply existsb_exists in E. destruct E as (z & Hz & Ez). apply Nat.eqb_eq in Ez. subst z. intuition. subst; auto.
  - rewrite in_app_iff. cbn. intuition.
Qed.

(** lists of lists as neighbourhood functions *)
Definition nbh (nodes : list (list nat)) (x : nat) : list nat := nth x nodes [].
Lemma nbh_nth nodes x : x < length nodes -> nth_error nodes x = Some (nbh nodes x).
Proof. intros. apply nth_error_nth_some. auto. Qed.
Lemma nbh_upd nodes x l y : x < length nodes -> nbh (upd nodes x l) y = if x =? y then l else nbh nodes y.
Proof. intros H. unfold nbh. rewrite nth_upd. destruct (Nat.ltb_spec x (length nodes)); [|lia]. rewrite andb_true_r. auto. Qed.
Lemma nbh_out nodes x : length nodes <= x -> nbh nodes x = [].
Proof. intros. apply nth_overflow. auto. Qed.

Section Undirect.
  Variable n : nat.
  Variable nodes0 : list (list nat).
  Hypothesis L0 : length nodes0 = n.
  Hypothesis R0 : forall x v, In v (nbh nodes0 x) -> v < n /\ v <> x.

  Let E0 x v := In v (nbh nodes0 x).

  (** after the first [k] nodes *)
  Record UInv (k : nat) (nodes : list (list nat)) : Prop := {
    ui_len : length nodes = n;
    ui_sub : forall x v, In v (nbh nodes x) -> E0 x v \/ E0 v x;
    ui_sup : forall x v, E0 x v -> In v (nbh nodes x);
    ui_done : forall x v, x < k -> E0 x v -> In x (nbh nodes v) }.

  Lemma E0_lt x v : E0 x v -> x < n /\ v < n /\ v <> x.
  Proof using L0 R0.
    intros H. destruct (R0 x v H). split; auto. destruct (Nat.lt_ge_cases x n); auto.
    unfold E0 in H. rewrite nbh_out in H by lia. destruct H.
  Qed.

  Lemma undirect_ok : exists nodes, foldM undirect_node (seq 0 n) nodes0 = Some nodes /\ UInv n nodes.
  Proof using L0 R0.
    destruct (foldM_inv undirect_node (fun pre nodes => UInv (length pre) nodes) (seq 0 n) nodes0) as (nodes & E & H).
    - constructor; auto. cbn. lia.
    - intros pre r post nodes Hsp H.
      assert (Hr : r = length pre). { assert (Hn : nth_error (seq 0 n) (length pre) = Some r) by (rewrite Hsp, nth_error_app2, Nat.sub_diag by lia; auto).
        apply nth_error_nth with (d := 0) in Hn. rewrite seq_nth in Hn; [lia|]. apply (f_equal (@length nat)) in Hsp. rewrite seq_length, app_length in Hsp. cbn in Hsp. lia. }
      assert (Hrn : r < n). { apply (f_equal (@length nat)) in Hsp. rewrite seq_length, app_length in Hsp. cbn in Hsp. lia. }
      destruct H as [h1 h2 h3 h4]. unfold undirect_node. rewrite nbh_nth by lia. cbn [bind].
      destruct (foldM_inv (fun nodes v => _ <- guard (negb (v =? r)) ;; l <- nth_error nodes v ;; set_at nodes v (node_insert l r))
                  (fun p nd => length nd = n /\ nbh nd r = nbh nodes r /\ (forall x v, In v (nbh nd x) -> In v (nbh nodes x) \/ (v = r /\ In x p)) /\
                     (forall x v, In v (nbh nodes x) -> In v (nbh nd x)) /\ (forall x, In x p -> In r (nbh nd x))) (nbh nodes r) nodes)
        as (nd & E' & (g1 & g2 & g3 & g4 & g5)).
      + split; [auto|]. split; [auto|]. split; [auto|]. split; [auto|]. intros x [].
      + intros p v q nd Esp (g1 & g2 & g3 & g4 & g5).
        assert (Hv : In v (nbh nodes r)) by (rewrite Esp; apply in_elt).
        assert (Hv' : v < n /\ v <> r). { destruct (h2 r v Hv) as [K|K]; apply E0_lt in K; intuition. }
        destruct (Nat.eqb_spec v r); [lia|]. cbn [negb guard bind]. rewrite nbh_nth by lia. cbn [bind].
        rewrite set_at_lt by lia. eexists; split; [reflexivity|].
        split; [rewrite upd_length; auto|]. split. { rewrite nbh_upd by lia. destruct (Nat.eqb_spec v r); [lia|auto]. }
        split; [|split].
        * intros x w. rewrite nbh_upd by lia. destruct (Nat.eqb_spec v x) as [->|].
          { rewrite node_insert_In. intros [->|Hw]. { right. split; auto. apply in_or_app; right; left; auto. }
            destruct (g3 x w Hw) as [?|[-> Hp]]; auto. right. split; auto. apply in_or_app; auto. }
          intros Hw. destruct (g3 x w Hw) as [?|[-> Hp]]; auto. right. split; auto. apply in_or_app; auto.
        * intros x w Hw. rewrite nbh_upd by lia. destruct (Nat.eqb_spec v x) as [->|]; auto. rewrite node_insert_In. auto.
        * intros x Hx. rewrite nbh_upd by lia. destruct (Nat.eqb_spec v x) as [->|Nx]. { rewrite node_insert_In. auto. }
          apply g5. apply in_app_or in Hx. destruct Hx as [?|[->|[]]]; auto. lia.
      + exists nd. split; [exact E'|]. rewrite app_length; cbn [length]. rewrite <- Hr. constructor; auto.
        * intros x v Hv. destruct (g3 x v Hv) as [K|[-> K]]; auto. destruct (h2 r x K); auto.
        * intros x v Hx Hv. destruct (Nat.eq_dec x r) as [->|Nx]. { apply g5. apply h3; auto. } apply g4. apply h4; auto. lia.
    - exists nodes. split; auto. rewrite seq_length in H. auto.
  Qed.
End Undirect.

Lemma seq_split n pre (r : nat) post : seq 0 n = pre ++ r :: post -> r = length pre /\ r < n.
Proof.
  intros Hsp. assert (L : length pre < n). { apply (f_equal (@length nat)) in Hsp. rewrite seq_length, app_length in Hsp. cbn in Hsp. lia. }
  assert (Hn : nth_error (seq 0 n) (length pre) = Some r) by (rewrite Hsp, nth_error_app2, Nat.sub_diag by lia; auto).
  apply nth_error_nth with (d := 0) in Hn. rewrite seq_nth in Hn by auto. lia.
Qed.

Lemma mapM_ok {A B} (f : A -> option B) l : (forall a, In a l -> exists b, f a = Some b) ->
  exists r, mapM f l = Some r /\ Forall2 (fun a b => f a = Some b) l r.
Proof.
  induction l as [|a l IH]; intros H; cbn [mapM]. { exists []. auto. }
  destruct (H a ltac:(left; auto)) as (b & Eb). destruct IH as (r & Er & Hr). { intros; apply H; right; auto. }
  rewrite Eb; cbn [bind]. rewrite Er; cbn [bind]. exists (b :: r). auto.
Qed.
Lemma mapM_inv {A B} (f : A -> option B) l r : mapM f l = Some r -> Forall2 (fun a b => f a = Some b) l r.
Proof.
  revert r; induction l as [|a l IH]; intros r; cbn [mapM]. { intros [= <-]; auto. }
  destruct (f a) eqn:E; [|discriminate]; cbn [bind]. destruct (mapM f l); [|discriminate]; cbn [bind]. intros [= <-]. auto.
Qed.
Lemma Forall2_nth {A B} (P : A -> B -> Prop) l r i a : Forall2 P l r -> nth_error l i = Some a -> exists b, nth_error r i = Some b /\ P a b.
Proof. intros H; revert i; induction H; intros [|i]; cbn; try discriminate. - intros [= <-]; eauto. - auto. Qed.
Lemma Forall2_len {A B} (P : A -> B -> Prop) l r : Forall2 P l r -> length l = length r.
Proof. induction 1; cbn; auto. Qed.

Section New.
  Variable n : nat.
  Variable links : nat -> option (list nat).
  Variable nbl : nat -> list nat.
  Hypothesis HL : forall u, u < n -> links u = Some (nbl u).
  Hypothesis HR : forall u v, u < n -> In v (nbl u) -> v < n.
  Variables order ranks : list nat.
  Hypothesis HO : node_order n order ranks.

  (** joined by an arc in one direction or the other, in rank numbers *)
  Definition touch (x y : nat) : Prop :=
    exists u v, nth_error order x = Some u /\ nth_error order y = Some v /\ (In v (nbl u) \/ In u (nbl v)).

  Lemma order_lt x u : nth_error order x = Some u -> x < n /\ u < n.
  Proof using HL HR HO.
    destruct HO as (H1 & H2 & H3 & H4). intros E. pose proof (H3 _ _ E) as E'.
    apply nth_error_Some_lt in E, E'. lia.
  Qed.
  Lemma order_some x : x < n -> exists u, nth_error order x = Some u.
  Proof using HL HR HO. destruct HO as (H1 & _). intros. apply nth_error_lt. lia. Qed.
  Lemma ranks_some u : u < n -> exists x, nth_error ranks u = Some x /\ nth_error order x = Some u.
  Proof using HL HR HO. destruct HO as (H1 & H2 & H3 & H4). intros. destruct (nth_error_lt ranks u) as [x E]; [lia|]. eauto. Qed.
  Lemma order_inj x y u : nth_error order x = Some u -> nth_error order y = Some u -> x = y.
  Proof using HL HR HO. destruct HO as (H1 & H2 & H3 & H4). intros E1 E2. apply H3 in E1, E2. congruence. Qed.

  Lemma contraction_new_ok : exists nodes, contraction_new n links order ranks = Some nodes /\ length nodes = n /\
    forall r, ascending_list (nbh nodes r) /\ forall v, In v (nbh nodes r) <-> r < v /\ v < n /\ touch r v.
  Proof using HL HR HO.
    destruct HO as (O1 & O2 & O3 & O4). unfold contraction_new.
    destruct (mapM_ok (fun r => old <- nth_error order r ;; ls <- links old ;; mapM (fun v => nth_error ranks v) (filter (fun v => negb (v =? old)) ls)) (seq 0 n))
      as (nodes0 & E0 & F0).
    { intros r Hr. apply in_seq in Hr. destruct (order_some r ltac:(lia)) as (u & Eu). rewrite Eu; cbn [bind].
      destruct (order_lt r u Eu) as [_ Hu]. rewrite HL by auto. cbn [bind].
      destruct (mapM_ok (fun v => nth_error ranks v) (filter (fun v => negb (v =? u)) (nbl u))) as (l & El & _).
      { intros v Hv. apply filter_In in Hv. destruct Hv as [Hv _]. apply HR in Hv; auto. apply nth_error_lt. lia. }
      rewrite El. eauto. }
    rewrite E0; cbn [bind].
    assert (L0 : length nodes0 = n). { apply Forall2_len in F0. rewrite seq_length in F0. auto. }
    assert (N0 : forall r v, In v (nbh nodes0 r) <-> exists u x, nth_error order r = Some u /\ nth_error order v = Some x /\ In x (nbl u) /\ v <> r).
    { intros r v. destruct (Nat.lt_ge_cases r n) as [Hr|Hr].
      2: { rewrite nbh_out by lia. split; [intros []|]. intros (u & x & Eu & _). apply order_lt in Eu. lia. }
      destruct (Forall2_nth _ _ _ r r F0) as (b & Eb & Hb). { rewrite nth_error_nth_some with (d := 0) by (rewrite seq_length; auto). rewrite seq_nth; auto. }
      rewrite nbh_nth in Eb by lia. injection Eb as <-.
      destruct (order_some r Hr) as (u & Eu). rewrite Eu in Hb; cbn [bind] in Hb. destruct (order_lt r u Eu) as [_ Hu].
      rewrite HL in Hb by auto; cbn [bind] in Hb. apply mapM_inv in Hb. split.
      - intros Hv. apply In_nth_error in Hv. destruct Hv as [i Ei].
        destruct (nth_error (filter (fun v => negb (v =? u)) (nbl u)) i) as [x|] eqn:Ex.
        2: { apply nth_error_None in Ex. apply Forall2_len in Hb. apply nth_error_Some_lt in Ei. lia. }
        destruct (Forall2_nth _ _ _ i x Hb Ex) as (v' & Ev' & Hrk). assert (v' = v) by congruence. subst v'.
        apply nth_error_In, filter_In in Ex. destruct Ex as [Hx Nx]. exists u, x. split; auto. split; [apply O4; auto|]. split; auto.
        intros ->. apply O4 in Hrk. assert (x = u) by congruence. subst. rewrite Nat.eqb_refl in Nx. discriminate.
      - intros (u' & x & Eu' & Ex & Hx & Ne). assert (u' = u) by congruence. subst u'.
        assert (Hf : In x (filter (fun v => negb (v =? u)) (nbl u))).
        { apply filter_In. split; auto. destruct (Nat.eqb_spec x u) as [->|]; auto. assert (v = r) by (eapply order_inj; eauto). lia. }
        apply In_nth_error in Hf. destruct Hf as [i Ei]. destruct (Forall2_nth _ _ _ i x Hb Ei) as (v' & Ev' & Hrk).
        apply O3 in Ex. assert (v' = v) by congruence. subst. eapply nth_error_In; eauto. }
    destruct (undirect_ok n nodes0 L0) as (nodes & E & [h1 h2 h3 h4]).
    { intros x v Hv. apply N0 in Hv. destruct Hv as (u & y & _ & Ey & _ & Ne). apply order_lt in Ey. lia. }
    rewrite E; cbn [bind]. eexists; split; [reflexivity|]. split. { rewrite map_length, combine_length, seq_length. lia. }
    intros r. destruct (Nat.lt_ge_cases r n) as [Hr|Hr].
    2: { rewrite nbh_out by (rewrite map_length, combine_length, seq_length; lia). split; [constructor|]. intros v. split; [intros []|lia]. }
    assert (Er : nbh (map (fun '(r, es) => dedup (isort (filter (fun v => r <? v) es))) (combine (seq 0 n) nodes)) r
                 = dedup (isort (filter (fun v => r <? v) (nbh nodes r)))).
    { unfold nbh at 1. set (f := fun '(r, es) => dedup (isort (filter (fun v => r <? v) es))).
      rewrite nth_indep with (d' := f (0, [])) by (rewrite map_length, combine_length, seq_length; lia).
      rewrite map_nth, combine_nth, seq_nth by (rewrite ?seq_length; auto). reflexivity. }
    rewrite Er. split. { apply dedup_sorted, isort_sorted. }
    intros v. rewrite dedup_In, isort_In, filter_In. rewrite Nat.ltb_lt. split.
    - intros [Hv L]. split; auto. assert (T : touch r v).
      { destruct (h2 r v Hv) as [K|K]; apply N0 in K; destruct K as (u & x & Eu & Ex & Hx & _).
        - exists u, x. auto.
        - exists x, u. auto. }
      split; auto. destruct T as (u & x & _ & Ex & _). apply order_lt in Ex. lia.
    - intros (L & Hv & (u & x & Eu & Ex & [Hx|Hx])); split; auto.
      + apply h3. apply N0. exists u, x. repeat split; auto. lia.
      + apply h4; auto. apply N0. exists x, u. repeat split; auto. lia.
  Qed.
End New.

(** A family of neighbourhoods: the upward neighbours of each rank. *)
Record chordal (n : nat) (nodes : list (list nat)) : Prop := {
  ch_len : length nodes = n;
  ch_asc : forall r, ascending_list (nbh nodes r);
  ch_up : forall r v, In v (nbh nodes r) -> r < v /\ v < n;
  ch_tri : forall z x y, In x (nbh nodes z) -> In y (nbh nodes z) -> x < y -> In y (nbh nodes x) }.

Lemma low_path_app E b x z y : low_path E b x z -> z < b -> low_path E b z y -> low_path E b x y.
Proof. induction 1; intros Hz H2. - eapply lp_step; eauto. - eapply lp_step; eauto. Qed.
Lemma low_path_mono E b b' x y : b <= b' -> low_path E b x y -> low_path E b' x y.
Proof. intros L; induction 1. - constructor; auto. - eapply lp_step; eauto. lia. Qed.
Lemma low_path_sym (E : nat -> nat -> Prop) b x y : (forall x y, E x y -> E y x) -> low_path E b x y -> low_path E b y x.
Proof. intros S; induction 1. - constructor; auto. - eapply low_path_app; eauto. constructor; auto. Qed.

Section Contract.
  Variable n : nat.
  Variable nodes0 : list (list nat).
  Variable E : nat -> nat -> Prop.
  Hypothesis Esym : forall x y, E x y -> E y x.
  Hypothesis L0 : length nodes0 = n.
  Hypothesis A0 : forall r, ascending_list (nbh nodes0 r).
  Hypothesis U0 : forall r v, In v (nbh nodes0 r) -> r < v /\ v < n /\ E r v.

  Record CInv (k : nat) (nodes : list (list nat)) : Prop := {
    ci_len : length nodes = n;
    ci_asc : forall r, ascending_list (nbh nodes r);
    ci_up : forall r v, In v (nbh nodes r) -> r < v /\ v < n;
    ci_sup : forall r v, In v (nbh nodes0 r) -> In v (nbh nodes r);
    ci_low : forall r v, In v (nbh nodes r) -> low_path E r r v;
    ci_par : forall z p others v, z < k -> nbh nodes z = p :: others -> In v others -> In v (nbh nodes p) }.

  Lemma contraction_contract_ok : exists nodes, contraction_contract nodes0 = Some nodes /\ CInv n nodes.
  Proof using Esym L0 A0 U0.
    unfold contraction_contract. rewrite L0.
    destruct (foldM_inv contract_node (fun pre nodes => CInv (length pre) nodes) (seq 0 n) nodes0) as (nodes & Ef & H).
    - constructor; auto.
      + intros r v H. apply U0 in H. intuition.
      + intros r v H. apply lp_arc. apply U0 in H. intuition.
      + cbn. lia.
    - intros pre r post nodes Hsp H. destruct (seq_split _ _ _ _ Hsp) as [Hr Hrn]. rewrite app_length; cbn [length]. rewrite <- Hr in *.
      destruct H as [h1 h2 h3 h4 h5 h6]. unfold contract_node. rewrite nbh_nth by lia. cbn [bind].
      destruct (nbh nodes r) as [|p others] eqn:En.
      { exists nodes. split; auto. constructor; auto. intros z p others v Hz Ez Hv. destruct (Nat.eq_dec z r) as [->|]. { congruence. } eapply h6; eauto. lia. }
      assert (Hp : r < p /\ p < n). { apply h3. rewrite En. left; auto. }
      destruct (Nat.ltb_spec r p); [|lia]. cbn [guard bind]. rewrite nbh_nth by lia. cbn [bind]. rewrite set_at_lt by lia.
      eexists; split; [reflexivity|].
      assert (As : ascending_list others). { specialize (h2 r). rewrite En in h2. apply ss_inv in h2. tauto. }
      assert (Op : forall v, In v others -> p < v /\ v < n).
      { intros v Hv. specialize (h2 r). rewrite En in h2. apply ss_inv in h2. destruct h2 as [_ h2]. split; auto.
        destruct (h3 r v); auto. rewrite En. right; auto. }
      constructor.
      + rewrite upd_length; auto.
      + intros x. rewrite nbh_upd by lia. destruct (Nat.eqb_spec p x) as [->|]; auto. apply merge_sorted; auto.
      + intros x v. rewrite nbh_upd by lia. destruct (Nat.eqb_spec p x) as [->|]; auto. rewrite merge_In. intros [Hv|Hv]; auto.
      + intros x v Hv. rewrite nbh_upd by lia. destruct (Nat.eqb_spec p x) as [->|]; auto. rewrite merge_In. auto.
      + intros x v. rewrite nbh_upd by lia. destruct (Nat.eqb_spec p x) as [->|]; auto. rewrite merge_In. intros [Hv|Hv]; auto.
        apply (low_path_app E x x r v).
        * apply low_path_sym; auto. apply (low_path_mono E r); [lia|]. apply h5. rewrite En; left; auto.
        * lia.
        * apply (low_path_mono E r); [lia|]. apply h5. rewrite En; right; auto.
      + intros z p' others' v Hz Ez Hv. rewrite nbh_upd in Ez by lia. destruct (Nat.eqb_spec p z) as [->|]; [lia|].
        rewrite nbh_upd by lia. destruct (Nat.eq_dec z r) as [->|Nz].
        * rewrite En in Ez. injection Ez as <- <-. rewrite Nat.eqb_refl. rewrite merge_In. auto.
        * assert (In v (nbh nodes p')). { eapply h6; eauto. lia. } destruct (Nat.eqb_spec p p') as [->|]; auto. rewrite merge_In. auto.
    - exists nodes. split; auto. rewrite seq_length in H. auto.
  Qed.

  Lemma CInv_chordal nodes : CInv n nodes -> chordal n nodes.
  Proof.
    intros [h1 h2 h3 h4 h5 h6]. constructor; auto.
    assert (G : forall d z x y, n - z <= d -> In x (nbh nodes z) -> In y (nbh nodes z) -> x < y -> In y (nbh nodes x)).
    { induction d as [|d IH]; intros z x y Hd Hx Hy L. { apply h3 in Hx. lia. }
      assert (Hz : z < n). { apply h3 in Hx. lia. }
      destruct (nbh nodes z) as [|p others] eqn:En; [destruct Hx|].
      assert (Hp : z < p). { apply (h3 z p). rewrite En; left; auto. }
      pose proof (h2 z) as As. rewrite En in As. apply ss_inv in As. destruct As as [_ As].
      destruct Hx as [->|Hx].
      - destruct Hy as [->|Hy]; [lia|]. eapply h6; eauto.
      - pose proof (As x Hx). destruct Hy as [->|Hy]; [lia|]. apply (IH p); auto; [lia| |].
        + eapply h6; eauto.
        + eapply h6; eauto. }
    intros z x y. apply (G (n - z)). lia.
  Qed.
End Contract.

(** Adjacency in the completed graph. *)
Definition cadj (nodes : list (list nat)) (x y : nat) : Prop := In y (nbh nodes x) \/ In x (nbh nodes y).
Lemma chordal_tri n nodes : chordal n nodes -> tri_closed (fun x y w => cadj nodes x y /\ w = 0%N).
Proof.
  intros [h1 h2 h3 h4]. split.
  - intros x w [[H|H] _]; apply h3 in H; lia.
  - intros x z y w1 w2 L1 L2 Ne [A1 ->] [A2 ->]. exists 0%N. split; [|lia]. split; auto.
    assert (B1 : In x (nbh nodes z)). { destruct A1 as [H|H]; auto. apply h3 in H. lia. }
    assert (B2 : In y (nbh nodes z)). { destruct A2 as [H|H]; auto. apply h3 in H. lia. }
    destruct (Nat.lt_ge_cases x y); [left; eapply h4; eauto|]. right. apply (h4 z); auto. lia.
Qed.
Lemma chordal_low n nodes (E : nat -> nat -> Prop) x y : chordal n nodes -> (forall x y, E x y -> x <> y -> cadj nodes x y) ->
  x <> y -> low_path E (Nat.min x y) x y -> cadj nodes x y.
Proof.
  intros HC HE Ne HP. set (A := fun x y w => cadj nodes x y /\ w = 0%N).
  assert (G : forall u t, low_path E (Nat.min x y) u t -> t = y -> u = x \/ u < Nat.min x y ->
            exists l, walk (rest (fun v => v = x \/ v = y \/ (v < x /\ v < y)) A) u y l).
  { clear HP. induction 1 as [u t HEu|u z t HEu Hz HP IH]; intros -> Hu.
    - exists (0 + 0)%N. econstructor; [|constructor]. split. { destruct Hu; auto; right; right; lia. }
      split; auto. split; auto. apply HE; auto. destruct Hu; lia.
    - destruct IH as (l & Hl); auto. destruct (Nat.eq_dec u z) as [->|Nz]. { eauto. }
      exists (0 + l)%N. econstructor; eauto. split. { destruct Hu; auto; right; right; lia. }
      split. { right; right; lia. } split; auto. }
  destruct (G x y HP) as (l & Hl); auto. apply low_arc in Hl; auto. 2: { eapply chordal_tri; eauto. }
  destruct Hl as (w & [Hw _] & _). exact Hw.
Qed.
