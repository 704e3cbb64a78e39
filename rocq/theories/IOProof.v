(** Round trips of stored data. *)
From Verif Require Import Base SpecIO Graph NodeOrder NodeOrderProof CCH BitVec BitVecProof IO.

Lemma le_len k x : List.length (le_bytes k x) = k.
Proof. revert x. induction k; intros; cbn; auto. Qed.
Lemma le_small k x b : In b (le_bytes k x) -> (b < 256)%N.
Proof.
  revert x. induction k as [|k IH]; intros x; cbn [le_bytes In]; [tauto|]. intros [<-|H]; [|eauto].
  apply N.mod_lt. discriminate.
Qed.
Lemma le_roundtrip k x : (x < 256 ^ N.of_nat k)%N -> le_value (le_bytes k x) = x.
Proof.
  revert x. induction k as [|k IH]; intros x H.
  - cbn in H. cbn. lia.
  - cbn [le_bytes le_value]. rewrite IH.
    + rewrite N.add_comm. symmetry. apply N.div_mod. discriminate.
    + apply N.div_lt_upper_bound; [discriminate|]. rewrite Nat2N.inj_succ, N.pow_succ_r' in H. auto.
Qed.

Lemma uint_ok k : 0 < k -> repr_ok (uint_repr k).
Proof. intros H. constructor; cbn; auto. - intros; apply le_len. - intros x b _; apply le_small. - intros x; apply le_roundtrip. Qed.
Lemma id_ok : repr_ok id_repr.
Proof.
  constructor; cbn -[le_bytes le_value]; auto; try lia. - intros x b _; apply le_small.
  - intros x H. rewrite le_roundtrip by auto. lia.
Qed.
Lemma int_ok k : 0 < k -> repr_ok (int_repr k).
Proof.
  intros Hk. constructor; cbn -[le_bytes le_value Z.pow Z.mul]; auto.
  - intros; apply le_len.
  - intros x b _; apply le_small.
  - intros z Hz. set (M := (2 ^ (8 * Z.of_nat k))%Z) in *. set (H := (2 ^ (8 * Z.of_nat k - 1))%Z) in *.
    assert (EM : (M = 2 * H)%Z). { unfold M, H. rewrite <- Z.pow_succ_r by lia. f_equal. lia. }
    assert (0 < H)%Z by (unfold H; apply Z.pow_pos_nonneg; lia).
    assert (B : (0 <= z mod M < M)%Z) by (apply Z.mod_pos_bound; lia).
    rewrite le_roundtrip.
    + rewrite Z2N.id by lia. destruct (Z.ltb_spec (z mod M) H).
      * destruct (Z_lt_le_dec z 0).
        -- assert (z mod M = z + M)%Z by (symmetry; apply (Z.mod_unique _ _ (-1)); lia). lia.
        -- apply Z.mod_small. lia.
      * destruct (Z_lt_le_dec z 0).
        -- assert (z mod M = z + M)%Z by (symmetry; apply (Z.mod_unique _ _ (-1)); lia). lia.
        -- rewrite Z.mod_small in *; lia.
    + assert (EP : (256 ^ N.of_nat k = Z.to_N M)%N).
      { unfold M. rewrite Z2N.inj_pow by lia. rewrite Z2N.inj_mul by lia. rewrite N.pow_mul_r. f_equal. lia. }
      rewrite EP. apply Z2N.inj_lt; lia.
Qed.
Lemma pair_ok {A B} (a : repr A) (b : repr B) : repr_ok a -> repr_ok b -> repr_ok (pair_repr a b).
Proof.
  intros [A1 A2 A3 A4] [B1 B2 B3 B4]. constructor; cbn; try lia.
  - intros [x y] [Hx Hy]. cbn in *. rewrite app_length, A2, B2; auto.
  - intros [x y] c [Hx Hy] Hc. cbn in *. apply in_app_iff in Hc. destruct Hc; eauto.
  - intros [x y] [Hx Hy]. cbn in *. rewrite firstn_app, skipn_app. rewrite (A2 x Hx). rewrite Nat.sub_diag. cbn.
    rewrite app_nil_r. rewrite <- (A2 x Hx). rewrite firstn_all, skipn_all. cbn. rewrite A4, B4; auto.
Qed.

Section Vec.
Context {T : Type} (r : repr T) (RO : repr_ok r).

Lemma data_len l : Forall (r_valid r) l -> List.length (data_bytes r l) = List.length l * r_size r.
Proof. unfold data_bytes. induction 1 as [|x l Hx _ IH]; cbn; auto. rewrite app_length, IH, (ro_len _ RO); auto. Qed.

Lemma elements_data l rest : Forall (r_valid r) l -> elements r (List.length l) (data_bytes r l ++ rest) = l.
Proof.
  unfold data_bytes. intros H. induction H as [|x l Hx _ IH]; cbn [List.length elements]; auto. cbn [map List.concat].
  rewrite <- app_assoc. rewrite firstn_app, skipn_app. rewrite (ro_len _ RO x Hx). rewrite Nat.sub_diag. cbn [firstn skipn].
  rewrite app_nil_r. rewrite <- (ro_len _ RO x Hx). rewrite firstn_all, skipn_all. cbn [app]. rewrite IH, (ro_dec _ RO); auto.
Qed.

Lemma write_read f p b : write_to f p b p = Some b.
Proof. unfold write_to. rewrite String.eqb_refl. auto. Qed.
Lemma write_other f p b q : q <> p -> write_to f p b q = f q.
Proof. unfold write_to. intros H. apply String.eqb_neq in H. rewrite H. auto. Qed.

Lemma load_bytes f p bytes : f p = Some bytes -> List.length bytes mod r_size r = 0 ->
  load_vec r f p = Some (Some (elements r (List.length bytes / r_size r) bytes)).
Proof.
  intros E Hm. unfold load_vec. rewrite E. pose proof (ro_size _ RO) as H0.
  rewrite (proj2 (Nat.eqb_neq (r_size r) 0)) by lia. cbn [negb guard bind]. rewrite Hm. cbn [Nat.eqb guard bind].
  pose proof (Nat.div_mod (List.length bytes) (r_size r)) as D. rewrite Hm in D.
  rewrite (proj2 (Nat.eqb_eq _ _)) by lia. cbn [guard bind]. auto.
Qed.
Lemma load_bad f p bytes : f p = Some bytes -> List.length bytes mod r_size r <> 0 -> load_vec r f p = None.
Proof.
  intros E Hm. unfold load_vec. rewrite E. destruct (negb (r_size r =? 0)); cbn [guard bind]; auto.
  rewrite (proj2 (Nat.eqb_neq _ _)) by auto. auto.
Qed.

Lemma load_data f p l : f p = Some (data_bytes r l) -> Forall (r_valid r) l -> load_vec r f p = Some (Some l).
Proof.
  intros E H. pose proof (ro_size _ RO) as H0. rewrite (load_bytes f p _ E); rewrite (data_len l H).
  - rewrite Nat.div_mul by lia. rewrite <- (app_nil_r (data_bytes r l)). rewrite elements_data; auto.
  - apply Nat.mod_mul. lia.
Qed.

(** a file of which only the first bytes are present *)
Lemma load_prefix f p l k : f p = Some (firstn k (data_bytes r l)) -> Forall (r_valid r) l -> k <= List.length l * r_size r ->
  load_vec r f p = if k mod r_size r =? 0 then Some (Some (firstn (k / r_size r) l)) else None.
Proof.
  intros E H Hk. pose proof (ro_size _ RO) as H0.
  assert (L : List.length (firstn k (data_bytes r l)) = k) by (rewrite firstn_length, data_len by auto; lia).
  destruct (Nat.eqb_spec (k mod r_size r) 0) as [Hm|Hm].
  - rewrite (load_bytes f p _ E) by (rewrite L; auto). rewrite L.
    set (q := k / r_size r). assert (Ek : k = q * r_size r). { pose proof (Nat.div_mod k (r_size r)). unfold q. lia. }
    assert (Hq : q <= List.length l) by nia.
    assert (Hv : Forall (r_valid r) (firstn q l)). { apply Forall_forall. intros x Hx. rewrite Forall_forall in H. apply H. eapply In_nth_error in Hx. destruct Hx as [i Hi]. assert (nth_error (firstn q l ++ skipn q l) i = Some x) by (rewrite nth_error_app1; auto; eapply nth_error_Some_lt; eauto). rewrite firstn_skipn in H1. eapply nth_error_In; eauto. }
    assert (Lq : List.length (firstn q l) = q) by (rewrite firstn_length; lia).
    assert (EE : firstn k (data_bytes r l) = data_bytes r (firstn q l)).
    { rewrite <- (firstn_skipn q l) at 1. unfold data_bytes at 1. rewrite map_app, concat_app. fold (data_bytes r (firstn q l)).
      assert (Ld : List.length (data_bytes r (firstn q l)) = k) by (rewrite data_len, Lq; auto).
      rewrite firstn_app, Ld, Nat.sub_diag. cbn. rewrite app_nil_r. rewrite <- Ld. apply firstn_all. }
    rewrite EE. rewrite <- Lq at 1. rewrite <- (app_nil_r (data_bytes r _)). rewrite elements_data; auto.
  - apply (load_bad f p _ E). rewrite L. auto.
Qed.
End Vec.

(** bit vectors *)
Lemma load_bv_ok f p b : f p = Some (bv_bytes b) -> Forall (fun w => (w < 2 ^ 64)%N) (bdata b) ->
  load_bv f p = Some (Some (mkBv (bdata b) (64 * List.length (bdata b)))).
Proof.
  intros E H. unfold load_bv. rewrite E. unfold bv_bytes.
  assert (HV : Forall (r_valid (uint_repr 8)) (bdata b)) by exact H.
  rewrite (data_len _ (uint_ok 8 ltac:(lia)) _ HV). change (r_size (uint_repr 8)) with 8. unfold bv_new. cbn [bdata bsize].
  rewrite repeat_length. change WORD with 64.
  replace ((List.length (bdata b) * 8 * 8 + 64 - 1) / 64) with (List.length (bdata b)).
  - rewrite Nat.eqb_refl. cbn [guard bind]. rewrite <- (app_nil_r (data_bytes _ _)).
    rewrite (elements_data _ (uint_ok 8 ltac:(lia)) _ _ HV). do 3 f_equal. lia.
  - apply Nat.div_unique with (r := 63); lia.
Qed.

Lemma join_inj d a b : join d a = join d b -> a = b.
Proof. unfold join. induction d as [|c d IH]; cbn [String.append]; intros H; injection H; auto. Qed.

Ltac fs := repeat (rewrite write_other by (intros EQ; apply join_inj in EQ; discriminate)); apply write_read.

Lemma load_graph_ok {W} (r : repr W) f dir g : repr_ok r -> Forall (r_valid id_repr) (first_out g) -> Forall (r_valid id_repr) (head g) ->
  Forall (r_valid r) (weight g) -> fo_new (first_out g) (head g) (weight g) = Some g ->
  load_graph r (save_graph r f dir g) dir = Some (Some g).
Proof.
  intros RO H1 H2 H3 E. unfold load_graph, save_graph.
  rewrite (load_data id_repr id_ok _ _ (first_out g)); [|fs|auto]. cbn [iobind].
  rewrite (load_data id_repr id_ok _ _ (head g)); [|fs|auto]. cbn [iobind].
  rewrite (load_data r RO _ _ (weight g)); [|fs|auto]. cbn [iobind]. rewrite E. reflexivity.
Qed.
