(** Histories of Dijkstra servers; instances for static graphs and for adjacency arrays. *)
From Verif Require Import Base SpecPQ SpecGraph SpecBits BitVec FastClearProof IndexHeap IndexHeapProof TsVec TsVecProof Graph GraphProof GraphIdProof GraphXProof GraphSpecProof Dijkstra LoopProof DijkstraRef DijkstraProof DijServer DijServerProof DijOrderProof.

Section Hist.
  Context {A P E : Type}.
  Variable n : nat.
  Variable links : nat -> option (list A).
  Variable hd : A -> nat.
  Variable lk : nat -> N -> A -> option N.
  Variable pl : A -> P.
  Variable pinit : E -> nat -> option E.
  Variable pget : E -> nat -> option (E * option N).
  Variable nb : nat -> list A.
  Variable slk : nat -> N -> A -> N.
  Variable T : nat -> Prop.
  Variable EI : E -> Prop.
  Variable ET : nat -> E -> Prop.
  Variable h : nat -> nat -> option N.
  Hypothesis Hlinks : forall u, u < n -> links u = Some (nb u).
  Hypothesis Hhd : forall u a, u < n -> In a (nb u) -> hd a < n.
  Hypothesis Hlk : forall u a d, u < n -> In a (nb u) -> (d < INF)%N ->
    exists x, lk u d a = Some x /\ ((slk u d a < INF)%N -> x = slk u d a) /\ ((INF <= slk u d a)%N -> (INF <= x)%N).
  Hypothesis Hmono : forall u a d d', u < n -> In a (nb u) -> (d <= d')%N -> (slk u d a <= slk u d' a)%N.
  Hypothesis Hext : forall u a d, u < n -> In a (nb u) -> (d <= slk u d a)%N.
  Hypothesis HP : pot_contract n T pinit pget EI ET h.
  Hypothesis HB : forall t v p, T t -> h t v = Some p -> (p + INF <= U32)%N.
  Hypothesis HA : forall t s d0, T t -> admissible n hd all_edges nb slk (h t) s d0 t.

  Lemma history_ok p0 e ops : EI e -> Forall (op_ok n T) ops ->
    exists sv, sv_history n links hd lk pl pinit pget (sv_new n p0 e) ops = Some sv /\ SvOK n EI sv.
  Proof.
    intros He Hops. assert (G : forall ops sv, SvOK n EI sv -> Forall (op_ok n T) ops ->
      exists sv', sv_history n links hd lk pl pinit pget sv ops = Some sv' /\ SvOK n EI sv').
    { clear ops Hops. induction ops as [|op ops IH]; intros sv Hsv Hops. { exists sv. auto. }
      inversion Hops as [|? ? H1 H2]; subst. unfold sv_history. cbn [foldM].
      assert (X : exists sv1, sv_step n links hd lk pl pinit pget sv op = Some sv1 /\ SvOK n EI sv1).
      { destruct op as [from to|from|from]; cbn [op_ok sv_step] in *.
        - destruct (sv_distance_ok n links hd lk pl pinit pget nb slk T EI ET h Hlinks Hhd Hlk Hmono Hext HP sv from to 0%N) as (sv1 & r & E1 & X1 & _); try tauto; auto. { reflexivity. } { intros v p. apply HB. tauto. } { apply HA. tauto. }
          rewrite E1. cbn [bind]. eauto.
        - unfold sv_one_to_all.
          destruct (sv_distance_ok n links hd lk pl pinit pget nb slk T EI ET h Hlinks Hhd Hlk Hmono Hext HP sv from n 0%N) as (sv1 & r & E1 & X1 & _); try tauto; auto. { reflexivity. } { intros v p. apply HB. tauto. } { apply HA. tauto. }
          rewrite E1. cbn [bind]. eauto.
        - destruct Hsv as [HR HE].
          destruct (sv_ranks_ok n links hd lk pl nb slk Hlinks Hhd Hlk Hmono Hext from H1 (sv_pot sv) sv HR eq_refl) as (sv1 & cbs & ord & E1 & R1 & P1 & _).
          rewrite E1. cbn [bind]. exists sv1. split; auto. split; auto. rewrite P1. auto. }
      destruct X as (sv1 & E1 & X1). rewrite E1. cbn [bind]. apply IH; auto. }
    apply G; auto. apply sv_new_ok; auto.
  Qed.
End Hist.

(** * Static graphs: any potential *)
Section Pot.
  Context {E : Type}.
  Variable n : nat.
  Variable links : nat -> option (list (nat * N)).
  Variable pinit : E -> nat -> option E.
  Variable pget : E -> nat -> option (E * option N).
  Variable T : nat -> Prop.
  Variable EI : E -> Prop.
  Variable ET : nat -> E -> Prop.
  Variable h : nat -> nat -> option N.
  Hypothesis WF : wf_links n links.
  Hypothesis HP : pot_contract n T pinit pget EI ET h.
  Hypothesis HB : forall t v p, T t -> h t v = Some p -> (p + INF <= U32)%N.
  Hypothesis HA : forall t, T t -> admissible_pot (garc links) t (h t).
  Notation hist := (sv_history n links fst def_lk def_pl pinit pget).
  Notation dist := (sv_distance n links fst def_lk def_pl pinit pget).
  Let L1 := snb_links n links WF.
  Let L2 := snb_hd n links WF.
  Let L3 := snb_lk n links WF.
  Let L4 := sslk_mono n links.
  Let L5 := sslk_ext n links.
  Let HA' : forall t s d0, T t -> admissible n fst all_edges (snb links) sslk (h t) s d0 t.
  Proof. intros t s d0 Ht. apply admissible_static; auto. Qed.

  Lemma pot_hist e ops : EI e -> Forall (op_ok n T) ops -> exists sv, hist (sv_new n tt e) ops = Some sv /\ SvOK n EI sv.
  Proof. intros He Hops. apply (history_ok n links fst def_lk def_pl pinit pget (snb links) sslk T EI ET h L1 L2 L3 L4 L5 HP HB HA' tt e ops He Hops). Qed.

  Lemma pot_query e ops sv s t : EI e -> Forall (op_ok n T) ops -> hist (sv_new n tt e) ops = Some sv -> s < n -> T t ->
    exists sv' r, dist sv s t 0 = Some (sv', r) /\ exact_answer (garc links) s t r /\
      forall x, r = Some x -> exists p, sv_node_path sv' s t = Some p /\ npath (garc links) s p t x /\ NoDup p.
  Proof.
    intros He Hops Eh Hs Ht. destruct (pot_hist e ops He Hops) as (sv1 & E1 & OK). rewrite Eh in E1. injection E1 as <-.
    destruct (sv_distance_ok n links fst def_lk def_pl pinit pget (snb links) sslk T EI ET h L1 L2 L3 L4 L5 HP sv s t 0%N OK Hs) as (sv' & r & E1 & OK' & X & Y); auto. { reflexivity. } { intros v p. apply HB; auto. }
    exists sv', r. split; auto. split. { apply (earliest_exact n links WF); auto. }
    intros x Ex. destruct (Y x Ex) as (_ & _ & p & q & P1 & P2 & P3 & P4). exists p. split; auto. split; auto.
    eapply rp_npath; [|exact P3]. intros u d l v d' (Hu & a & Ha & _ & <- & <- & _). exists (snd a). split; auto. apply snb_in; auto.
  Qed.

  Lemma pot_det e1 e2 ops1 ops2 sv1 sv2 s t : EI e1 -> EI e2 -> Forall (op_ok n T) ops1 -> Forall (op_ok n T) ops2 ->
    hist (sv_new n tt e1) ops1 = Some sv1 -> hist (sv_new n tt e2) ops2 = Some sv2 -> s < n -> T t ->
    exists sv1' sv2' r, dist sv1 s t 0 = Some (sv1', r) /\ dist sv2 s t 0 = Some (sv2', r) /\
      (r <> None -> sv_node_path sv1' s t = sv_node_path sv2' s t).
  Proof.
    intros He1 He2 Ho1 Ho2 Eh1 Eh2 Hs Ht.
    destruct (pot_hist e1 ops1 He1 Ho1) as (x1 & E1 & OK1). rewrite Eh1 in E1. injection E1 as <-.
    destruct (pot_hist e2 ops2 He2 Ho2) as (x2 & E2 & OK2). rewrite Eh2 in E2. injection E2 as <-.
    destruct (sv_distance_det n links fst def_lk def_pl pinit pget (snb links) sslk T EI ET h L1 L2 L3 L4 L5 HP sv1 sv2 s t 0%N OK1 OK2 Hs) as (sv1' & sv2' & r & E1 & E2 & X); auto. { reflexivity. } { intros v p. apply HB; auto. }
    exists sv1', sv2', r. split; auto. split; auto. apply X.
  Qed.
End Pot.

(** * The plain server *)
Section Plain.
  Variable n : nat.
  Variable links : nat -> option (list (nat * N)).
  Hypothesis WF : wf_links n links.
  Notation plain_hist := (plain_hist n links). Notation plain_dist := (plain_dist n links). Notation plain_new := (plain_new n).
  Lemma plain_history ops : Forall (op_ok n any_target) ops -> exists sv, plain_hist plain_new ops = Some sv.
  Proof.
    intros H. destruct (pot_hist n links zero_init zero_pot any_target (fun _ => True) (fun _ _ => True) (fun _ _ => Some 0%N) WF (zero_contract n)) with (e := tt) (ops := ops) as (sv & E1 & _); eauto.
    - intros t v p _ [= <-]. unfold INF, U32. lia.
    - intros. apply zero_admissible.
  Qed.
  Lemma plain_query ops sv s t : Forall (op_ok n any_target) ops -> plain_hist plain_new ops = Some sv -> s < n ->
    exists sv' r, plain_dist sv s t 0 = Some (sv', r) /\ exact_answer (garc links) s t r /\
      forall x, r = Some x -> exists p, sv_node_path sv' s t = Some p /\ npath (garc links) s p t x /\ NoDup p.
  Proof.
    intros H Eh Hs. apply (pot_query n links zero_init zero_pot any_target (fun _ => True) (fun _ _ => True) (fun _ _ => Some 0%N) WF (zero_contract n)) with (e := tt) (ops := ops); auto.
    - intros t' v p _ [= <-]. unfold INF, U32. lia.
    - intros. apply zero_admissible.
    - exact I.
  Qed.
  Lemma plain_det ops1 ops2 sv1 sv2 s t : Forall (op_ok n any_target) ops1 -> Forall (op_ok n any_target) ops2 ->
    plain_hist plain_new ops1 = Some sv1 -> plain_hist plain_new ops2 = Some sv2 -> s < n ->
    exists sv1' sv2' r, plain_dist sv1 s t 0 = Some (sv1', r) /\ plain_dist sv2 s t 0 = Some (sv2', r) /\
      (r <> None -> sv_node_path sv1' s t = sv_node_path sv2' s t).
  Proof.
    intros H1 H2 E1 E2 Hs. apply (pot_det n links zero_init zero_pot any_target (fun _ => True) (fun _ _ => True) (fun _ _ => Some 0%N) WF (zero_contract n)) with (e1 := tt) (e2 := tt) (ops1 := ops1) (ops2 := ops2); auto.
    - intros t' v p _ [= <-]. unfold INF, U32. lia.
    - intros. apply zero_admissible.
    - exact I.
  Qed.
  Lemma plain_all ops sv s : Forall (op_ok n any_target) ops -> plain_hist plain_new ops = Some sv -> s < n ->
    exists sv', sv_one_to_all n links fst def_lk def_pl zero_init zero_pot sv s = Some sv' /\
      forall v, v < n -> exists x, sv_dist_of sv' v = Some x /\ exact_answer (garc links) s v (if (x <? INF)%N then Some x else None) /\
        ((x < INF)%N -> exists p, sv_node_path sv' s v = Some p /\ npath (garc links) s p v x /\ NoDup p).
  Proof.
    intros H Eh Hs.
    destruct (pot_hist n links zero_init zero_pot any_target (fun _ => True) (fun _ _ => True) (fun _ _ => Some 0%N) WF (zero_contract n)) with (e := tt) (ops := ops) as (sv1 & E1 & OK); auto.
    { intros t v p _ [= <-]. unfold INF, U32. lia. } { intros. apply zero_admissible. }
    unfold plain_hist, plain_new in Eh. rewrite Eh in E1. injection E1 as <-.
    destruct (sv_all_ok n links fst def_lk def_pl zero_init zero_pot (snb links) sslk any_target (fun _ => True) (fun _ _ => True) (fun _ _ => Some 0%N)
      (snb_links n links WF) (snb_hd n links WF) (snb_lk n links WF) (sslk_mono n links) (sslk_ext n links) (zero_contract n) sv s 0%N OK Hs) as (sv' & r & E1 & OK' & X).
    { reflexivity. } { exact I. } { intros v p [= <-]. unfold INF, U32. lia. } { intros v _. cbn. discriminate. }
    exists sv'. unfold sv_one_to_all. rewrite E1. cbn [bind]. split; auto. intros v Hv. destruct (X v Hv) as (x & X1 & X2 & X3 & X4).
    exists x. split; auto. split. { apply (earliest_exact n links WF); auto. } intros Hx. destruct (X4 Hx) as (p & q & P1 & P2 & P3 & P4). exists p. split; auto. split; auto.
    eapply rp_npath; [|exact P3]. intros u d l v' d' (Hu & a & Ha & _ & <- & <- & _). exists (snd a). split; auto. apply snb_in; auto.
  Qed.
  Lemma plain_ranks ops sv s : Forall (op_ok n any_target) ops -> plain_hist plain_new ops = Some sv -> s < n ->
    exists sv' cbs ord, sv_ranks n links fst def_lk def_pl sv s = Some (sv', cbs) /\ distance_order (garc links) s ord /\
      forall v x r, In (v, x, r) cbs <-> nth_error ord (N.to_nat (2 ^ r) - 1) = Some (v, x).
  Proof.
    intros H Eh Hs.
    destruct (pot_hist n links zero_init zero_pot any_target (fun _ => True) (fun _ _ => True) (fun _ _ => Some 0%N) WF (zero_contract n)) with (e := tt) (ops := ops) as (sv1 & E1 & OK); auto.
    { intros t v p _ [= <-]. unfold INF, U32. lia. } { intros. apply zero_admissible. }
    unfold plain_hist, plain_new in Eh. rewrite Eh in E1. injection E1 as <-.
    destruct (sv_ranks_ok n links fst def_lk def_pl (snb links) sslk 
      (snb_links n links WF) (snb_hd n links WF) (snb_lk n links WF) (sslk_mono n links) (sslk_ext n links) s Hs (sv_pot sv) sv (proj1 OK) eq_refl) as (sv' & cbs & ord & E1 & R1 & P1 & N1 & S1 & O1 & C1).
    exists sv', cbs, ord. split; auto. split; auto. split; auto. split. { apply ss_nth; auto. }
    intros v x. rewrite O1. apply earliest_some; auto.
  Qed.
End Plain.

(** * Nearest neighbours: histories *)
Lemma nn_ok n links ops : wf_links n links -> Forall (nn_op_ok n) ops ->
  exists x, nn_history n links ops = Some x /\ forall s k, s < n -> 1 <= k ->
    exists x' res, nn_query n links x s k = Some (x', res) /\ nearest_answer (garc links) s (nn_selected ops) k res.
Proof.
  intros WF. unfold nn_history, nn_selected.
  set (Inv := fun (x : nn) ts => Ready n (nn_dij x) /\ exists inT, FInv n (nn_targets x) inT /\ forall v, inT v = true <-> In v ts).
  assert (Q : forall x ts s k, Inv x ts -> s < n -> 1 <= k -> exists x' res, nn_query n links x s k = Some (x', res) /\ Inv x' ts /\ nearest_answer (garc links) s ts k res).
  { intros x ts s k (HR & inT & HF & HT) Hs Hk. destruct (nn_query_ok n links WF s Hs x ts inT k HR HF HT Hk) as (x' & res & E1 & R1 & F1 & N1). exists x', res. split; auto. split; auto. split; auto. eauto. }
  assert (G : forall ops x ts, Inv x ts -> Forall (nn_op_ok n) ops -> exists x', foldM (nn_step n links) ops x = Some x' /\ 
     Inv x' (fold_left (fun ts op => match op with NnSelect ts' => ts' | NnQuery _ _ => ts end) ops ts)).
  { induction ops0 as [|op ops0 IH]; intros x ts HI H. { exists x. auto. }
    inversion H as [|? ? H1 H2]; subst. cbn [foldM fold_left]. destruct op as [ts'|s k]; cbn [nn_step nn_op_ok] in *.
    - destruct HI as (HR & inT & HF & HT). destruct (nn_select_ok n x inT ts' HF H1) as (x1 & E1 & D1 & inT' & F1 & T1). rewrite E1. cbn [bind]. apply IH; auto. split. { rewrite D1. auto. } eauto.
    - destruct (Q x ts s k HI) as (x1 & res & E1 & I1 & _); try tauto. rewrite E1. cbn [bind]. apply IH; auto. }
  intros H. destruct (G ops (nn_new n) []) as (x & E1 & I1); auto.
  { split. { apply new_Ready. } exists (fun _ => false). split. { apply fc_new_inv. } cbn. intuition congruence. }
  exists x. split; auto. intros s k Hs Hk. destruct (Q x _ s k I1 Hs Hk) as (x' & res & E2 & _ & N2). eauto.
Qed.

(** * Servers reporting edge ids (DefaultOpsWithLinkPath) *)
Lemma ids_query n links ops sv s t : wf_links_ids n links -> Forall (op_ok n any_target) ops ->
  sv_history n links lp_hd lp_lk lp_pl zero_init zero_pot (sv_new n n tt) ops = Some sv -> s < n ->
  exists sv' r, sv_distance n links lp_hd lp_lk lp_pl zero_init zero_pot sv s t 0 = Some (sv', r) /\
    exact_answer (fun u v w => exists e, garc_ids links u e v w) s t r /\
    forall x, r = Some x -> exists p q, sv_node_path sv' s t = Some p /\ sv_edge_path sv' s t = Some q /\ epath (garc_ids links) s p q t x /\ NoDup p.
Proof.
  intros WF Hops Eh Hs.
  assert (M1 : forall u a d d', u < n -> In a (inb links u) -> (d <= d')%N -> (islk u d a <= islk u d' a)%N) by (unfold islk; lia).
  assert (M2 : forall u a d, u < n -> In a (inb links u) -> (d <= islk u d a)%N) by (unfold islk; lia).
  assert (HB : forall t v p, any_target t -> (fun _ _ : nat => Some 0%N) t v = Some p -> (p + INF <= U32)%N) by (intros ? ? ? _ [= <-]; unfold INF, U32; lia).
  assert (HA : forall t s d0, any_target t -> admissible n lp_hd all_edges (inb links) islk ((fun _ _ => Some 0%N) t) s d0 t) by (intros; apply iadmissible; apply zero_admissible).
  destruct (history_ok n links lp_hd lp_lk lp_pl zero_init zero_pot (inb links) islk any_target (fun _ => True) (fun _ _ => True) (fun _ _ => Some 0%N)
    (inb_links n links WF) (inb_hd n links WF) (inb_lk n links WF) M1 M2 (zero_contract n) HB HA n tt ops I Hops) as (sv1 & E1 & OK). rewrite Eh in E1. injection E1 as <-.
  destruct (sv_distance_ok n links lp_hd lp_lk lp_pl zero_init zero_pot (inb links) islk any_target (fun _ => True) (fun _ _ => True) (fun _ _ => Some 0%N)
    (inb_links n links WF) (inb_hd n links WF) (inb_lk n links WF) M1 M2 (zero_contract n) sv s t 0%N OK Hs ltac:(reflexivity) I (fun v p => HB t v p I) (HA t s 0%N I)) as (sv' & r & E1 & OK' & X & Y).
  exists sv', r. split; auto. split. { apply (iearliest_exact n links WF); auto. }
  intros x Ex. destruct (Y x Ex) as (_ & _ & p & q & P1 & P2 & P3 & P4). exists p, q. split; auto. split; auto. split; auto. eapply irp_epath; eauto.
Qed.

(** * Adjacency arrays meet the assumptions *)
Lemma adj_wf_links adj g : valid_adj adj -> fits_u32 adj -> (forall l v w, In l adj -> In (v, w) l -> (w <= INF)%N) -> from_adjacency_lists adj = Some g ->
  wf_links (length adj) (link_iter g) /\ forall u v w, garc (link_iter g) u v w <-> adj_arc adj u v w.
Proof.
  intros HV HF HW Eg. destruct (adj_graph adj HV HF) as (h & E & Wf & Nn & Na & En & El). rewrite Eg in E. injection E as <-.
  assert (Out : forall u, length adj <= u -> link_iter g u = None) by (intros u Hu; apply (enum_out g (length adj) u Nn Wf Hu)).
  split.
  - intros u Hu. destruct (En u Hu) as [E1 _]. eexists; split; [exact E1|]. intros v w H.
    assert (In (nth u adj []) adj) by (apply nth_In; auto). split; [eapply HV; eauto|eapply HW; eauto].
  - intros u v w. unfold garc, adj_arc. destruct (Nat.lt_ge_cases u (length adj)) as [Hu|Hu].
    + destruct (En u Hu) as [E1 _]. rewrite E1. split. { intros (l & [= <-] & H). auto. } eauto.
    + rewrite Out by auto. rewrite nth_overflow by auto. split; [intros (l & [=] & _)|intros []].
Qed.
Lemma adj_ids adj g : valid_adj adj -> fits_u32 adj -> (forall l v w, In l adj -> In (v, w) l -> (w <= INF)%N) -> from_adjacency_lists adj = Some g ->
  wf_links_ids (length adj) (link_iter_ids g) /\ forall u e v w, garc_ids (link_iter_ids g) u e v w <-> adj_edge adj u e v w.
Proof.
  intros HV HF HW Eg. destruct (adj_graph adj HV HF) as (h & E & Wf & Nn & Na & En & El). rewrite Eg in E. injection E as <-.
  assert (K : forall u, u < length adj -> exists l, link_iter_ids g u = Some l /\ forall v w e, In (v, w, e) l <-> adj_edge adj u e v w).
  { intros u Hu. destruct (En u Hu) as [E1 _]. unfold link_iter in E1. unfold link_iter_ids.
    destruct (range_ok g u Wf ltac:(lia)) as (a & b & Er & Fa & Fb & Hab). rewrite Er in *. cbn [bind] in *.
    destruct (slice (head g) a b) as [hs|] eqn:S1; [|discriminate]. cbn [bind] in *. destruct (slice (weight g) a b) as [ws|] eqn:S2; [|discriminate]. cbn [bind] in *.
    injection E1 as E1. eexists; split; [reflexivity|]. rewrite E1.
    pose proof (adj_first_out adj g u Eg ltac:(lia)) as Fu. rewrite (nth_error_nth _ _ _ Fa) in Fu.
    assert (Ll : length (nth u adj []) = b - a).
    { rewrite <- E1, combine_length. rewrite slice_Some in S1 by lia. rewrite slice_Some in S2 by (rewrite (wf_wt g Wf); lia). injection S1 as <-. injection S2 as <-.
      rewrite !firstn_length, !skipn_length, (wf_wt g Wf). lia. }
    intros v w e. unfold adj_edge. rewrite <- Fu. split.
    - intros H. apply In_nth_error in H. destruct H as (k & Hk).
      assert (Hk' : k < b - a). { apply nth_error_Some_lt in Hk. rewrite combine_length, seq_length in Hk. lia. }
      exists k. assert (X : nth_error (nth u adj []) k = Some (v, w) /\ nth_error (seq a (b - a)) k = Some e).
      { clear - Hk. revert Hk. generalize (nth u adj []) (seq a (b - a)). intros l1 l2. revert l1 l2. induction k as [|k IH]; intros [|x l1] [|y l2] H; try discriminate; cbn in *. { injection H as -> ->; auto. } auto. }
      destruct X as [X1 X2]. split; auto. rewrite (nth_error_nth' _ 0) in X2 by (rewrite seq_length; auto). rewrite seq_nth in X2 by auto. congruence.
    - intros (k & -> & Hk). pose proof (nth_error_Some_lt _ _ _ Hk) as Hl. apply nth_error_In with (n := k).
      assert (X2 : nth_error (seq a (b - a)) k = Some (a + k)). { rewrite (nth_error_nth' _ 0) by (rewrite seq_length; lia). rewrite seq_nth by lia. auto. }
      revert Hk X2. generalize (nth u adj []) (seq a (b - a)) (a + k). clear. intros l1 l2 e. revert l1 l2. induction k as [|k IH]; intros [|x l1] [|y l2] H1 H2; try discriminate; cbn in *. { congruence. } auto. }
  assert (Out : forall u, length adj <= u -> link_iter_ids g u = None).
  { intros u Hu. unfold link_iter_ids, range. destruct (nth_error (first_out g) u) as [a|]; auto. cbn [bind].
    rewrite (proj2 (nth_error_None (first_out g) (u + 1))); auto. unfold num_nodes in Nn. pose proof (wf_ne g Wf). lia. }
  split.
  - intros u Hu. destruct (K u Hu) as (l & E1 & X). exists l. split; auto. intros v w e H. apply X in H. destruct H as (k & _ & Hk). apply nth_error_In in Hk.
    assert (In (nth u adj []) adj) by (apply nth_In; auto). split; [eapply HV; eauto|eapply HW; eauto].
  - intros u e v w. unfold garc_ids. destruct (Nat.lt_ge_cases u (length adj)) as [Hu|Hu].
    + destruct (K u Hu) as (l & E1 & X). rewrite E1, <- X. split. { intros (l' & [= <-] & H). auto. } eauto.
    + rewrite Out by auto. unfold adj_edge. rewrite nth_overflow by auto. split; [intros (l & [=] & _)|intros (k & _ & H)]. destruct k; discriminate.
Qed.
