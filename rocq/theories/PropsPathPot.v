(** Property C61: unpacked shortest paths towards a target. *)
From Verif Require Import Base SpecGraph SpecCCH BitVec Graph CCH CCHQuery CCHPerfect CCHRebuild CCHPerfectView PropsCCH PropsPerfect PathPot SpecPathPot PathPotProof PathPotView.

(** For every CCH, metric with positive weights, and history of calls, in release and debug builds: potentials are exact distances to the current target,
    unpack_path succeeds, and then the parents lead along input arcs to the target, at exactly this cost. *)
Theorem C61_unpacked_paths_are_shortest :
  forall adj g order ranks c, valid_adj adj -> fits_u32 adj -> from_adjacency_lists adj = Some g -> node_order (length adj) order ranks ->
  cch_contract g order ranks = Some c ->
  forall madj k, metric_for adj c madj k -> positive madj ->
  exists d, pot_data c k = Some d /\ customize_perfect c k = Some (fst d) /\
  let arc := rank_arc order (adj_arc madj) in
  forall dbg ops t, pp_target None ops = Some t ->
    (pp_ops_ok (length adj) arc None ops -> exists p, pp_history dbg (pp_forward d) ops = Some p /\ forall x, x < length adj -> path_answer dbg (length adj) arc p x t) /\
    (pp_ops_ok (length adj) (flip_arc arc) None ops -> exists p, pp_history dbg (pp_backward d) ops = Some p /\ forall x, x < length adj -> path_answer dbg (length adj) (flip_arc arc) p x t).
Proof.
  intros adj g order ranks c HV HF Hg HO E madj k Hm Hpos. destruct (perfect_exists _ _ _ _ _ _ _ HV HF Hg HO E Hm) as (nodes & up0 & dn0 & s & S & HK & HVm & HR & L & F & EW & EP).
  exists (perfect_cust adj order ranks nodes c s S, perfect_tail adj nodes c s S). split. { eapply pot_data_ok; eauto. } split; [exact EP|]. destruct Hm as (HT & _). cbn zeta.
  intros dbg ops t Et. split; intros Ho.
  - destruct (hist_f adj order ranks nodes c HK madj HT HVm up0 dn0 s k HR S L F Hpos dbg ops (pp_forward (perfect_cust adj order ranks nodes c s S, perfect_tail adj nodes c s S)) None) as (p & Eh & HP); auto. { eapply new_f; eauto. }
    exists p. split; [exact Eh|]. rewrite Et in HP. intros x Hx. eapply ans_f; eauto.
  - destruct (hist_b adj order ranks nodes c HK madj HT HVm up0 dn0 s k HR S L F Hpos dbg ops (pp_backward (perfect_cust adj order ranks nodes c s S, perfect_tail adj nodes c s S)) None) as (p & Eh & HP); auto. { eapply new_b; eauto. }
    exists p. split; [exact Eh|]. rewrite Et in HP. intros x Hx. eapply ans_b; eauto.
Qed.
Print Assumptions C61_unpacked_paths_are_shortest.

(** both directions, with shortcuts over several levels, several targets and calls in between *)
Definition pu_adj : list (list (nat * N)) := [[(4, 2%N); (1, 9%N)]; [(5, 1%N); (0, 1%N)]; [(1, 3%N)]; [(2, 4%N); (5, 30%N)]; [(2, 1%N); (3, 7%N)]; [(3, 2%N)]].
Definition pu_order : list nat := [4; 2; 1; 0; 5; 3].
Definition pu_ranks : list nat := [3; 2; 1; 5; 0; 4].
Definition pu_run (fw : bool) (ops : list pp_op) (t x : nat) : option (option N * list nat) :=
  g <- from_adjacency_lists pu_adj ;; c <- cch_contract g pu_order pu_ranks ;; k <- customize c g ;; d <- pot_data c k ;;
  p <- pp_history true (if fw then pp_forward d else pp_backward d) ops ;; '(p, r) <- pp_value p x ;; p <- pp_path true p x ;; l <- pp_follow 6 p t x ;;
  l <- mapM (nth_error pu_order) l ;; Some (r, l).
Example C61_nonvacuous :
  valid_adj pu_adj /\ fits_u32 pu_adj /\ node_order 6 pu_order pu_ranks /\ positive pu_adj /\
  (* from 0 to 5, from 0 to 3, after other targets *)
  pu_run true [PPInit 5; PPUnpack 3; PPValue 0; PPInit 4] 4 3 = Some (Some 7%N, [0; 4; 2; 1; 5]) /\
  pu_run true [PPInit 4; PPUnpack 3; PPInit 5; PPValue 1; PPUnpack 2] 5 3 = Some (Some 9%N, [0; 4; 2; 1; 5; 3]) /\
  (* against the arcs: from 3 back to 0 *)
  pu_run false [PPInit 4; PPUnpack 1; PPInit 3] 3 5 = Some (Some 9%N, [3; 4; 0]).
Proof.
  split. { intros l v w Hl Hv. repeat (destruct Hl as [<-|Hl]; [cbn in *; repeat (destruct Hv as [[= <- <-]|Hv]; [lia|]); destruct Hv|]). destruct Hl. }
  split. { vm_compute. repeat split; reflexivity. }
  split. { apply order_check; vm_compute; reflexivity. }
  split. { intros l v w Hl Hv. repeat (destruct Hl as [<-|Hl]; [cbn in *; repeat (destruct Hv as [[= <- <-]|Hv]; [lia|]); destruct Hv|]). destruct Hl. }
  split; [vm_compute; reflexivity|]. split; vm_compute; reflexivity.
Qed.

(** With arcs of weight 0 it is wrong: 1 -> 0 -> 2 -> 1 is a cycle of weight 0 and 1 -> 3 leads to the target. After unpack_path(1) the parents of
    1, 0, 2 form the cycle and never reach 3, although 1 -> 3 is a path. *)
Definition pz_adj : list (list (nat * N)) := [[(2, 0%N)]; [(0, 0%N); (3, 5%N)]; [(1, 0%N)]; []].
Definition pz_order : list nat := [0; 1; 2; 3].
Lemma pz_run : (g <- from_adjacency_lists pz_adj ;; c <- cch_contract g pz_order pz_order ;; k <- customize c g ;; d <- pot_data c k ;; p <- pp_history true (pp_forward d) [PPInit 3] ;; p' <- pp_path true p 1 ;; Some (pp_par p')) = Some [(2, 0); (0, 0); (1, 1); (3, 0)].
Proof. vm_compute. reflexivity. Qed.
Theorem C61_zero_weights_refuted :
  exists adj g order ranks c madj k d p p', valid_adj adj /\ fits_u32 adj /\ from_adjacency_lists adj = Some g /\ node_order (length adj) order ranks /\
  cch_contract g order ranks = Some c /\ metric_for adj c madj k /\ pot_data c k = Some d /\
  pp_history true (pp_forward d) [PPInit 3] = Some p /\ walk (rank_arc order (adj_arc madj)) 1 3 5 /\
  pp_path true p 1 = Some p' /\ forall fuel, pp_follow fuel p' 3 1 = None.
Proof.
  pose proof pz_run as H.
  destruct (from_adjacency_lists pz_adj) as [g|] eqn:E1; cbn [bind] in H; [|discriminate]. destruct (cch_contract g pz_order pz_order) as [c|] eqn:E2; cbn [bind] in H; [|discriminate].
  destruct (customize c g) as [k|] eqn:E3; cbn [bind] in H; [|discriminate]. destruct (pot_data c k) as [d|] eqn:E4; cbn [bind] in H; [|discriminate].
  destruct (pp_history true (pp_forward d) [PPInit 3]) as [p|] eqn:E5; cbn [bind] in H; [|discriminate]. destruct (pp_path true p 1) as [p'|] eqn:E6; cbn [bind] in H; [|discriminate]. injection H as H.
  exists pz_adj, g, pz_order, pz_order, c, pz_adj, k, d, p, p'.
  split. { intros l v w Hl Hv. repeat (destruct Hl as [<-|Hl]; [cbn in *; repeat (destruct Hv as [[= <- <-]|Hv]; [lia|]); destruct Hv|]). destruct Hl. }
  split. { vm_compute. repeat split; reflexivity. }
  split; [exact E1|]. split. { apply order_check; vm_compute; reflexivity. } split; [exact E2|]. split. { split; [reflexivity|]. exists g. auto. }
  split; [exact E4|]. split; [exact E5|].
  split. { change 5%N with (5 + 0)%N. econstructor; [|constructor]. exists 1, 3. split; [reflexivity|]. split; [reflexivity|]. unfold adj_arc. cbn. auto. }
  split; [exact E6|].
  assert (G : forall f, pp_follow f p' 3 0 = None /\ pp_follow f p' 3 1 = None /\ pp_follow f p' 3 2 = None).
  { induction f as [|f IH]; cbn [pp_follow Nat.eqb]; [auto|]. unfold pp_pred. rewrite H. cbn [nth_error bind]. destruct IH as (A & B & C). rewrite A, B, C. auto. }
  intros fuel. apply (G fuel).
Qed.
Print Assumptions C61_zero_weights_refuted.
