(** The virtual topocore: it is always built, orders the nodes, and reports degrees that are safe to rely on. *)
From Verif Require Import Base SpecGraph Graph GraphProof GraphIdProof GraphXProof GraphRevProof GraphOpsProof GraphSpecProof NodeOrder SepTree CCH CCHContractProof IndexHeap TsVec Dijkstra LoopProof DijServer PLF TopoDij VTopo.
From Coq Require Import Permutation.

Lemma nth_upd {A} (l : list A) i j x d : i < length l -> nth j (upd l i x) d = if j =? i then x else nth j l d.
Proof.
  intros H. destruct (Nat.eqb_spec j i) as [->|N].
  - apply nth_error_nth. apply nth_error_upd_eq; auto.
  - destruct (nth_error l j) as [y|] eqn:E.
    + rewrite (nth_error_nth _ _ _ E). apply nth_error_nth. rewrite nth_error_upd_neq; auto.
    + apply nth_error_None in E. rewrite !nth_overflow; auto. rewrite upd_length; auto.
Qed.

Section Heads.
  Variable n : nat.
  Variable heads : nat -> option (list nat).
  Variable hs : nat -> list nat.
  Hypothesis Hh : forall u, u < n -> heads u = Some (hs u) /\ Forall (fun v => v < n) (hs u).
  Definition dsum : N := sumN n (fun v => N.of_nat (length (hs v))).

  (** ** depth first search *)
  Definition DInv (st : dfs_state) : Prop :=
    let '(vis, stack, ord) := st in
    length vis = n /\ Forall (fun v => v < n) stack /\ NoDup ord /\ Forall (fun v => v < n) ord /\
    forall v, v < n -> (nth v vis false = true <-> In v ord).
  Definition dmeas (st : dfs_state) : N :=
    let '(vis, stack, ord) := st in
    (N.of_nat (length stack) + sumN n (fun v => if nth v vis false then 0 else N.of_nat (length (hs v))))%N.

  Set Default Proof Using "All".

  Lemma dfs_push vis l stack : length vis = n -> Forall (fun v => v < n) l ->
    exists sk, foldM (fun sk h => c <- nth_error vis h ;; Some (if (c : bool) then sk else h :: sk)) l stack = Some sk /\
      length sk <= length stack + length l /\ incl stack sk /\ (Forall (fun v => v < n) stack -> Forall (fun v => v < n) sk).
  Proof.
    intros HL. revert stack. induction l as [|a l IH]; intros stack HF; cbn [foldM].
    - exists stack. split; auto. split; [cbn; lia|]. split; auto. intros x; auto.
    - inversion HF; subst. destruct (nth_error_lt vis a) as [c Ec]; [lia|]. rewrite Ec. cbn [bind].
      destruct (IH (if c then stack else a :: stack)) as (sk & E & L & I1 & F); auto. exists sk. split; auto. split.
      { destruct c; cbn [length] in *; lia. } split. { destruct c; auto. intros x Hx. apply I1. right; auto. }
      intros HS. apply F. destruct c; auto.
  Qed.

  Lemma dfs_loop_ok st fuel x : DInv st -> (dmeas st < fuel)%N -> (In x (snd (fst st)) \/ In x (snd st)) ->
    exists st', loopN fuel (dfs_step heads) st = Some st' /\ DInv st' /\ snd (fst st') = [] /\ incl (snd st) (snd st') /\ In x (snd st').
  Proof.
    intros HI HM Hx.
    destruct (loopN_ghost (dfs_step heads) (fun g s => g = s /\ DInv s /\ incl (snd st) (snd s) /\ (In x (snd (fst s)) \/ In x (snd s)))
      (fun s => DInv s /\ snd (fst s) = [] /\ incl (snd st) (snd s) /\ In x (snd s)) dmeas fuel st st) as (r & E & H).
    - clear HI HM Hx. intros g s (-> & HI & HS & Hx). destruct s as [[vis stack] ord]. cbn [fst snd dfs_step] in *. unfold dfs_step. destruct stack as [|y stack].
      { eexists; split; [reflexivity|]. cbn [fst snd]. split; auto. split; auto. split; auto. destruct Hx as [[]|]; auto. }
      destruct HI as (HL & HF & ND & HO & HV). apply Forall_cons_iff in HF. destruct HF as [Hy HF'].
      assert (Hyl : y < length vis) by lia. destruct (nth_error_lt vis y Hyl) as [b Eb]. rewrite Eb. cbn [bind]. pose proof (nth_error_nth _ _ false Eb) as Nb. destruct b.
      + eexists; split; [reflexivity|]. exists (vis, stack, ord). split. { split; auto. split. { repeat split; auto; apply HV; auto. } split; auto. cbn [fst snd].
          destruct Hx as [[->|Hx]|Hx]; auto. right. apply HV; auto. }
        cbn [dmeas length]. lia.
      + rewrite set_at_lt by lia. cbn [bind]. destruct (Hh y Hy) as [E1 F1]. rewrite E1. cbn [bind].
        destruct (dfs_push (upd vis y true) (hs y) stack) as (sk & E2 & L2 & I2 & F2); auto. { rewrite upd_length; auto. }
        rewrite E2. cbn [bind]. eexists; split; [reflexivity|]. eexists; split; [split; [reflexivity|]|].
        * split; [|split].
          -- split. { rewrite upd_length; auto. } split. { apply F2; auto. } split.
             { apply (Permutation_NoDup (l := y :: ord)). { apply Permutation_cons_append. } constructor; auto. rewrite <- (HV y Hy). congruence. }
             split. { apply Forall_app. split; auto. }
             intros v Hv. rewrite nth_upd by lia. rewrite in_app_iff. destruct (Nat.eqb_spec v y) as [->|Nv]. { cbn. tauto. } rewrite (HV v Hv). cbn. split; auto. intros [|[->|[]]]; auto. lia.
          -- cbn [snd]. intros z Hz. apply in_or_app. auto.
          -- cbn [fst snd]. rewrite in_app_iff. cbn. destruct Hx as [[->|Hx]|Hx]; auto.
        * cbn [dmeas length].
          pose proof (sumN_change n (fun v => if nth v (upd vis y true) false then 0%N else N.of_nat (length (hs v))) (fun v => if nth v vis false then 0%N else N.of_nat (length (hs v))) y Hy) as SC.
          cbv beta in SC. rewrite (nth_upd vis y y true false Hyl), Nat.eqb_refl, Nb in SC.
          assert (X : forall j, j <> y -> (if nth j (upd vis y true) false then 0%N else N.of_nat (length (hs j))) = (if nth j vis false then 0%N else N.of_nat (length (hs j)))).
          { intros j Hj. rewrite nth_upd by lia. destruct (Nat.eqb_spec j y); [lia|auto]. }
          specialize (SC X). lia.
    - split; auto. split; auto. split; auto. intros z; auto.
    - auto.
    - exists r. destruct H as (H1 & H2 & H3 & H4). auto.
  Qed.

  Lemma dmeas_bound vis stack ord : (dmeas (vis, stack, ord) <= N.of_nat (length stack) + dsum)%N.
  Proof.
    cbn [dmeas]. unfold dsum. assert (sumN n (fun v => if nth v vis false then 0 else N.of_nat (length (hs v))) <= sumN n (fun v => N.of_nat (length (hs v))))%N; [|lia].
    apply sumN_le. intros i _. destruct (nth i vis false); lia.
  Qed.

  Lemma dfs_ok fuel : (dsum + 1 < fuel)%N ->
    exists vis ord, foldM (dfs_root fuel heads) (seq 0 n) (repeat false n, [], []) = Some (vis, [], ord) /\ Permutation ord (seq 0 n).
  Proof.
    intros Hf.
    destruct (foldM_inv (dfs_root fuel heads) (fun pre st => DInv st /\ snd (fst st) = [] /\ forall v, In v pre -> In v (snd st)) (seq 0 n) (repeat false n, [], [])) as (st & E & HI & HS & HV).
    - split; [|split; [auto|intros v []]]. split. { apply repeat_length. } split. { constructor. } split. { constructor. } split. { constructor. }
      intros v Hv. rewrite nth_repeat. cbn. split; [discriminate|tauto].
    - intros pre a post [[vis stack] ord] Es (HI & HS & HV). cbn [fst snd] in *. subst stack.
      assert (Ha : a < n). { assert (In a (seq 0 n)) by (rewrite Es; apply in_elt). apply in_seq in H. lia. }
      pose proof HI as (HL & _ & ND & HO & HVis). unfold dfs_root. destruct (nth_error_lt vis a) as [b Eb]; [lia|]. rewrite Eb. cbn [bind].
      pose proof (nth_error_nth _ _ false Eb) as Nb.
      destruct (dfs_loop_ok (vis, if b then [] else [a], ord) fuel a) as (st' & E' & HI' & HS' & HV' & Hx').
      + split; auto. split. { destruct b; auto. } auto.
      + pose proof (dmeas_bound vis (if b then [] else [a]) ord). destruct b; cbn [length] in *; lia.
      + cbn [fst snd]. destruct b; [right; apply HVis; auto|left; left; auto].
      + exists st'. split; auto. split; auto. split; auto. intros v Hv. apply in_app_or in Hv. destruct Hv as [Hv|[<-|[]]]; auto.
    - destruct st as [[vis stack] ord]. cbn [fst snd] in *. subst stack. exists vis, ord. split; auto.
      destruct HI as (_ & _ & ND & HO & _). apply NoDup_Permutation; auto. { apply seq_NoDup. }
      intros v. split; auto. intros Hv. rewrite Forall_forall in HO. apply in_seq. specialize (HO v Hv). lia.
  Qed.
End Heads.
