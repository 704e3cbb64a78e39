(** Properties C11 - C15: graph data structure and transformations. *)
From Verif Require Import Base BitVec BitVecProof SpecGraph Graph GraphProof GraphRevProof GraphOpsProof GraphIdProof GraphXProof GraphSpecProof.

(** C11 *)
Theorem C11_reversed_has_exactly_the_reversed_arcs :
  forall (W : Type) (dflt : W) (adj : list (list (nat * W))), valid_adj adj -> fits_u32 adj ->
  exists g g', from_adjacency_lists adj = Some g /\ reversed dflt (num_nodes g) (num_arcs g) (link_iter g) = Some g' /\
    num_nodes g' = length adj /\ num_arcs g' = num_arcs g /\ forall v, v < length adj -> link_iter g' v = Some (incoming adj v).
Proof. exact @reversed_spec. Qed.
Print Assumptions C11_reversed_has_exactly_the_reversed_arcs.

Theorem C11_reversed_transposes_distances :
  forall (adj : list (list (nat * N))) g g', valid_adj adj -> fits_u32 adj -> from_adjacency_lists adj = Some g ->
  reversed 0%N (num_nodes g) (num_arcs g) (link_iter g) = Some g' ->
  forall s t d, is_dist (garc (link_iter g')) t s d <-> is_dist (garc (link_iter g)) s t d.
Proof.
  intros adj g g' HV HF Eg Eg' s t d. pose proof (reversed_arcs 0%N adj g g' HV HF Eg Eg') as A.
  assert (E : forall x y l, walk (garc (link_iter g')) y x l <-> walk (garc (link_iter g)) x y l).
  { intros x y l. rewrite (walk_flip_iff (garc (link_iter g))). split; apply walk_mono; intros u v w; unfold flip_arc; apply A. }
  unfold is_dist. rewrite E. split; intros [H1 H2]; split; auto; intros l Hl; apply H2; apply E; auto.
Qed.
Print Assumptions C11_reversed_transposes_distances.
Definition ex_adj : list (list (nat * N)) := [[(1, 5%N); (1, 7%N); (0, 2%N)]; []; [(1, 3%N); (0, 4%N)]; [(2, 1%N)]].
Lemma ex_adj_valid : valid_adj ex_adj.
Proof. intros l v w H1 H2. cbn in *. repeat (destruct H1 as [<-|H1]; [cbn in H2; repeat (destruct H2 as [H2|H2]; [injection H2 as <- <-; lia|]); destruct H2|]). destruct H1. Qed.
Lemma ex_adj_fits : fits_u32 ex_adj.
Proof. split; vm_compute; auto. Qed.
Example C11_nonvacuous :
  (g <- from_adjacency_lists ex_adj ;; g' <- reversed 0%N (num_nodes g) (num_arcs g) (link_iter g) ;; link_iter g' 1)
  = Some [(0, 5%N); (0, 7%N); (2, 3%N)].
Proof. vm_compute. reflexivity. Qed.

(** C12; [sort_contract] is the contract of sort_unstable_by_key: the result is a sorted permutation *)
Theorem C12_permutated_is_the_renamed_graph :
  forall (W : Type) sort (adj : list (list (nat * W))) order ranks predicate,
  sort_contract (W := W) sort -> valid_adj adj -> fits_u32 adj -> node_order (length adj) order ranks ->
  exists g g', from_adjacency_lists adj = Some g /\
    permutated_filtered sort (num_nodes g) (link_iter g) order ranks predicate = Some g' /\ num_nodes g' = length adj /\
    forall r u, nth_error order r = Some u -> exists l, link_iter g' r = Some l /\
      Permutation l (map (fun a => (nth (fst a) ranks 0, snd a)) (filter (fun a => predicate r (nth (fst a) ranks 0)) (nth u adj []))) /\
      forall i j a b, i <= j -> nth_error l i = Some a -> nth_error l j = Some b -> fst a <= fst b.
Proof. exact @permutated_spec. Qed.
Print Assumptions C12_permutated_is_the_renamed_graph.
Fixpoint isort_insert (key : nat * N -> nat) (a : nat * N) (l : list (nat * N)) :=
  match l with [] => [a] | b :: l' => if key a <=? key b then a :: b :: l' else b :: isort_insert key a l' end.
Definition isort (key : nat * N -> nat) (l : list (nat * N)) := fold_right (isort_insert key) [] l.
Example C12_nonvacuous : node_order 4 [2; 0; 3; 1] [1; 3; 0; 2] /\
  (g <- from_adjacency_lists ex_adj ;;
   g' <- permutated_filtered isort (num_nodes g) (link_iter g) [2; 0; 3; 1] [1; 3; 0; 2] (fun _ _ => true) ;; link_iter g' 1)
  = Some [(1, 2%N); (3, 5%N); (3, 7%N)].
Proof.
  split. { repeat split; intros [|[|[|[|u]]]] r H; cbn in *; try (injection H as <-; reflexivity); destruct u; discriminate. }
  vm_compute. reflexivity.
Qed.
(** the sorting contract is met by an actual sort *)
Example C12_sort_contract_inhabited : sort_contract isort.
Proof.
  intros key l. induction l as [|a l [IP IS]]; [split; [constructor|intros [|i] j a b H1 H2; discriminate]|].
  cbn [isort fold_right]. fold (isort key l). set (s := isort key l) in *.
  assert (P : Permutation (isort_insert key a s) (a :: s)).
  { clear. induction s as [|b s IH]; cbn [isort_insert]; auto. destruct (key a <=? key b); auto. rewrite IH. constructor. }
  split. { rewrite P, IP. auto. }
  assert (Sd : forall s', (forall i j a b, i <= j -> nth_error s' i = Some a -> nth_error s' j = Some b -> key a <= key b) ->
     forall i j x y, i <= j -> nth_error (isort_insert key a s') i = Some x -> nth_error (isort_insert key a s') j = Some y -> key x <= key y).
  { clear. induction s' as [|b s IH]; intros HS i j x y Hij Hx Hy; cbn [isort_insert] in *.
    - destruct i, j; cbn in *; try lia; try congruence. injection Hx as <-; injection Hy as <-; auto. destruct j; discriminate. destruct i; discriminate.
    - destruct (Nat.leb_spec (key a) (key b)) as [C|C].
      + destruct i as [|i], j as [|j]; cbn in *; try lia. { injection Hx as <-; injection Hy as <-; auto. }
        * injection Hx as <-. specialize (HS 0 j b y ltac:(lia) eq_refl Hy). lia.
        * apply (HS i j); auto; lia.
      + destruct i as [|i], j as [|j]; cbn in *; try lia. { injection Hx as <-; injection Hy as <-; auto. }
        * injection Hx as <-. clear IH. assert (In y (isort_insert key a s)) by (eapply nth_error_In; eauto).
          assert (P : Permutation (isort_insert key a s) (a :: s)). { clear. induction s as [|b s IH]; cbn [isort_insert]; auto. destruct (key a <=? key b); auto. rewrite IH. constructor. }
          apply (Permutation_in _ P) in H. destruct H as [<-|H]; [lia|]. apply In_nth_error in H. destruct H as [k Hk]. apply (HS 0 (S k) b y); auto. lia.
        * apply (IH (fun i j a b H => HS (S i) (S j) a b ltac:(lia)) i j); auto. lia. }
  apply Sd. auto.
Qed.

(** C13 *)
Theorem C13_adjacency_lists_are_reported :
  forall (W : Type) (adj : list (list (nat * W))),
  (N.of_nat (length adj) + 1 < U32MAX)%N -> (N.of_nat (length (concat adj)) < U32MAX)%N ->
  exists g, from_adjacency_lists adj = Some g /\ wf g /\ num_nodes g = length adj /\ num_arcs g = length (concat adj) /\
    forall u l, nth_error adj u = Some l -> link_iter g u = Some l.
Proof. exact @from_adjacency_ok. Qed.
Print Assumptions C13_adjacency_lists_are_reported.
Theorem C13_edge_ids_link_and_tails :
  forall adj g bs, valid_adj adj -> fits_u32 adj -> from_adjacency_lists adj = Some g -> bs_contract bs ->
  exists t, tm_new g = Some t /\
  forall (u k v : nat) (w : N), nth_error (nth u adj []) k = Some (v, w) ->
    let e := length (concat (firstn u adj)) + k in
    link g e = Some (v, w) /\ link_id_to_tail bs (first_out g) e = Some u /\ tm_tail bs t e = Some u.
Proof. exact adj_edges. Qed.
Print Assumptions C13_edge_ids_link_and_tails.
Theorem C13_edge_indices_are_exactly_the_parallel_arcs :
  forall (W : Type) adj (g : fograph W) u v, valid_adj adj -> fits_u32 adj -> from_adjacency_lists adj = Some g -> u < length adj ->
  exists ids, edge_indices g u v = Some ids /\ NoDup ids /\
    forall e, In e ids <-> exists k w, e = length (concat (firstn u adj)) + k /\ nth_error (nth u adj []) k = Some (v, w).
Proof. exact @adj_edge_indices. Qed.
Print Assumptions C13_edge_indices_are_exactly_the_parallel_arcs.
(** the contract of slice::binary_search holds of the concrete algorithm *)
Theorem C13_binary_search_meets_contract : bs_contract binary_search.
Proof. exact binary_search_contract. Qed.
Print Assumptions C13_binary_search_meets_contract.
Example C13_nonvacuous :
  (g <- from_adjacency_lists ex_adj ;; t <- tm_new g ;; ids <- edge_indices g 0 1 ;;
   Some (map (link_id_to_tail binary_search (first_out g)) [0; 2; 3; 4; 5], map (tm_tail binary_search t) [0; 2; 3; 4; 5], ids))
  = Some (map Some [0; 0; 2; 2; 3], map Some [0; 0; 2; 2; 3], [0; 1]).
Proof. vm_compute. reflexivity. Qed.

(** C14 *)
Theorem C14_unify_parallel_edges_keeps_distances :
  forall adj g, valid_adj adj -> fits_u32 adj -> from_adjacency_lists adj = Some g ->
  exists g', unify_parallel_edges g = Some g' /\ first_out g' = first_out g /\ head g' = head g /\
    (forall u v w, garc (link_iter g') u v w -> (w <= INF)%N /\ (w = INF \/ garc (link_iter g) u v w) /\ forall w0, garc (link_iter g) u v w0 -> (w <= w0)%N) /\
    (forall u v, (exists w, garc (link_iter g) u v w) <-> exists w, garc (link_iter g') u v w) /\
    ((forall u v w, garc (link_iter g) u v w -> (w <= INF)%N) -> forall s t d, is_dist (garc (link_iter g')) s t d <-> is_dist (garc (link_iter g)) s t d).
Proof. exact unify_spec. Qed.
Print Assumptions C14_unify_parallel_edges_keeps_distances.
Theorem C14_line_graph_walks_are_turn_walks :
  forall adj g tc, valid_adj adj -> fits_u32 adj -> from_adjacency_lists adj = Some g ->
  (forall e v w e' c, link g e = Some (v, w) -> tc e e' = Some c -> (w + c < U32)%N) ->
  (N.of_nat (length (concat adj)) + 1 < 4294967295)%N ->
  (N.of_nat (length (concat (map (turns_of g tc) (seq 0 (num_arcs g))))) < 4294967295)%N ->
  exists g', line_graph g tc = Some g' /\ num_nodes g' = num_arcs g /\
    (forall e v w a b, link g e = Some (v, w) -> range g v = Some (a, b) ->
      link_iter g' e = Some (flat_map (fun e' => match tc e e' with Some c => [(e', w + c)%N] | None => [] end) (seq a (b - a)))) /\
    forall e e' l, walk (garc (link_iter g')) e e' l <->
      turn_walk (fun e v w => link g e = Some (v, w)) (fun e u => exists a b, range g u = Some (a, b) /\ a <= e < b) tc e e' l.
Proof. exact line_graph_spec. Qed.
Print Assumptions C14_line_graph_walks_are_turn_walks.
Example C14_nonvacuous :
  (g <- from_adjacency_lists ex_adj ;; g1 <- unify_parallel_edges g ;;
   g2 <- line_graph g (fun e e' => if e =? e' then None else Some 10%N) ;;
   a <- link_iter g1 0 ;; b <- link_iter g2 5 ;; c <- link_iter g2 2 ;; Some (a, b, c))
  = Some ([(1, 5%N); (1, 5%N); (0, 2%N)], [(3, 11%N); (4, 11%N)], [(0, 12%N); (1, 12%N)]).
Proof. vm_compute. reflexivity. Qed.

(** C15. An arc u->v goes to [up] of u if rank u < rank v and otherwise, reversed, to [down] of v. *)
Theorem C15_ch_split_partitions_arcs :
  forall (W : Type) (adj : list (list (nat * W))) order ranks, valid_adj adj -> fits_u32 adj -> node_order (length adj) order ranks ->
  exists g up down, from_adjacency_lists adj = Some g /\ ch_split (num_nodes g) (link_iter g) ranks = Some (up, down) /\
    num_nodes up = length adj /\ num_nodes down = length adj /\
    forall v, v < length adj ->
      link_iter up v = Some (filter (fun a => nth v ranks 0 <? nth (fst a) ranks 0) (nth v adj [])) /\
      link_iter down v = Some (filter (fun a => nth v ranks 0 <=? nth (fst a) ranks 0) (incoming adj v)).
Proof. exact @ch_split_spec. Qed.
Print Assumptions C15_ch_split_partitions_arcs.
Example C15_nonvacuous :
  (g <- from_adjacency_lists ex_adj ;; '(up, down) <- ch_split 4 (link_iter g) [1; 3; 0; 2] ;;
   a <- link_iter up 0 ;; b <- link_iter down 2 ;; c <- link_iter down 0 ;; Some (a, b, c))
  = Some ([(1, 5%N); (1, 7%N)], [(3, 1%N)], [(0, 2%N)]).
Proof. vm_compute. reflexivity. Qed.
