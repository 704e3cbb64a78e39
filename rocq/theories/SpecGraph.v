(** Arcs, walks and shortest distances. Independent of the model: a graph is a ternary relation
    [arc u v w] ("there is an arc from u to v of weight w"; parallel arcs and loops allowed). *)
From Verif Require Import Base.

Section Walks.
  Variable arc : nat -> nat -> N -> Prop.

  (** [walk u v l]: some sequence of consecutive arcs leads from [u] to [v]; [l] is the sum of its weights
      (a mathematical integer, no wrap around). *)
  Inductive walk : nat -> nat -> N -> Prop :=
  | walk_nil u : walk u u 0
  | walk_cons u v t w l : arc u v w -> walk v t l -> walk u t (w + l).

  (** [npath u p t l]: [p] is a node sequence starting at [u] and ending at [t], consecutive nodes joined by
      arcs whose weights sum up to [l]. *)
  Inductive npath : nat -> list nat -> nat -> N -> Prop :=
  | npath_nil u : npath u [u] u 0
  | npath_cons u v t w l p : arc u v w -> npath v p t l -> npath u (u :: p) t (w + l).

  Definition is_dist (s t : nat) (d : N) : Prop := walk s t d /\ forall l, walk s t l -> (d <= l)%N.

  (** What a distance query may answer. Lengths of [INF] and more count as "not connected". *)
  Definition exact_answer (s t : nat) (r : option N) : Prop :=
    match r with
    | Some d => (d < INF)%N /\ is_dist s t d
    | None => forall l, walk s t l -> (INF <= l)%N
    end.

  Lemma walk_app u v t l1 l2 : walk u v l1 -> walk v t l2 -> walk u t (l1 + l2).
  Proof. intros H1 H2; induction H1. { auto. } rewrite <- N.add_assoc. econstructor; eauto. Qed.

  Lemma walk_arc u v w : arc u v w -> walk u v w.
  Proof. intros H. rewrite <- (N.add_0_r w). econstructor; eauto. constructor. Qed.

  Lemma walk_snoc u v t w l : walk u v l -> arc v t w -> walk u t (l + w).
  Proof. intros H1 H2. eapply walk_app; eauto. apply walk_arc; auto. Qed.

  Lemma npath_walk u p t l : npath u p t l -> walk u t l.
  Proof. induction 1; econstructor; eauto. Qed.

  Lemma npath_app u p v l1 q t l2 : npath u p v l1 -> npath v (v :: q) t l2 -> npath u (p ++ q) t (l1 + l2).
  Proof.
    intros H1 H2. revert H2. induction H1; intros H2; cbn [app].
    - auto.
    - rewrite <- N.add_assoc. econstructor; eauto.
  Qed.
End Walks.

(** Reversal of walks. *)
Definition flip_arc (arc : nat -> nat -> N -> Prop) : nat -> nat -> N -> Prop := fun u v w => arc v u w.
Lemma walk_flip arc u v l : walk arc u v l -> walk (flip_arc arc) v u l.
Proof.
  induction 1. { constructor. } rewrite N.add_comm. eapply walk_snoc; eauto.
Qed.
Lemma walk_flip_iff arc u v l : walk arc u v l <-> walk (flip_arc arc) v u l.
Proof. split; intros H; [apply walk_flip; auto|]. apply walk_flip in H. exact H. Qed.
Lemma walk_mono (a1 a2 : nat -> nat -> N -> Prop) u v l :
  (forall u v w, a1 u v w -> a2 u v w) -> walk a1 u v l -> walk a2 u v l.
Proof. intros H; induction 1; econstructor; eauto. Qed.

(** The arcs a graph reports through its link iterator. *)
Definition garc {W} (links : nat -> option (list (nat * W))) (u v : nat) (w : W) : Prop :=
  exists l, links u = Some l /\ In (v, w) l.

(** Adjacency lists: [nth u adj []] are the arcs (head, weight) out of node [u]. *)
Section Adj.
  Context {W : Type}.
  Definition valid_adj (adj : list (list (nat * W))) : Prop :=
    forall l v w, In l adj -> In (v, w) l -> v < length adj.
  (** the arcs into [v], listed as (tail, weight) by ascending tail *)
  Definition incoming (adj : list (list (nat * W))) (v : nat) : list (nat * W) :=
    flat_map (fun u => map (fun a => (u, snd a)) (filter (fun a => fst a =? v) (nth u adj []))) (seq 0 (length adj)).
  (** ids are 32 bit *)
  Definition fits_u32 (adj : list (list (nat * W))) : Prop :=
    (N.of_nat (length adj) + 1 < 4294967295)%N /\ (N.of_nat (length (concat adj)) < 4294967295)%N.
  (** [ranks] is the inverse of the permutation [order] of the nodes 0..n-1 *)
  Definition node_order (n : nat) (order ranks : list nat) : Prop :=
    length order = n /\ length ranks = n /\
    (forall r u, nth_error order r = Some u -> nth_error ranks u = Some r) /\
    (forall u r, nth_error ranks u = Some r -> nth_error order r = Some u).
End Adj.

(** Turn-respecting edge sequences in a graph given by its edges: [e] leads to [e'] if [e'] starts where [e]
    ends and the turn is permitted; the cost is weight of e plus turn cost. *)
Section Turns.
  Variable edge_to : nat -> nat -> N -> Prop.      (* edge, head, weight *)
  Variable edge_from : nat -> nat -> Prop.         (* edge, tail *)
  Variable turn : nat -> nat -> option N.
  Inductive turn_walk : nat -> nat -> N -> Prop :=
  | tw_nil e : turn_walk e e 0
  | tw_cons e v w e' c t l : edge_to e v w -> edge_from e' v -> turn e e' = Some c -> turn_walk e' t l ->
      turn_walk e t (w + c + l).
End Turns.

(** Walks through a network whose travel may depend on the departure time: [step u d v d'] means "leaving [u]
    at time [d] one can be at [v] at time [d']". [reach s d0 v d]: from [s] at time [d0] to [v] at time [d]. *)
Section Timed.
  Variable step : nat -> N -> nat -> N -> Prop.
  Inductive reach (s : nat) (d0 : N) : nat -> N -> Prop :=
  | reach_nil : reach s d0 s d0
  | reach_snoc v d y d' : reach s d0 v d -> step v d y d' -> reach s d0 y d'.
  (** earliest arrival; arrival times of [INF] and later count as "not reachable" *)
  Definition earliest (s : nat) (d0 : N) (t : nat) (r : option N) : Prop :=
    match r with
    | Some d => (d < INF)%N /\ reach s d0 t d /\ forall d', reach s d0 t d' -> (d <= d')%N
    | None => forall d', reach s d0 t d' -> (INF <= d')%N
    end.
  (** the same with the visited nodes and the arcs used (labelled by [lab]) *)
  Variable L : Type.
  Variable lstep : nat -> N -> L -> nat -> N -> Prop.
  Inductive reach_path (s : nat) (d0 : N) : nat -> N -> list nat -> list L -> Prop :=
  | rp_nil : reach_path s d0 s d0 [s] []
  | rp_snoc v d l y d' p q : reach_path s d0 v d p q -> lstep v d l y d' -> reach_path s d0 y d' (p ++ [y]) (q ++ [l]).
End Timed.

Lemma reach_app step s d0 x dx t d : reach step s d0 x dx -> reach step x dx t d -> reach step s d0 t d.
Proof. intros H1 H2. induction H2; auto. econstructor; eauto. Qed.

(** A graph with [n] nodes as the link iterator reports it: heads in range, weights at most [INF]. *)
Definition wf_links (n : nat) (links : nat -> option (list (nat * N))) : Prop :=
  forall u, u < n -> exists ls, links u = Some ls /\ forall v w, In (v, w) ls -> v < n /\ (w <= INF)%N.

(** Lower bounds on the remaining distance to [t]; [None] = "cannot reach [t]". *)
Definition admissible_pot (arc : nat -> nat -> N -> Prop) (t : nat) (h : nat -> option N) : Prop :=
  forall u l, walk arc u t l -> (l < INF)%N -> exists p, h u = Some p /\ forall q, h t = Some q -> (p <= l + q)%N.
Definition feasible_pot (arc : nat -> nat -> N -> Prop) (t : nat) (h : nat -> option N) : Prop :=
  h t = Some 0%N /\ forall u v w q, arc u v w -> h v = Some q -> exists p, h u = Some p /\ (p <= w + q)%N.
Lemma feasible_admissible arc t h : feasible_pot arc t h -> admissible_pot arc t h.
Proof.
  intros [Ht Hf] u l H _. assert (G : exists p, h u = Some p /\ (p <= l)%N).
  { induction H as [u|u v t w l Ha Hw IH]; [exists 0%N; split; auto; lia|]. destruct (IH Ht) as (q & Hq & Hl).
    destruct (Hf u v w q Ha Hq) as (p & Hp & Hle). exists p. split; auto. lia. }
  destruct G as (p & Hp & Hle). exists p. split; auto. intros q Hq. lia.
Qed.

(** What a k-nearest-neighbours query from [s] among the nodes [ts] may answer: (distance, node) pairs by ascending
    distance, no node twice, every pair a target with its exact distance, and every other reachable target is no
    closer than any reported one -- and is left out only because [k] targets were reported. *)
Definition nearest_answer (arc : nat -> nat -> N -> Prop) (s : nat) (ts : list nat) (k : nat) (res : list (N * nat)) : Prop :=
  NoDup (map snd res) /\
  (forall i j a b, i <= j -> nth_error res i = Some a -> nth_error res j = Some b -> (fst a <= fst b)%N) /\
  (forall x v, In (x, v) res -> In v ts /\ (x < INF)%N /\ is_dist arc s v x) /\
  length res <= k /\
  (forall v y, In v ts -> (y < INF)%N -> is_dist arc s v y -> ~ In v (map snd res) ->
     length res = k /\ forall x u, In (x, u) res -> (x <= y)%N).

(** Nodes in order of their distance from [s]: each node closer than [INF] exactly once, with its distance. *)
Definition distance_order (arc : nat -> nat -> N -> Prop) (s : nat) (ord : list (nat * N)) : Prop :=
  NoDup (map fst ord) /\
  (forall i j a b, i <= j -> nth_error ord i = Some a -> nth_error ord j = Some b -> (snd a <= snd b)%N) /\
  (forall v x, In (v, x) ord <-> (x < INF)%N /\ is_dist arc s v x).

(** Contract of a potential object with operations init(target) and potential(node): [EI] are the states it may be in
    before a query, [ET t] those after init([t]); [h t v] is the value it reports for [v] after init([t]). *)
Record pot_contract {E} (n : nat) (T : nat -> Prop) (pinit : E -> nat -> option E) (pget : E -> nat -> option (E * option N))
  (EI : E -> Prop) (ET : nat -> E -> Prop) (h : nat -> nat -> option N) : Prop := {
  pc_init : forall e t, EI e -> T t -> exists e', pinit e t = Some e' /\ ET t e';
  pc_get : forall e t v, ET t e -> v < n -> exists e', pget e v = Some (e', h t v) /\ ET t e';
  pc_keep : forall e t, ET t e -> EI e }.


(** Paths with the ids of the arcs used: [earc u e v w] = arc number [e] leads from [u] to [v] with weight [w]. *)
Section EdgePaths.
  Variable earc : nat -> nat -> nat -> N -> Prop.
  Inductive epath : nat -> list nat -> list nat -> nat -> N -> Prop :=
  | epath_nil u : epath u [u] [] u 0
  | epath_cons u e v t w l p q : earc u e v w -> epath v p q t l -> epath u (u :: p) (e :: q) t (w + l).
  Lemma epath_app u p q v l1 p2 q2 t l2 : epath u p q v l1 -> epath v (v :: p2) q2 t l2 -> epath u (p ++ p2) (q ++ q2) t (l1 + l2).
  Proof. intros H1 H2. revert H2. induction H1; intros H2; cbn [app]; auto. rewrite <- N.add_assoc. econstructor; eauto. Qed.
End EdgePaths.
(** arcs with ids as reported by a link iterator yielding (head, weight, id) *)
Definition garc_ids (links : nat -> option (list (nat * N * nat))) (u e v : nat) (w : N) : Prop :=
  exists l, links u = Some l /\ In (v, w, e) l.
(** edge number [e] of the adjacency array built from [adj] is the k-th entry of the list of [u], lists laid out in order *)
Definition adj_edge (adj : list (list (nat * N))) (u e v : nat) (w : N) : Prop :=
  exists k, e = length (concat (firstn u adj)) + k /\ nth_error (nth u adj []) k = Some (v, w).
(** arcs of an adjacency list *)
Definition adj_arc (adj : list (list (nat * N))) (u v : nat) (w : N) : Prop := In (v, w) (nth u adj []).
(** potential values leave room for adding a label below [INF] *)
Definition small_pot (h : nat -> option N) : Prop := forall v p, h v = Some p -> (p + INF <= 4294967296)%N.

(** What a distance query with a cap [c] may answer: a returned value is the length of some walk; if some walk is
    shorter than [c] (and [INF]), a value at most as long is returned. *)
Definition capped_answer (arc : nat -> nat -> N -> Prop) (s t : nat) (c : N) (r : option N) : Prop :=
  (forall x, r = Some x -> (x < INF)%N /\ walk arc s t x) /\
  (forall l, walk arc s t l -> (l < INF)%N -> (l < c)%N -> exists x, r = Some x /\ (x <= l)%N).
Lemma capped_exact arc s t r : capped_answer arc s t INF r -> exact_answer arc s t r.
Proof.
  intros [H1 H2]. destruct r as [x|]; cbn.
  - destruct (H1 x eq_refl) as [HI W]. split; auto. split; auto. intros l Hl. destruct (N.ltb_spec l INF) as [H|H]; [|lia].
    destruct (H2 l Hl H H) as (y & [= <-] & Hy). auto.
  - intros l Hl. destruct (N.ltb_spec l INF) as [H|H]; auto. destruct (H2 l Hl H H) as (y & [=] & _).
Qed.

(** Lower bounds on the distance to [t]; [None] = "cannot reach [t]". *)
Definition lower_bound_pot (arc : nat -> nat -> N -> Prop) (t : nat) (h : nat -> option N) : Prop :=
  forall u l, walk arc u t l -> (l < INF)%N -> exists p, h u = Some p /\ (p <= l)%N.
Lemma feasible_lower_bound arc t h : feasible_pot arc t h -> lower_bound_pot arc t h.
Proof.
  intros [Ht Hf] u l H _. induction H as [u|u v t w l Ha Hw IH]; [exists 0%N; split; auto; lia|]. destruct (IH Ht) as (q & Hq & Hl).
  destruct (Hf u v w q Ha Hq) as (p & Hp & Hle). exists p. split; auto. lia.
Qed.
Lemma feasible_walk arc t h : feasible_pot arc t h -> forall u v l q, walk arc u v l -> h v = Some q -> exists p, h u = Some p /\ (p <= l + q)%N.
Proof.
  intros [_ Hf] u v l q H Hq. induction H as [u|u v t' w l Ha Hw IH]; [exists q; split; auto; lia|]. destruct (IH Hq) as (q' & Hq' & Hl).
  destruct (Hf u v w q' Ha Hq') as (p & Hp & Hle). exists p. split; auto. lia.
Qed.
