(** Model of engine/src/algo/dijkstra/query/dijkstra.rs (Server), the potentials of engine/src/algo/a_star.rs that
    drive it, and engine/src/algo/dijkstra/query/nearest_neighbor.rs. *)
From Verif Require Import Base SpecGraph SpecBits BitVec IndexHeap TsVec Graph Dijkstra.

Section Server.
  Context {A P E : Type}.
  Variable n : nat.                                   (** graph.num_nodes() *)
  Variable links : nat -> option (list A).
  Variable hd : A -> nat.
  Variable lk : nat -> N -> A -> option N.
  Variable pl : A -> P.
  Variable pot_init : E -> nat -> option E.           (** Potential::init *)
  Variable pot_get : E -> nat -> option (E * option N). (** Potential::potential *)

  (** the closures next_step_with_potential passes to settle_next_node (generic_dijkstra.rs l.85-92) *)
  Definition all_edges (_ : A) : bool := true.
  Definition no_cb (e : E) (_ : nat) (_ : N) : option (E * bool) := Some (e, true).

  (** Server, query/dijkstra.rs l.7-14 (the graph is a parameter) *)
  Record server := mkSv { sv_dij : dij P; sv_pot : E }.
  (** new / with_potential, l.22-28, 38-44; [p0] = PredecessorLink::default() *)
  Definition sv_new (p0 : P) (e : E) : server := mkSv (dij_new n p0) e.

  (** distance, l.46-70. [d0] = query.initial_state() *)
  Definition sv_distance (sv : server) (from to : nat) (d0 : N) : option (server * option N) :=
    d <- dij_init (sv_dij sv) from d0 ;;
    e <- pot_init (sv_pot sv) to ;;
    '(d', e', r) <- run_until links hd lk pl all_edges no_cb pot_get n to d e ;;
    Some (mkSv d' e', r).

  (** one_to_all, l.97-103 *)
  Definition sv_one_to_all (sv : server) (from : nat) : option server :=
    '(sv', _) <- sv_distance sv from n 0 ;; Some sv'.
  (** ServerWrapper::distance / predecessor, l.168-174 (also PathServerWrapper::distance l.139-141) *)
  Definition sv_dist_of (sv : server) (v : nat) : option N := ts_get N INF (d_dist (sv_dij sv)) v.
  Definition sv_pred_of (sv : server) (v : nat) : option nat := '(u, _) <- nth_error (d_pred (sv_dij sv)) v ;; Some u.

  (** node_path / edge_path of the last query, l.72-78 *)
  Definition sv_node_path (sv : server) (from to : nat) : option (list nat) := node_path (sv_dij sv) from to.
  Definition sv_edge_path (sv : server) (from to : nat) : option (list P) := edge_path (sv_dij sv) from to.

  (** ranks, l.80-95: settle everything without potential; report node, distance and log2 of the settle position
      for positions that are powers of two. Iteration through DijkstraRun::next (generic_dijkstra.rs l.196-198);
      Neutral() + key = key. Returns the callback invocations in order. *)
  Definition zero_get (e : E) (_ : nat) : option (E * option N) := Some (e, Some 0%N).
  Definition is_pow2 (i : N) : bool := (N.land i (i - 1) =? 0)%N.
  Definition sv_ranks (sv : server) (from : nat) : option (server * list (nat * N * N)) :=
    d <- dij_init (sv_dij sv) from 0 ;;
    loopN (dij_fuel n) (fun '(d, i, acc) =>
      '(d', _, o) <- settle links hd lk pl all_edges no_cb zero_get d (sv_pot sv) ;;
      match o with
      | None => Some (inr (mkSv d' (sv_pot sv), acc))
      | Some u =>
          let i := (i + 1)%N in
          if is_pow2 i then x <- ts_get N INF (d_dist d') u ;; Some (inl (d', i, acc ++ [(u, x, N.log2 i)]))
          else Some (inl (d', i, acc))
      end) (d, 0%N, []).
End Server.
Arguments mkSv {P E}. Arguments sv_dij {P E}. Arguments sv_pot {P E}. Arguments server : clear implicits.

(** * Ops *)
(** DefaultOps, dijkstra.rs l.166-191: Arc = Link (head, weight), label + weight *)
Definition def_lk (_ : nat) (d : N) (a : nat * N) : option N := cadd d (snd a).
Definition def_pl (_ : nat * N) : unit := tt.
(** DefaultOpsWithLinkPath, l.230-262: Arc = (head, weight, edge id), predecessor link = edge id *)
Definition lp_hd (a : nat * N * nat) : nat := fst (fst a).
Definition lp_lk (_ : nat) (d : N) (a : nat * N * nat) : option N := cadd d (snd (fst a)).
Definition lp_pl (a : nat * N * nat) : nat := snd a.

(** * Potentials *)
(** ZeroPotential, a_star.rs l.108-115 *)
Definition zero_init (e : unit) (_ : nat) : option unit := Some e.
Definition zero_pot (e : unit) (_ : nat) : option (unit * option N) := Some (e, Some 0%N).

(** RecyclingPotential, a_star.rs l.80-106 *)
Section Recycling.
  Context {E : Type}.
  Variable pot_init : E -> nat -> option E.
  Variable pot_get : E -> nat -> option (E * option N).
  Definition rec_new (e : E) : E * option nat := (e, None).
  Definition rec_init (e : E * option nat) (t : nat) : option (E * option nat) :=
    match snd e with
    | Some t' => if t' =? t then Some e else x <- pot_init (fst e) t ;; Some (x, Some t)
    | None => x <- pot_init (fst e) t ;; Some (x, Some t)
    end.
  Definition rec_get (e : E * option nat) (v : nat) : option ((E * option nat) * option N) :=
    '(x, p) <- pot_get (fst e) v ;; Some ((x, snd e), p).
End Recycling.

(** TurnExpandedPotential, a_star.rs l.9-38: [tail] maps a line graph node (edge) to its tail *)
Section TurnExpanded.
  Context {E : Type}.
  Variable pot_init : E -> nat -> option E.
  Variable pot_get : E -> nat -> option (E * option N).
  (** new, l.15-24 *)
  Definition te_tail (n : nat) (deg : nat -> option nat) : option (list nat) :=
    foldM (fun t u => d <- deg u ;; Some (t ++ repeat u d)) (seq 0 n) [].
  Definition te_init (tail : list nat) (e : E) (t : nat) : option E := t' <- nth_error tail t ;; pot_init e t'.
  Definition te_get (tail : list nat) (e : E) (v : nat) : option (E * option N) := v' <- nth_error tail v ;; pot_get e v'.
End TurnExpanded.

(** BaselinePotential, a_star.rs l.40-78: a full backward Dijkstra per target; [rlinks] are the links of
    OwnedGraph::reversed(graph) *)
Section Baseline.
  Variable n : nat.
  Variable rlinks : nat -> option (list (nat * N)).
  (** [init] l.56-68: Dijkstra from the target until the queue is empty (target out of range: panic) *)
  Definition base_init (e : dij unit) (t : nat) : option (dij unit) :=
    d <- dij_init e t 0 ;;
    '(d', _, _) <- run_until rlinks fst def_lk def_pl all_edges no_cb zero_get n n d tt ;; Some d'.
  (** [potential] l.70-77 *)
  Definition base_get (e : dij unit) (v : nat) : option (dij unit * option N) :=
    x <- ts_get N INF (d_dist e) v ;; Some (e, if (x <? INF)%N then Some x else None).
End Baseline.

(** * DijkstraNearestNeighbor, query/nearest_neighbor.rs l.4-48 *)
Section NN.
  Variable n : nat.
  Variable links : nat -> option (list (nat * N)).
  Record nn := mkNn { nn_dij : dij unit; nn_targets : fcbv }.
  (** new, l.11-17 *)
  Definition nn_new : nn := mkNn (dij_new n tt) (fc_new n).
  (** select_targets, l.19-25 *)
  Definition nn_select (x : nn) (ts : list nat) : option nn :=
    c <- fc_clear (nn_targets x) ;; c' <- foldM fc_set ts c ;; Some (mkNn (nn_dij x) c').
  (** query, l.27-41 *)
  Definition nn_query (x : nn) (source k : nat) : option (nn * list (N * nat)) :=
    d <- dij_init (nn_dij x) source 0 ;;
    loopN (dij_fuel n) (fun '(d, closest) =>
      '(d', _, o) <- settle links fst def_lk def_pl all_edges no_cb zero_get d tt ;;
      match o with
      | None => Some (inr (mkNn d' (nn_targets x), closest))
      | Some u =>
          b <- fc_get (nn_targets x) u ;;
          closest' <- (if (b : bool) then x <- ts_get N INF (d_dist d') u ;; Some (closest ++ [(x, u)]) else Some closest) ;;
          if k <=? length closest' then Some (inr (mkNn d' (nn_targets x), closest')) else Some (inl (d', closest'))
      end) (d, []).
End NN.

(** Histories of a server object: any sequence of queries on it. *)
Inductive sv_op := SvQuery (from to : nat) | SvAll (from : nat) | SvRanks (from : nat).
Section History.
  Context {A P E : Type}.
  Variable n : nat.
  Variable links : nat -> option (list A).
  Variable hd : A -> nat.
  Variable lk : nat -> N -> A -> option N.
  Variable pl : A -> P.
  Variable pot_init : E -> nat -> option E.
  Variable pot_get : E -> nat -> option (E * option N).
  Definition sv_step (sv : server P E) (op : sv_op) : option (server P E) :=
    match op with
    | SvQuery from to => '(sv', _) <- sv_distance n links hd lk pl pot_init pot_get sv from to 0 ;; Some sv'
    | SvAll from => sv_one_to_all n links hd lk pl pot_init pot_get sv from
    | SvRanks from => '(sv', _) <- sv_ranks n links hd lk pl sv from ;; Some sv'
    end.
  Definition sv_history (sv : server P E) (ops : list sv_op) : option (server P E) := foldM sv_step ops sv.
End History.

(** operations a user may call: existing source node; targets the potential accepts *)
Definition op_ok (n : nat) (T : nat -> Prop) (op : sv_op) : Prop :=
  match op with SvQuery from to => from < n /\ T to | SvAll from => from < n /\ T n | SvRanks from => from < n end.


(** The plain Dijkstra server: DefaultOps, ZeroPotential *)
Definition any_target (_ : nat) : Prop := True.
Definition plain_new (n : nat) : server unit unit := sv_new n tt tt.
Definition plain_hist (n : nat) (links : nat -> option (list (nat * N))) := sv_history n links fst def_lk def_pl zero_init zero_pot.
Definition plain_dist (n : nat) (links : nat -> option (list (nat * N))) := sv_distance n links fst def_lk def_pl zero_init zero_pot.

(** Histories of a nearest neighbour object *)
Inductive nn_op := NnSelect (ts : list nat) | NnQuery (s k : nat).
Definition nn_step n links (x : nn) (op : nn_op) : option nn :=
  match op with NnSelect ts => nn_select x ts | NnQuery s k => '(x', _) <- nn_query n links x s k ;; Some x' end.
Definition nn_history n links (ops : list nn_op) : option nn := foldM (nn_step n links) ops (nn_new n).
(** the targets of the last select_targets *)
Definition nn_selected (ops : list nn_op) : list nat := fold_left (fun ts op => match op with NnSelect ts' => ts' | NnQuery _ _ => ts end) ops [].
Definition nn_op_ok (n : nat) (op : nn_op) : Prop := match op with NnSelect ts => Forall (fun v => v < n) ts | NnQuery s k => s < n /\ 1 <= k end.
