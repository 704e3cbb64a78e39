(** Model of engine/src/datastr/graph/time_dependent/graph.rs: Graph (TDGraph), LiveTDGraph and
    PessimisticLiveTDGraph, and of the operations of engine/src/algo/dijkstra/query/td_dijkstra.rs.
    Node, edge and point indices are [nat]: with fewer than 2^32 points no index computation wraps. *)
From Verif Require Import Base BitVec IndexHeap TsVec Graph Dijkstra DijServer SpecTTF PLF.

(** l.10-17 *)
Record tdgraph := mkTd { td_first_out : list nat; td_head : list nat; td_first_ipp : list nat; td_dt : list N; td_tt : list N }.

(** new, l.20-62 *)
Definition td_new (P : N) (fo hd ipp : list nat) (dts tts : list N) : option tdgraph :=
  '(ipp, added, nd, nt) <- foldM (fun st i =>
      let '(ipp, added, nd, nt) := st in
      a <- nth_error ipp i ;;
      b <- nth_error ipp (i + 1) ;;
      _ <- guard (negb (a =? b)) ;;
      ipp <- set_at ipp i (a + added) ;;
      _ <- guard (a <=? b) ;;
      if 1 <? b - a then
        d0 <- nth_error dts a ;;
        '(added, nd, nt) <- (if (d0 =? 0)%N then Some (added, nd, nt)
                             else v0 <- nth_error tts a ;; Some (added + 1, nd ++ [0%N], nt ++ [v0])) ;;
        ds <- slice dts a b ;;
        ts <- slice tts a b ;;
        let nd := nd ++ ds in
        let nt := nt ++ ts in
        dl <- nth_error nd (length nd - 1) ;;
        (if (dl =? P)%N then Some (ipp, added, nd, nt)
         else v0 <- nth_error tts a ;; Some (ipp, added + 1, nd ++ [P], nt ++ [v0]))
      else
        v0 <- nth_error tts a ;;
        Some (ipp, added, nd ++ [0%N], nt ++ [v0]))
    (seq 0 (length hd)) (ipp, 0, [], []) ;;
  l <- nth_error ipp (length hd) ;;
  ipp <- set_at ipp (length hd) (l + added) ;;
  Some (mkTd fo hd ipp nd nt).

Section TD.
  Variable bs : list N -> N -> option (nat + nat).
  Variable P : N.
  Variable debug : bool.

  (** l.64-72: travel_time_function; the result is the pair of slices of the PiecewiseLinearFunction *)
  Definition td_ttf (g : tdgraph) (e : nat) : option (list N * list N) :=
    a <- nth_error (td_first_ipp g) e ;;
    b <- nth_error (td_first_ipp g) (e + 1) ;;
    ds <- slice (td_dt g) a b ;;
    ts <- slice (td_tt g) a b ;;
    _ <- plf_new P debug ds ts ;;
    Some (ds, ts).
  (** num_nodes, l.162-164 *)
  Definition td_n (g : tdgraph) : nat := length (td_first_out g) - 1.
  (** LinkIterable<(NodeIdT, EdgeIdT)>, l.203-211, with neighbor_edge_indices l.192-194 *)
  Definition td_links (g : tdgraph) (u : nat) : option (list (nat * nat)) :=
    a <- nth_error (td_first_out g) u ;;
    b <- nth_error (td_first_out g) (u + 1) ;;
    h <- slice (td_head g) a b ;;
    Some (combine h (seq a (b - a))).

  (** [graph.travel_time_function(e).eval(t)] *)
  Definition td_eval (g : tdgraph) (e : nat) (t : N) : option N :=
    '(ds, ts) <- td_ttf g e ;; plf_eval bs P debug ds ts t.

  (** [u32::saturating_add] *)
  Definition sat_add (a b : N) : N := N.min (a + b) U32MAX.

  (** LiveTDGraph::eval, l.286-302; [live] holds [InRangeOption::value()] of the entries, [N.sub] is saturating_sub *)
  Definition live_eval (g : tdgraph) (soon : N) (live : list (option N)) (e : nat) (t : N) : option N :=
    '(ds, ts) <- td_ttf g e ;;
    predicted <- plf_eval bs P debug ds ts t ;;
    o <- nth_error live e ;;
    match o with
    | Some lv =>
        if (t <? soon)%N then Some lv
        else
          ps <- plf_eval bs P debug ds ts soon ;;
          if (ps <? lv)%N then x <- cadd lv soon ;; Some (N.max (x - t) predicted)
          else x <- csubN (sat_add lv t) soon ;; Some (N.min x predicted)
    | None => Some predicted
    end.

  (** PessimisticLiveTDGraph::eval, l.397-411 *)
  Definition pess_eval (g : tdgraph) (live : list (option (N * N))) (e : nat) (t : N) : option N :=
    '(ds, ts) <- td_ttf g e ;;
    predicted <- plf_eval bs P debug ds ts t ;;
    o <- nth_error live e ;;
    match o with
    | Some (lv, soon) =>
        tt_live <- (if (soon <=? t)%N then plf_eval bs P debug ds ts t
                    else x <- plf_eval bs P debug ds ts soon ;; Some (N.min lv (sat_add x (soon - t)))) ;;
        Some (N.max predicted tt_live)
    | None => Some predicted
    end.

  (** upper_bound, l.413-420 *)
  Definition pess_upper_bound (g : tdgraph) (live : list (option (N * N))) (e : nat) (now : N) : option N :=
    '(ds, ts) <- td_ttf g e ;;
    ub <- plf_upper_bound ds ts ;;
    o <- nth_error live e ;;
    v <- pess_eval g live e now ;;
    Some (N.max ub (N.min (match o with Some (l, _) => l | None => 0%N end) v)).

  (** live_lower_bound, l.422-438 *)
  Definition pess_live_lower_bound (g : tdgraph) (live : list (option (N * N))) (e : nat) (now until : N) : option N :=
    '(ds, ts) <- td_ttf g e ;;
    o <- nth_error live e ;;
    match o with
    | Some (lv, soon) =>
        if (soon <=? until)%N then lower_bound_in_range bs P debug ds ts (soon, until)
        else x <- plf_eval bs P debug ds ts soon ;; Some (N.min lv (sat_add x (soon - until)))
    | None => lower_bound_in_range bs P debug ds ts (now, until)
    end.

  (** live_starts_switching_at, l.448-454 *)
  Definition pess_switching (g : tdgraph) (live : list (option (N * N))) (e : nat) : option (option N) :=
    o <- nth_error live e ;;
    match o with
    | Some (lv, soon) =>
        '(ds, ts) <- td_ttf g e ;;
        x <- plf_eval bs P debug ds ts soon ;;
        Some (Some (soon - (lv - x))%N)
    | None => Some None
    end.

  (** td_dijkstra.rs l.14-16, 43-52, 79-88: [label + eval(edge, label)]. An arc is (head, edge id). *)
  Definition td_lk (ev : nat -> N -> option N) (_ : nat) (d : N) (a : nat * nat) : option N :=
    w <- ev (snd a) d ;; cadd d w.
  Definition td_pl (_ : nat * nat) : unit := tt.

  (** A Dijkstra server on such a graph (query/dijkstra.rs, modelled in DijServer.v) answering
      TDQuery {from, to, departure}: the initial label is the departure, the answer is the arrival time. *)
  Definition td_query {E} (pinit : E -> nat -> option E) (pget : E -> nat -> option (E * option N))
      (g : tdgraph) (ev : nat -> N -> option N) (sv : server unit E) (from to : nat) (dep : N) :=
    sv_distance (td_n g) (td_links g) fst (td_lk ev) td_pl pinit pget sv from to dep.
  Definition td_history {E} (pinit : E -> nat -> option E) (pget : E -> nat -> option (E * option N))
      (g : tdgraph) (ev : nat -> N -> option N) (sv : server unit E) (qs : list (nat * nat * N)) : option (server unit E) :=
    foldM (fun sv '(from, to, dep) => '(sv', _) <- td_query pinit pget g ev sv from to dep ;; Some sv') qs sv.
End TD.

(** The arrays of a graph with the given arcs and functions: CSR layout (graph.rs l.10-17). C37 shows that [td_new]
    produces exactly this. *)
Definition td_of (adj : td_adj) : tdgraph :=
  let fs := map snd (concat adj) in
  mkTd (degrees_to_first_out (map (@length _) adj)) (map fst (concat adj))
       (degrees_to_first_out (map (@length _) fs)) (map fst (concat fs)) (map snd (concat fs)).
