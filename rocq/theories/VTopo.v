(** Model of engine/src/algo/topocore.rs l.16-42 and l.427-867 (virtual_topocore, VirtualTopocoreGraph and the graph
    algorithms behind them) and of the Server of engine/src/algo/ch_potentials/query.rs l.8-174, 210-225, 239-268.
    Graphs are given by [links u] = link_iter(u) as (head, payload) pairs. BitVecs are modelled by their lists of bits
    (C01 is about BitVec itself). report!() calls and the inspect closures are not modelled. *)
From Verif Require Import Base Graph NodeOrder SepTree CCH IndexHeap TsVec Dijkstra DijServer PLF TopoDij.

(** link_iter with NodeIdT items: the heads *)
Definition heads_of {W} (links : nat -> option (list (nat * W))) (u : nat) : option (list nat) := l <- links u ;; Some (map fst l).

(** dfs, l.781-803; state: visited, stack (top first), visited nodes in order. The arguments are the stack loop's
    fuel and the graph's heads. *)
Definition dfs_state := (list bool * list nat * list nat)%type.
Definition dfs_step (heads : nat -> option (list nat)) (st : dfs_state) : option (dfs_state + dfs_state) :=
  let '(vis, stack, ord) := st in
  match stack with
  | [] => Some (inr st)
  | x :: stack =>
      b <- nth_error vis x ;;
      if (b : bool) then Some (inl (vis, stack, ord))
      else
        vis' <- set_at vis x true ;;
        hs <- heads x ;;
        stack' <- foldM (fun sk h => c <- nth_error vis' h ;; Some (if (c : bool) then sk else h :: sk)) hs stack ;;
        Some (inl (vis', stack', ord ++ [x]))
  end.
Definition dfs_root (fuel : N) (heads : nat -> option (list nat)) (st : dfs_state) (node : nat) : option dfs_state :=
  let '(vis, stack, ord) := st in
  b <- nth_error vis node ;;
  loopN fuel (dfs_step heads) (vis, if (b : bool) then stack else node :: stack, ord).
(** dfs_pre_order, l.773-779: the visit order, made a NodeOrder *)
Definition dfs_pre_order (debug : bool) (n m : nat) (heads : nat -> option (list nat)) : option norder :=
  '(_, _, ord) <- foldM (dfs_root (N.of_nat (n + m + 2)) heads) (seq 0 n) (repeat false n, [], []) ;;
  from_node_order debug ord.

(** symmetric_degree, l.481-516, on the sorted head lists *)
Fixpoint sd_merge (f : list nat) : list nat -> nat :=
  fix aux (b : list nat) : nat :=
    match f, b with
    | x :: f', y :: b' => S (if x =? y then sd_merge f' b' else if x <? y then sd_merge f' b else aux b')
    | _ :: f', [] => S (sd_merge f' [])
    | [], _ :: b' => S (aux b')
    | [], [] => 0
    end.
Definition symmetric_degree (fw bw : list nat) : nat := sd_merge (isort fw) (isort bw).
(** [as u8], l.526 *)
Definition as_u8 (x : nat) : nat := N.to_nat (N.of_nat x mod 256).

(** biconnected, l.805-867. Stacks are lists with the top first; a stack entry is a node and the rest of its
    neighbour iterator. *)
Record bstate := mkB {
  b_stack : list (nat * list nat); b_cnt : nat; b_num : list (option nat); b_low : list nat; b_par : list nat;
  b_edges : list (nat * nat); b_comps : list (list (nat * nat)) }.
(** the loop l.848-855: pop the edges whose tail was numbered no earlier than [wn] *)
Fixpoint pop_edges (num : list (option nat)) (wn : nat) (es acc : list (nat * nat)) : option (list (nat * nat) * list (nat * nat)) :=
  match es with
  | [] => Some (acc, [])
  | (u1, u2) :: es' =>
      o <- nth_error num u1 ;; un <- o ;;
      if wn <=? un then pop_edges num wn es' (acc ++ [(u1, u2)]) else Some (acc, es)
  end.
Definition bstep (debug : bool) (heads : nat -> option (list nat)) (s : bstate) : option (bstate + bstate) :=
  match b_stack s with
  | [] => Some (inr s)
  | (node, nbs) :: rest =>
      o <- nth_error (b_num s) node ;;
      '(num, low, cnt) <-
        match o with
        | Some _ => Some (b_num s, b_low s, b_cnt s)
        | None => low <- set_at (b_low s) node (b_cnt s) ;; num <- set_at (b_num s) node (Some (b_cnt s)) ;; Some (num, low, b_cnt s + 1)
        end ;;
      match nbs with
      | nb :: nbs' =>
          onb <- nth_error num nb ;;
          match onb with
          | Some k =>
              onn <- nth_error num node ;; nn <- onn ;;
              p <- nth_error (b_par s) node ;;
              if (k <? nn) && negb (nb =? p) then
                l <- nth_error low node ;;
                low' <- set_at low node (Nat.min l k) ;;
                Some (inl (mkB ((node, nbs') :: rest) cnt num low' (b_par s) ((node, nb) :: b_edges s) (b_comps s)))
              else Some (inl (mkB ((node, nbs') :: rest) cnt num low (b_par s) (b_edges s) (b_comps s)))
          | None =>
              par' <- set_at (b_par s) nb node ;;
              hs <- heads nb ;;
              Some (inl (mkB ((nb, hs) :: (node, nbs') :: rest) cnt num low par' ((node, nb) :: b_edges s) (b_comps s)))
          end
      | [] =>
          v <- nth_error (b_par s) node ;;
          lv <- nth_error low v ;; lw <- nth_error low node ;;
          low' <- set_at low v (Nat.min lv lw) ;;
          ov <- nth_error num v ;; vn <- ov ;;
          lw' <- nth_error low' node ;;
          if vn <=? lw' then
            own <- nth_error num node ;; wn <- own ;;
            '(comp, es) <- pop_edges num wn (b_edges s) [] ;;
            '(comp, es) <-
              match es with
              | [] => Some (comp, [])
              | e :: es' => _ <- guard (negb debug || (fst e =? v) && (snd e =? node)) ;; Some (comp ++ [e], es')
              end ;;
            Some (inl (mkB rest cnt num low' (b_par s) es (b_comps s ++ [comp])))
          else Some (inl (mkB rest cnt num low' (b_par s) (b_edges s) (b_comps s)))
      end
  end.
Definition broot (debug : bool) (fuel : N) (heads : nat -> option (list nat)) (s : bstate) (node : nat) : option bstate :=
  o <- nth_error (b_num s) node ;;
  match o with
  | Some _ => Some s
  | None =>
      _ <- guard (negb debug || match b_edges s, b_stack s with [], [] => true | _, _ => false end) ;;
      par <- set_at (b_par s) node node ;;
      hs <- heads node ;;
      loopN fuel (bstep debug heads) (mkB ((node, hs) :: b_stack s) (b_cnt s) (b_num s) (b_low s) par (b_edges s) (b_comps s))
  end.
Definition biconnected (debug : bool) (n : nat) (fuel : N) (heads : nat -> option (list nat)) : option (list (list (nat * nat))) :=
  s <- foldM (broot debug fuel heads) (seq 0 n) (mkB [] 0 (repeat None n) (repeat 0 n) (repeat 0 n) [] []) ;;
  Some (b_comps s).

(** Iterator::max_by_key: the last of the greatest elements *)
Definition max_by_key {A} (key : A -> nat) (l : list A) : option A :=
  fold_left (fun o x => match o with None => Some x | Some y => Some (if key y <=? key x then x else y) end) l None.

(** the search for the components outside the core, l.541-575: state components, bridge, queue *)
Definition cmp_state := (list nat * list (option nat) * list nat)%type.
Definition cmp_neighbor (debug : bool) (core : list bool) (idx : nat) (st : cmp_state) (nb : nat) : option cmp_state :=
  let '(comp, bridge, queue) := st in
  c <- nth_error core nb ;;
  if (c : bool) then
    if length bridge <? idx then Some (comp, bridge ++ [Some nb], queue)
    else
      _ <- guard (negb debug || match nth_error bridge (length bridge - 1) with Some (Some b) => b =? nb | _ => false end) ;;
      Some (comp, bridge, queue)
  else
    k <- nth_error comp nb ;;
    if k =? 0 then comp' <- set_at comp nb idx ;; Some (comp', bridge, queue ++ [nb])
    else _ <- guard (negb debug || (k =? idx)) ;; Some (comp, bridge, queue).
Definition cmp_step (debug : bool) (heads : nat -> option (list nat)) (core : list bool) (idx : nat) (st : cmp_state) : option (cmp_state + cmp_state) :=
  let '(comp, bridge, queue) := st in
  match queue with
  | [] => Some (inr st)
  | x :: queue => hs <- heads x ;; st' <- foldM (cmp_neighbor debug core idx) hs (comp, bridge, queue) ;; Some (inl st')
  end.
Definition cmp_root (debug : bool) (fuel : N) (heads : nat -> option (list nat)) (core : list bool) (st : list nat * list (option nat)) (node : nat) :
  option (list nat * list (option nat)) :=
  let '(comp, bridge) := st in
  c <- nth_error core node ;;
  k <- nth_error comp node ;;
  if negb c && (k =? 0) then
    let idx := length bridge + 1 in
    comp' <- set_at comp node idx ;;
    '(comp'', bridge', _) <- loopN fuel (cmp_step debug heads core idx) (comp', bridge, [node]) ;;
    Some (comp'', if length bridge' <? idx then bridge' ++ [None] else bridge')
  else Some st.

(** VirtualTopocore, l.427-436 *)
Record vtopo := mkVT { vt_order : norder; vt_core : nat; vt_deg2 : nat; vt_deg3 : nat; vt_degs : list nat; vt_bcc : list nat; vt_bridge : list (option nat) }.

(** Iterator::position(...).unwrap_or(d) *)
Fixpoint position_or {A} (d : nat) (p : A -> bool) (l : list A) (i : nat) : nat :=
  match l with [] => d | x :: l' => if p x then i else position_or d p l' (S i) end.

Section Build.
  Context {W : Type}.
  Variable debug : bool.                                          (** whether debug_assert!s are compiled in *)
  Variable dsort : (nat -> nat) -> list nat -> list nat.          (** sort_by on a key *)
  Variables n m : nat.                                            (** num_nodes, num_arcs *)
  Variable links : nat -> option (list (nat * W)).

  (** UndirectedGraph::link_iter, l.37-41 *)
  Definition both_heads (rlinks : nat -> option (list (nat * unit))) (u : nat) : option (list nat) :=
    i <- heads_of rlinks u ;; o <- heads_of links u ;; Some (i ++ o).

  (** virtual_topocore, l.518-625. The comparator of the sort l.588-594 orders by descending min(degree, 4): all
      degrees above 3 are equal, otherwise the greater degree comes first. InRangeOption::some fails only for values
      the assertion of from_node_order excludes. *)
  Definition virtual_topocore : option vtopo :=
    order <- dfs_pre_order debug n m (heads_of links) ;;
    rev <- reversed tt n m (fun u => l <- links u ;; Some (map (fun a => (fst a, tt)) l)) ;;
    degs <- mapM (fun u => f <- heads_of links u ;; b <- heads_of (link_iter rev) u ;; Some (as_u8 (symmetric_degree f b))) (seq 0 n) ;;
    let both := both_heads (link_iter rev) in
    comps <- biconnected debug n (N.of_nat (2 * (n + m) + 2 + n)) both ;;
    biggest <- max_by_key (@length (nat * nat)) comps ;;
    core <- foldM (fun c '(u, v) => c' <- set_at c u true ;; set_at c' v true) biggest (repeat false n) ;;
    '(components, bridge) <- foldM (cmp_root debug (N.of_nat (n + 2)) both core) (seq 0 n) (repeat 0 n, []) ;;
    let deg u := nth u degs 0 in
    let incore u := nth u core false in
    let core_nodes := dsort (fun u => 4 - Nat.min (deg u) 4) (filter incore (no_order order)) in
    let other := filter (fun u => negb (incore u)) (no_order order) in
    let new_order := core_nodes ++ other in
    bcc <- mapM (fun u => csub (nth u components 0) 1) other ;;
    let deg3 := position_or n (fun u => deg u <? 4) new_order 0 in
    let deg2 := position_or n (fun u => deg u <? 3) new_order 0 in
    order' <- from_node_order debug new_order ;;
    bridge' <- mapM (fun b => match b with Some u => r <- no_rank order' u ;; Some (Some r) | None => Some None end) bridge ;;
    Some (mkVT order' (length core_nodes) deg2 deg3 (map deg other) bcc bridge').
End Build.

(** NodeType, l.438-444 *)
Inductive node_ty := OtherBCC (d : nat) | Deg2OrLess | Deg3 | Deg4OrMore.
(** in_core, l.447-455 *)
Definition in_core (t : node_ty) : bool := match t with OtherBCC _ => false | _ => true end.
(** node_type, l.459-471 *)
Definition node_type (vt : vtopo) (v : nat) : option node_ty :=
  if v <? vt_deg3 vt then Some Deg4OrMore
  else if v <? vt_deg2 vt then Some Deg3
  else if v <? vt_core vt then Some Deg2OrLess
  else d <- nth_error (vt_degs vt) (v - vt_core vt) ;; Some (OtherBCC d).
(** bridge_node, l.473-479 *)
Definition bridge_node (vt : vtopo) (v : nat) : option (option nat) :=
  ty <- node_type vt v ;;
  if in_core ty then Some None
  else i <- csub v (vt_core vt) ;; c <- nth_error (vt_bcc vt) i ;; nth_error (vt_bridge vt) c.
(** SymmetricDegreeGraph for VirtualTopocoreGraph, l.727-745 *)
Definition vt_sdeg (vt : vtopo) (v : nat) : option symdeg :=
  if v <? vt_deg3 vt then Some GreaterEqFour
  else if v <? vt_deg2 vt then Some Three
  else if v <? vt_core vt then Some LessEqTwo
  else d <- nth_error (vt_degs vt) (v - vt_core vt) ;; Some (if d =? 3 then Three else if 3 <? d then GreaterEqFour else LessEqTwo).

(** PotentialForPermutated, a_star.rs l.130-138 *)
Section PermPot.
  Context {E : Type}.
  Variable o : norder.
  Variable pot_init : E -> nat -> option E.
  Variable pot_get : E -> nat -> option (E * option N).
  Definition pp_init (e : E) (t : nat) : option E := u <- no_node o t ;; pot_init e u.
  Definition pp_get (e : E) (v : nat) : option (E * option N) := u <- no_node o v ;; pot_get e u.
End PermPot.

(** Server, query.rs l.8-16: main graph, component graph, topocore, search data with the potential *)
Record vserver (E : Type) := mkVS { vs_main : fograph N; vs_comp : fograph N; vs_vt : vtopo; vs_sv : server unit E }.
Arguments mkVS {E}. Arguments vs_main {E}. Arguments vs_comp {E}. Arguments vs_vt {E}. Arguments vs_sv {E}.

Section VServer.
  Context {E : Type}.
  Variables bcc_core skip2 skip3 : bool.                                          (** BCC_CORE, SKIP_DEG_2, SKIP_DEG_3 *)
  Variable debug : bool.
  Variable dsort : (nat -> nat) -> list nat -> list nat.
  Variable lsort : (nat * N -> nat) -> list (nat * N) -> list (nat * N).
  Variable pot_init : E -> nat -> option E.
  Variable pot_get : E -> nat -> option (E * option N).

  (** the predicates of new_topo_dijkstra_graphs, topocore.rs l.653-668; node_type fails only out of range *)
  Definition vt_in_core (vt : vtopo) (v : nat) : bool := match node_type vt v with Some ty => in_core ty | None => false end.
  Definition core_arc (vt : vtopo) (t h : nat) : bool := vt_in_core vt t && vt_in_core vt h.
  Definition comp_arc (vt : vtopo) (t h : nat) : bool := negb (vt_in_core vt t) || negb (vt_in_core vt h).

  (** new_custom, query.rs l.36-62 with VirtualTopocoreGraph::new, topocore.rs l.633-650, or new_topo_dijkstra_graphs,
      l.652-676; DefaultOps on an OwnedGraph *)
  Definition vs_new (g : fograph N) (e : E) : option (vserver E) :=
    let n := num_nodes g in
    vt <- virtual_topocore debug dsort n (num_arcs g) (link_iter g) ;;
    let perm p := permutated_filtered lsort n (link_iter g) (no_order (vt_order vt)) (no_ranks (vt_order vt)) p in
    main <- perm (if bcc_core then core_arc vt else fun _ _ => true) ;;
    comp <- perm (if bcc_core then comp_arc vt else fun _ _ => false) ;;
    Some (mkVS main comp vt (sv_new (num_nodes main) tt e)).

  Section Query.
    Variable S : vserver E.
    Notation vt := (vs_vt S).
    Notation pinit' := (pp_init (vt_order vt) pot_init).
    Notation pget' := (pp_get (vt_order vt) pot_get).
    Notation n := (num_nodes (vs_main S)).

    (** the two component search loops, query.rs l.104-117 (bound = tentative distance of [x] + [p]) and l.151-164 *)
    Definition comp_loop (x : nat) (p : N) (d : dij unit) (e : E) : option (dij unit * E) :=
      loopN (dij_fuel n) (fun '(d, e) =>
        '(d', e', o) <- topo_settle n (link_iter (vs_comp S)) fst def_lk def_pl (vt_sdeg vt) skip2 skip3 no_cb pget' d e ;;
        match o with
        | None => Some (inr (d', e'))
        | Some _ =>
            match hpeek (d_queue d') with
            | Some (k, _) =>
                y <- ts_get N INF (d_dist d') x ;;
                b <- cadd y p ;;
                if (b <=? k)%N then Some (inr (d', e')) else Some (inl (d', e'))
            | None => Some (inr (d', e'))
            end
        end) (d, e).

    (** distance, query.rs l.64-174; [from], [to] are the original node ids. The potential of the source is only
        reported (l.94; modelled because the call changes the potential object). *)
    Definition vs_distance (from to : nat) : option (vserver E * option N) :=
      if from =? to then Some (S, Some 0%N) else
      s <- no_rank (vt_order vt) from ;;
      t <- no_rank (vt_order vt) to ;;
      if negb bcc_core then
        '(sv, r) <- skip_distance n (link_iter (vs_main S)) fst def_lk def_pl (vt_sdeg vt) skip2 skip3 pinit' pget' (vs_sv S) s t 0 INF ;;
        Some (mkVS (vs_main S) (vs_comp S) vt sv, r)
      else
      let done d e r := Some (mkVS (vs_main S) (vs_comp S) vt (mkSv d e), r) in
      e <- pinit' (sv_pot (vs_sv S)) t ;;
      '(e, _) <- pget' e s ;;
      ob <- bridge_node vt s ;; let into := match ob with Some b => b | None => s end in
      ob' <- bridge_node vt t ;; let out := match ob' with Some b => b | None => t end in
      '(e, ip) <- pget' e into ;;
      match ip with
      | None => done (sv_dij (vs_sv S)) e None
      | Some ip =>
          d <- dij_init (sv_dij (vs_sv S)) s 0 ;;
          '(d, e) <- comp_loop into ip d e ;;
          x <- ts_get N INF (d_dist d) into ;;
          if (INF <=? x)%N then done d e None
          else
            d <- topo_reinit d into ;;
            '(d, e, cd) <- skip_run n (link_iter (vs_main S)) fst def_lk def_pl (vt_sdeg vt) skip2 skip3 pget' d e into out INF ;;
            d <- topo_reinit d (match cd with Some _ => out | None => s end) ;;
            '(d, e) <- comp_loop t 0 d e ;;
            y <- ts_get N INF (d_dist d) t ;;
            if (y <? INF)%N then done d e (Some y) else done d e None
      end.

    (** node_path, query.rs l.210-219 *)
    Definition vs_node_path (from to : nat) : option (list nat) :=
      s <- no_rank (vt_order vt) from ;;
      t <- no_rank (vt_order vt) to ;;
      p <- sv_node_path (vs_sv S) s t ;;
      mapM (no_node (vt_order vt)) p.
  End Query.

  (** a sequence of queries on one server *)
  Definition vs_history (S : vserver E) (qs : list (nat * nat)) : option (vserver E) :=
    foldM (fun S q => '(S', _) <- vs_distance S (fst q) (snd q) ;; Some S') qs S.
End VServer.
