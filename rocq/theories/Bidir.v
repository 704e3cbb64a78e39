(** Model of engine/src/algo/dijkstra/query/bidirectional_dijkstra.rs (Server), the bidirectional potentials of
    engine/src/algo/a_star.rs and the direction choosers of engine/src/algo/dijkstra.rs. *)
From Verif Require Import Base IndexHeap TsVec Graph Dijkstra DijServer.

(** trait BiDirPotential, a_star.rs l.178-236. [E] is the state of the potential object. *)
Record bipot (E : Type) := mkBP {
  bp_init : E -> nat -> nat -> option E;                                (** init(source, target) *)
  bp_fw : E -> nat -> option (E * option N);                            (** forward_potential *)
  bp_bw : E -> nat -> option (E * option N);                            (** backward_potential *)
  bp_stop : E -> option N -> option N -> N -> option bool;              (** stop(fw min key, bw min key, stop_dist) *)
  bp_prune_fw : E -> nat -> N -> N -> N -> option (E * bool);           (** prune_forward(head, dist, reverse min, max) *)
  bp_prune_bw : E -> nat -> N -> N -> N -> option (E * bool) }.
Arguments mkBP {E}. Arguments bp_init {E}. Arguments bp_fw {E}. Arguments bp_bw {E}. Arguments bp_stop {E}.
Arguments bp_prune_fw {E}. Arguments bp_prune_bw {E}.

(** trait BidirChooseDir, dijkstra.rs l.264-274 *)
Record chooser (C : Type) := mkCh {
  ch_init : C;
  ch_may_stop : C -> bool;
  ch_choose : C -> option N -> option N -> C * bool }.
Arguments mkCh {C}. Arguments ch_init {C}. Arguments ch_may_stop {C}. Arguments ch_choose {C}.

(** ChooseMinKeyDir, dijkstra.rs l.276-289 *)
Definition min_key_dir : chooser unit := mkCh tt (fun _ => true) (fun c fw bw => (c,
  match fw, bw with Some f, Some b => (f <=? b)%N | None, Some _ => false | _, _ => true end)).
(** AlternatingDirs, l.291-311 *)
Definition alternating_dirs : chooser bool := mkCh false negb (fun prev fw bw =>
  let prev := negb prev in
  (prev, match fw, bw with Some _, Some _ => prev | None, Some _ => false | _, _ => true end)).

Definition odef (o : option N) (d : N) : N := match o with Some x => x | None => d end.
(** queue().peek().map(|q| q.key) *)
Definition peek_key (d : dij unit) : option N := option_map fst (hpeek (d_queue d)).

Section Server.
  Context {E C : Type}.
  Variable n : nat.
  Variable fwl bwl : nat -> option (list (nat * N)).   (** links of [forward] and [backward] *)
  Variable bp : bipot E.
  Variable ch : chooser C.

  (** Server, bidirectional_dijkstra.rs l.6-14 *)
  Record bserver := mkBS { bs_fw : dij unit; bs_bw : dij unit; bs_meet : nat; bs_pot : E }.
  (** new_with_potentials, l.22-37 (reversed graph: model parameter [bwl]) *)
  Definition bs_new (e : E) : bserver := mkBS (dij_new n tt) (dij_new n tt) 0 e.

  (** the improve callbacks, l.73-88 and l.101-116; state: potential, tentative_distance, meeting_node *)
  Definition bd_cb (prune : E -> nat -> N -> N -> N -> option (E * bool)) (other : dij unit) (maxd : N)
    (st : E * N * nat) (head : nat) (dist : N) : option ((E * N * nat) * bool) :=
    let '(e, tent, m) := st in
    '(e1, p) <- prune e head dist (odef (peek_key other) INF) (N.min tent maxd) ;;
    if (p : bool) then Some ((e1, tent, m), false) else
    od <- ts_get N INF (d_dist other) head ;;
    x <- cadd dist od ;;
    if (x <? tent)%N then Some ((e1, x, head), true) else Some ((e1, tent, m), true).
  Definition bd_pot (pot : E -> nat -> option (E * option N)) (st : E * N * nat) (v : nat) : option ((E * N * nat) * option N) :=
    let '(e, tent, m) := st in '(e1, p) <- pot e v ;; Some ((e1, tent, m), p).

  (** settle of the forward search with a given backward search and vice versa *)
  Definition bd_settle (links : nat -> option (list (nat * N))) prune pot (other : dij unit) (maxd : N) (d : dij unit) (st : E * N * nat) :=
    settle links fst def_lk def_pl all_edges (bd_cb prune other maxd) (bd_pot pot) d st.

  (** Bound for the loop (both searches shrink; directions may be forced once without progress). *)
  Definition bd_fuel : N := (4 * dij_fuel n + 4)%N.

  Definition bstate := (dij unit * dij unit * (E * N * nat) * C)%type.
  (** one round of the while loop, l.62-128; result: searches, (potential, tentative, meeting node), returned distance *)
  Definition bd_step (from to : nat) (maxd : N) (s : bstate) : option (bstate + (dij unit * dij unit * (E * N * nat) * option N)) :=
    let '(df, db, (e, tent, m), c) := s in
    stop <- (if ch_may_stop ch c then bp_stop bp e (peek_key df) (peek_key db) (N.min tent maxd) else Some false) ;;
    if (stop : bool) then Some (inr (df, db, (e, tent, m), if (tent =? INF)%N then None else Some tent)) else
    let '(c', dir) := ch_choose ch c (peek_key df) (peek_key db) in
    if (dir : bool) then
      '(df', (e', tent', m'), o) <- bd_settle fwl (bp_prune_fw bp) (bp_fw bp) db maxd df (e, tent, m) ;;
      match o with
      | Some u => if u =? to then x <- ts_get N INF (d_dist df') to ;; Some (inr (df', db, (e', tent', to), Some x)) else Some (inl (df', db, (e', tent', m'), c'))
      | None => Some (inl (df', db, (e', tent', m'), c'))
      end
    else
      '(db', (e', tent', m'), o) <- bd_settle bwl (bp_prune_bw bp) (bp_bw bp) df maxd db (e, tent, m) ;;
      match o with
      | Some u => if u =? from then x <- ts_get N INF (d_dist db') from ;; Some (inr (df, db', (e', tent', from), Some x)) else Some (inl (df, db', (e', tent', m'), c'))
      | None => Some (inl (df, db', (e', tent', m'), c'))
      end.

  (** distance_with_cap, l.44-137 (the inspect callback is not modelled) *)
  Definition bd_distance_cap (sv : bserver) (from to : nat) (maxd : N) : option (bserver * option N) :=
    df <- dij_init (bs_fw sv) from 0 ;;
    db <- dij_init (bs_bw sv) to 0 ;;
    e <- bp_init bp (bs_pot sv) from to ;;
    '(df', db', (e', _, m'), r) <- loopN bd_fuel (bd_step from to maxd) (df, db, (e, INF, bs_meet sv), ch_init ch) ;;
    Some (mkBS df' db' m' e', r).
  (** distance, l.40-42 *)
  Definition bd_distance (sv : bserver) (from to : nat) := bd_distance_cap sv from to INF.

  (** node_path, l.167-184 *)
  Definition bd_node_path (sv : bserver) (from to : nat) : option (list nat) :=
    a <- back_nodes (length (d_pred (bs_fw sv))) (d_pred (bs_fw sv)) from (bs_meet sv) ;;
    b <- back_nodes (length (d_pred (bs_bw sv))) (d_pred (bs_bw sv)) to (bs_meet sv) ;;
    Some (rev a ++ tl b).
  (** reconstruct_edge_path, l.194-196: one unit per arc of the node path *)
  Definition bd_edge_path (sv : bserver) (from to : nat) : option nat :=
    p <- bd_node_path sv from to ;; _ <- guard (1 <=? length p) ;; Some (length p - 1).

  (** any sequence of queries on one server object *)
  Definition bd_history (sv : bserver) (qs : list (nat * nat * N)) : option bserver :=
    foldM (fun sv '(s, t, c) => '(sv', _) <- bd_distance_cap sv s t c ;; Some sv') qs sv.
End Server.
Arguments mkBS {E}. Arguments bs_fw {E}. Arguments bs_bw {E}. Arguments bs_meet {E}. Arguments bs_pot {E}. Arguments bserver : clear implicits.

(** * Potentials *)
(** BiDirZeroPot, a_star.rs l.238-263 *)
Definition zero_bipot : bipot unit :=
  mkBP (fun e _ _ => Some e) (fun e _ => Some (e, Some 0%N)) (fun e _ => Some (e, Some 0%N))
    (fun _ fw bw stop_dist => match fw, bw with Some f, Some b => x <- cadd f b ;; Some (stop_dist <=? x)%N | _, _ => Some true end)
    (fun e _ _ _ _ => Some (e, false)) (fun e _ _ _ _ => Some (e, false)).

(** u32 addition: [cadd] panics on overflow (debug build), [radd] wraps around (release build), [iadd] is unbounded
    (not an addition of the program; used to state when overflow is the only obstacle). *)
Definition radd (a b : N) : option N := Some (wadd a b).
Definition iadd (a b : N) : option N := Some (a + b)%N.

(** prune_forward_internal / prune_backward_internal, a_star.rs l.198-211, 216-229. The second addition may exceed
    u32, so its semantics is the parameter [add]; the first one never does for potentials below 2^31. *)
Definition prune_int {E} (add : N -> N -> option N) (improved : bool) (own_raw other : E -> nat -> option (E * option N))
  (e : E) (head : nat) (dist rev_min maxd : N) : option (E * bool) :=
  if (maxd <? INF)%N then
    '(e1, p) <- own_raw e head ;;
    x <- cadd dist (odef p INF) ;;
    if (maxd <=? x)%N then Some (e1, true) else
    if improved then
      '(e2, q) <- other e1 head ;;
      let remaining := (rev_min - odef q INF)%N in
      y <- add dist remaining ;;
      if (maxd <=? y)%N then Some (e2, true) else Some (e2, false)
    else Some (e1, false)
  else Some (e, false).

Section Pair.
  Context {EF EB : Type}.
  Variable f_init : EF -> nat -> option EF.
  Variable f_get : EF -> nat -> option (EF * option N).
  Variable b_init : EB -> nat -> option EB.
  Variable b_get : EB -> nat -> option (EB * option N).

  (** SymmetricBiDirPotential, a_star.rs l.340-394 *)
  Definition sym_fw (e : EF * EB) (v : nat) : option ((EF * EB) * option N) := '(x, p) <- f_get (fst e) v ;; Some ((x, snd e), p).
  Definition sym_bw (e : EF * EB) (v : nat) : option ((EF * EB) * option N) := '(x, p) <- b_get (snd e) v ;; Some ((fst e, x), p).
  Definition sym_init (e : EF * EB) (s t : nat) : option (EF * EB) := x <- f_init (fst e) t ;; y <- b_init (snd e) s ;; Some (x, y).
  Definition sym_stop (fw bw : option N) (stop_dist : N) : bool :=
    let reached o := match o with Some k => (stop_dist <=? k)%N | None => true end in
    (reached fw && reached bw) || ((stop_dist =? INF)%N && (match fw with None => true | Some _ => false end || match bw with None => true | Some _ => false end)).
  Definition sym_bipot (add : N -> N -> option N) (improved : bool) : bipot (EF * EB) :=
    mkBP sym_init sym_fw sym_bw (fun _ fw bw sd => Some (sym_stop fw bw sd))
      (prune_int add improved sym_fw sym_bw) (prune_int add improved sym_bw sym_fw).

  (** AveragePotential, a_star.rs l.265-338. i32 arithmetic: [ci32] checks the range. *)
  Definition ci32 (z : Z) : option Z := if ((-2147483648 <=? z) && (z <? 2147483648))%Z then Some z else None.
  (** [x as i32] for u32 [x] / [z as u32] for i32 [z] *)
  Definition as_i32 (x : N) : Z := if (x <? 2147483648)%N then Z.of_N x else (Z.of_N x - 4294967296)%Z.
  Definition as_u32 (z : Z) : N := Z.to_N (z mod 4294967296).
  Record avg := mkAvg { av_f : EF; av_b : EB; av_fw_add : Z; av_bw_add : Z; av_mu_add : N }.
  Definition av_new (f : EF) (b : EB) : avg := mkAvg f b 0 0 0.
  Definition av_set_f (a : avg) x := mkAvg x (av_b a) (av_fw_add a) (av_bw_add a) (av_mu_add a).
  Definition av_set_b (a : avg) x := mkAvg (av_f a) x (av_fw_add a) (av_bw_add a) (av_mu_add a).
  (** potential, l.294-298 (Rust's i32 division truncates towards zero) *)
  Definition av_pot (a : avg) (v : nat) : option (avg * option Z) :=
    '(f, p) <- f_get (av_f a) v ;;
    let a := av_set_f a f in
    match p with
    | None => Some (a, None)
    | Some dt =>
        '(b, q) <- b_get (av_b a) v ;;
        let a := av_set_b a b in
        match q with
        | None => Some (a, None)
        | Some ds => x <- ci32 (as_i32 dt - as_i32 ds) ;; Some (a, Some (Z.quot x 2))
        end
    end.
  (** init, l.303-310 *)
  Definition av_init (a : avg) (s t : nat) : option avg :=
    f <- f_init (av_f a) t ;;
    b <- b_init (av_b a) s ;;
    '(b, q) <- b_get b t ;;
    let fw_add := as_i32 (odef q INF / 2)%N in
    '(f, p) <- f_get f s ;;
    let bw_add := as_i32 (odef p INF / 2)%N in
    '(a, r) <- av_pot (mkAvg f b fw_add bw_add (av_mu_add a)) s ;;
    mu <- match r with Some z => x <- ci32 (z + fw_add) ;; Some (as_u32 x) | None => Some 0%N end ;;
    Some (mkAvg (av_f a) (av_b a) fw_add bw_add mu).
  (** forward_potential / backward_potential, l.317-322 *)
  Definition av_fw (a : avg) (v : nat) : option (avg * option N) :=
    '(a, r) <- av_pot a v ;;
    match r with Some p => x <- ci32 (p + av_fw_add a) ;; Some (a, Some (Z.to_N (Z.max x 0))) | None => Some (a, None) end.
  Definition av_bw (a : avg) (v : nat) : option (avg * option N) :=
    '(a, r) <- av_pot a v ;;
    match r with Some p => x <- ci32 (av_bw_add a - p) ;; Some (a, Some (Z.to_N (Z.max x 0))) | None => Some (a, None) end.
  Definition av_fw_raw (a : avg) (v : nat) : option (avg * option N) := '(f, p) <- f_get (av_f a) v ;; Some (av_set_f a f, p).
  Definition av_bw_raw (a : avg) (v : nat) : option (avg * option N) := '(b, p) <- b_get (av_b a) v ;; Some (av_set_b a b, p).
  (** stop, l.311-316. The sum of the two keys may exceed u32: parameter [add]. *)
  Definition av_stop (add : N -> N -> option N) (a : avg) (fw bw : option N) (stop_dist : N) : option bool :=
    match fw, bw with
    | Some f, Some b => x <- add f b ;; y <- cadd stop_dist (av_mu_add a) ;; Some (y <=? x)%N
    | _, _ => Some true
    end.
  Definition avg_bipot (add : N -> N -> option N) (improved : bool) : bipot avg :=
    mkBP av_init av_fw av_bw (av_stop add) (prune_int add improved av_fw_raw av_bw) (prune_int add improved av_bw_raw av_fw).
End Pair.
Arguments mkAvg {EF EB}. Arguments av_f {EF EB}. Arguments av_b {EF EB}. Arguments av_fw_add {EF EB}. Arguments av_bw_add {EF EB}. Arguments av_mu_add {EF EB}. Arguments avg : clear implicits.
