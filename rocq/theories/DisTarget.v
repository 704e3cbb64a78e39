(** Model of engine/src/algo/dijkstra/query/mod.rs, module disconnected_targets (l.11-113): CatchDisconnectedTarget. *)
From Verif Require Import Base BitVec Graph.

(** l.16-20: the reversed graph and the visited flags (the wrapped server is a parameter of the queries below) *)
Record cdt := mkCdt { cd_rev : fograph unit; cd_vis : fcbv }.

(** new, l.22-33. [links] is the link iterator of the graph with payloads dropped ([NodeIdT]). *)
Definition cd_new {W} (n m : nat) (links : nat -> option (list (nat * W))) : option cdt :=
  rev <- reversed tt n m (fun u => l <- links u ;; Some (map (fun a => (fst a, tt)) l)) ;;
  Some (mkCdt rev (fc_new n)).

(** dfs, l.35-47, with the closure of check_target, l.53-65, inlined: state = (visited, counter, reachable).
    [fuel] bounds the depth of the recursion. *)
Fixpoint cd_dfs (fuel : nat) (links : nat -> option (list (nat * unit))) (source : nat)
    (st : fcbv * nat * bool) (node : nat) : option (fcbv * nat * bool) :=
  match fuel with
  | 0 => None
  | S fuel =>
      let '(vis, counter, reachable) := st in
      seen <- fc_get vis node ;;
      if seen : bool then Some st
      else
        vis <- fc_set vis node ;;
        if node =? source then Some (vis, counter, true)
        else if counter <? 200 then
          ls <- links node ;;
          foldM (fun st a => cd_dfs fuel links source st (fst a)) ls (vis, counter + 1, reachable)
        else Some (vis, counter, true)
  end.

(** check_target, l.49-67. 201 nested calls suffice: the depth grows only with the counter. *)
Definition check_target (c : cdt) (source target : nat) : option (cdt * bool) :=
  vis <- fc_clear (cd_vis c) ;;
  '(vis, _, reachable) <- cd_dfs 201 (link_iter (cd_rev c)) source (vis, 0, false) target ;;
  Some (mkCdt (cd_rev c) vis, reachable).

(** l.70-99: [query] and [td_query]; the answer is the distance and whether a path server is present *)
Definition cd_query {S Q} (inner : S -> Q -> option (S * option N)) (from to : Q -> nat)
    (st : cdt * S) (q : Q) : option ((cdt * S) * option N) :=
  let '(c, sv) := st in
  '(c, ok) <- check_target c (from q) (to q) ;;
  if ok : bool then '(sv, d) <- inner sv q ;; Some ((c, sv), d)
  else Some ((c, sv), None).
Definition cd_history {S Q} (inner : S -> Q -> option (S * option N)) (from to : Q -> nat)
    (st : cdt * S) (qs : list Q) : option (cdt * S) :=
  foldM (fun st q => '(st, _) <- cd_query inner from to st q ;; Some st) qs st.
