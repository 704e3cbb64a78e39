(** Model of engine/src/datastr/node_order.rs *)
From Verif Require Import Base Graph.

(** node_order.rs l.14-19 *)
Record norder := mkOrder { no_order : list nat; no_ranks : list nat }.

(** node_order.rs l.23-28 identity *)
Definition no_identity (n : nat) : norder := mkOrder (seq 0 n) (seq 0 n).

(** node_order.rs l.33-40 and l.51-58: the loop shared by from_node_order and from_ranks, [inv[v[i]] = i].
    [debug]: whether the debug_assert of l.40 / l.58 is compiled in. *)
Definition invert_vec (debug : bool) (v : list nat) : option (list nat) :=
  let n := length v in
  _ <- guard (N.of_nat n <? U32MAX)%N ;;
  r <- foldM (fun r iv => set_at r (snd iv) (fst iv)) (combine (seq 0 n) v) (repeat n n) ;;
  _ <- guard (negb debug || forallb (fun x => negb (x =? n)) r) ;;
  Some r.

(** node_order.rs l.31-46 *)
Definition from_node_order (debug : bool) (v : list nat) : option norder :=
  r <- invert_vec debug v ;; Some (mkOrder v r).
(** node_order.rs l.49-64 *)
Definition from_ranks (debug : bool) (v : list nat) : option norder :=
  o <- invert_vec debug v ;; Some (mkOrder o v).

(** node_order.rs l.77-84 *)
Definition no_rank (o : norder) (u : nat) : option nat := nth_error (no_ranks o) u.
Definition no_node (o : norder) (r : nat) : option nat := nth_error (no_order o) r.
