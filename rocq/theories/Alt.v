(** Model of engine/src/algo/alt.rs: ALTPotData::{new, new_with_landmark_distances, forward_potential,
    backward_potential} and ALTPotential. Landmark selection (new_with_avoid, farthest_landmarks) is not modelled:
    the theorems hold for every set of landmarks. *)
From Verif Require Import Base BitVec IndexHeap TsVec Graph Dijkstra DijServer PLF.

(** l.12-16 *)
Record altdata := mkAlt { al_fw : list N; al_bw : list N; al_k : nat }.

(** l.46-67: new_with_landmark_distances *)
Definition alt_layout (fw bw : list (list N)) : option altdata :=
  f0 <- nth_error fw 0 ;;
  let n := length f0 in
  let k := length fw in
  xs <- mapM (fun node => mapM (fun l => r <- nth_error fw l ;; nth_error r node) (seq 0 k)) (seq 0 n) ;;
  ys <- mapM (fun node => mapM (fun l => r <- nth_error bw l ;; nth_error r node) (seq 0 k)) (seq 0 n) ;;
  Some (mkAlt (concat xs) (concat ys) k).

(** l.33-39: one_to_all(l) on a server and reading off all distances *)
Definition alt_row (n : nat) (links : nat -> option (list (nat * N))) (sv : server unit unit) (l : nat) : option (server unit unit * list N) :=
  sv <- sv_one_to_all n links fst def_lk def_pl zero_init zero_pot sv l ;;
  ds <- mapM (sv_dist_of sv) (seq 0 n) ;;
  Some (sv, ds).

(** l.19-44: new *)
Definition alt_new (n m : nat) (links : nat -> option (list (nat * N))) (landmarks : list nat) : option altdata :=
  rev <- reversed 0%N n m links ;;
  '(_, _, fw, bw) <- foldM (fun st l =>
      let '(sv, rsv, fw, bw) := st in
      '(sv, f) <- alt_row n links sv l ;;
      '(rsv, b) <- alt_row n (link_iter rev) rsv l ;;
      Some (sv, rsv, fw ++ [f], bw ++ [b])) landmarks (plain_new n, plain_new n, [], []) ;;
  alt_layout fw bw.

(** l.216-223, 225-232 *)
Definition alt_forward (a : altdata) : altdata := a.
Definition alt_backward (a : altdata) : altdata := mkAlt (al_bw a) (al_fw a) (al_k a).

(** l.256-258: the state of ALTPotential is the target *)
Definition alt_init (_ : nat) (t : nat) : option nat := Some t.
(** l.243-253, 260-282 *)
Definition alt_get (a : altdata) (target : nat) (node : nat) : option (nat * option N) :=
  let k := al_k a in
  nf <- slice (al_fw a) (node * k) (node * k + k) ;;
  tf <- slice (al_fw a) (target * k) (target * k + k) ;;
  nb <- slice (al_bw a) (node * k) (node * k + k) ;;
  tb <- slice (al_bw a) (target * k) (target * k + k) ;;
  p <- lmaxN (map (fun '(nd, td) => td - nd)%N (combine nf tf) ++ map (fun '(nd, td) => nd - td)%N (combine nb tb)) ;;
  Some (target, if (p <? INF)%N then Some p else None).
(** init(target) followed by potential(node) *)
Definition alt_potential (a : altdata) (target node : nat) : option (option N) :=
  e <- alt_init 0 target ;; '(_, r) <- alt_get a e node ;; Some r.
