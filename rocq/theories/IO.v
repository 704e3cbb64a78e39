(** Model of engine/src/io.rs: Store / Load of vectors, Deconstruct / Reconstruct, with their implementations for
    graphs, node orders, bit vectors and CCHs. A load is [None] on panic, [Some None] on an io error.
    Not modelled: failing writes and concurrent access to the files. *)
From Verif Require Import Base SpecIO Graph NodeOrder CCH BitVec.

(** l.48-53 data_bytes: the memory of the vector *)
Definition data_bytes {T} (r : repr T) (l : list T) : list N := List.concat (map (r_enc r) l).
(** l.96-102 write_to: File::create truncates, write_all *)
Definition write_to (f : files) (path : string) (bytes : list N) : files :=
  fun p => if (p =? path)%string then Some bytes else f p.

(** the elements whose memory is [bytes] *)
Fixpoint elements {T} (r : repr T) (n : nat) (bytes : list N) : list T :=
  match n with O => [] | S n => r_dec r (firstn (r_size r) bytes) :: elements r n (skipn (r_size r) bytes) end.
(** l.112-121 load_from with l.124-130 new_with_bytes (the remainder by a size of zero panics, too) *)
Definition load_vec {T} (r : repr T) (f : files) (path : string) : option (option (list T)) :=
  match f path with
  | None => Some None
  | Some bytes =>
      _ <- guard (negb (r_size r =? 0)) ;;
      _ <- guard (List.length bytes mod r_size r =? 0) ;;
      let n := List.length bytes / r_size r in
      _ <- guard (List.length bytes =? n * r_size r) ;;
      Some (Some (elements r n bytes))
  end.

(** rank_select_map.rs l.102-118: a bit vector is stored as its 64 bit words; new_with_bytes makes 8 bits per byte *)
Definition bv_bytes (b : bitvec) : list N := data_bytes (uint_repr 8) (bdata b).
Definition load_bv (f : files) (path : string) : option (option bitvec) :=
  match f path with
  | None => Some None
  | Some bytes =>
      let b := bv_new (List.length bytes * 8) in
      _ <- guard (List.length bytes =? List.length (bdata b) * 8) ;;
      Some (Some (mkBv (elements (uint_repr 8) (List.length (bdata b)) bytes) (bsize b)))
  end.

(** sequencing of loads: the ? operator *)
Definition iobind {A B} (x : option (option A)) (k : A -> option (option B)) : option (option B) :=
  match x with None => None | Some None => Some None | Some (Some a) => k a end.
Notation "x <<- e ?; k" := (iobind e (fun x => k)) (at level 60, e at next level, right associativity).

(** l.141-154 deconstruct_to, l.176-190 Loader: files in a directory *)
Definition join (dir name : string) : string := (dir ++ "/" ++ name)%string.
Definition ok {A} (x : option A) : option (option A) := match x with Some a => Some (Some a) | None => None end.

(** first_out_graph.rs l.82-107 *)
Definition save_graph {W} (r : repr W) (f : files) (dir : string) (g : fograph W) : files :=
  let f := write_to f (join dir "first_out") (data_bytes id_repr (first_out g)) in
  let f := write_to f (join dir "head") (data_bytes id_repr (head g)) in
  write_to f (join dir "weights") (data_bytes r (weight g)).
Definition load_graph {W} (r : repr W) (f : files) (dir : string) : option (option (fograph W)) :=
  fo <<- load_vec id_repr f (join dir "first_out") ?;
  hd <<- load_vec id_repr f (join dir "head") ?;
  wt <<- load_vec r f (join dir "weights") ?;
  ok (fo_new fo hd wt).
(** first_out_graph.rs l.191-199: with a chosen weight file *)
Definition load_graph_with (name : string) (f : files) (dir : string) : option (option (fograph N)) :=
  fo <<- load_vec id_repr f (join dir "first_out") ?;
  hd <<- load_vec id_repr f (join dir "head") ?;
  wt <<- load_vec (uint_repr 4) f (join dir name) ?;
  ok (fo_new fo hd wt).

(** node_order.rs l.97-107 *)
Definition save_order (f : files) (dir : string) (o : norder) : files :=
  write_to f (join dir "ranks") (data_bytes id_repr (no_ranks o)).
Definition load_order (debug : bool) (f : files) (dir : string) : option (option norder) :=
  rk <<- load_vec id_repr f (join dir "ranks") ?; ok (from_ranks debug rk).

(** mod.rs l.43-61: only the topology of a CCH is stored; the loader takes the order from the same directory and
    computes the rest again. (The separator tree of a CCH is not part of [cch].) *)
Definition save_cch (f : files) (dir : string) (c : cch) : files :=
  let f := write_to f (join dir "cch_first_out") (data_bytes id_repr (c_fo c)) in
  write_to f (join dir "cch_head") (data_bytes id_repr (c_head c)).
Definition load_cch (debug : bool) (g : fograph N) (f : files) (dir : string) : option (option cch) :=
  o <<- load_order debug f dir ?;
  hd <<- load_vec id_repr f (join dir "cch_head") ?;
  fo <<- load_vec id_repr f (join dir "cch_first_out") ?;
  cg <<- ok (fo_new fo hd (repeat tt (List.length hd))) ?;
  _ <<- ok (guard (num_nodes cg =? num_nodes g)) ?;
  ok (cch_new_from g (no_order o) (no_ranks o) cg).
