(** Model of rebuild_customized_perfect: engine/src/algo/customizable_contraction_hierarchy/customization.rs l.349-630.
    [fw], [bw] are the upward and downward graph of the CCH with the customized weights; they may differ (DirectedCCH).
    Edge ids are [nat]. *)
From Verif Require Import Base BitVec Graph SpecGraph CCH SepTree CCHPerfect.

(** the vectors of one direction: first_out, head, tail, weight, unpacking *)
Record rside := mkSide { x_fo : list nat; x_head : list nat; x_tail : list nat; x_wt : list N; x_unp : list unp }.
(** the links of a node zipped with the flags, the unpacking information and the edge ids *)
Definition zipped (g : fograph N) (ms : list bool) (us : list unp) (node : nat) : option (list (nat * N * bool * unp * nat)) :=
  '(a, b) <- range g node ;; ls <- link_iter g node ;; m <- slice ms a b ;; u <- slice us a b ;;
  Some (combine (combine (combine ls m) u) (seq a (b - a))).
(** an edge id through the mapping of the old to the new ids (l.416-417) *)
Definition map_id (mp : list nat) (o : option nat) : option (option nat) :=
  match o with None => Some None | Some e => e' <- nth_error mp e ;; Some (Some e') end.
Definition map_unp (fmap bmap : list nat) (u : unp) : option unp :=
  d <- map_id bmap (fst u) ;; p <- map_id fmap (snd u) ;; Some (d, p).

(** ** One thread (feature cch-disable-par, l.384-441)
    The debug assertion weight < INFINITY (l.408, l.429) is left out: debug builds panic there on any edge that
    remains without a finite weight. *)
Record rbst := mkRb { b_fw : rside; b_bw : rside; b_fmap : list nat; b_bmap : list nat }.
Definition side_new : rside := mkSide [0] [] [] [] [].
Definition side_push (sd : rside) (node x : nat) (w : N) (u : unp) : rside :=
  mkSide (x_fo sd) (x_head sd ++ [x]) (x_tail sd ++ [node]) (x_wt sd ++ [w]) (x_unp sd ++ [u]).
Definition side_close (sd : rside) : rside := mkSide (x_fo sd ++ [length (x_head sd)]) (x_head sd) (x_tail sd) (x_wt sd) (x_unp sd).
(** l.402-419 *)
Definition keep_fw (node : nat) (st : rbst) (z : nat * N * bool * unp * nat) : option rbst :=
  let '(x, w, modified, u, e) := z in
  if (modified : bool) then Some st else
  fmap <- set_at (b_fmap st) e (length (x_head (b_fw st))) ;;
  u' <- map_unp fmap (b_bmap st) u ;;
  Some (mkRb (side_push (b_fw st) node x w u') (b_bw st) fmap (b_bmap st)).
(** l.421-438 *)
Definition keep_bw (node : nat) (st : rbst) (z : nat * N * bool * unp * nat) : option rbst :=
  let '(x, w, modified, u, e) := z in
  if (modified : bool) then Some st else
  bmap <- set_at (b_bmap st) e (length (x_head (b_bw st))) ;;
  u' <- map_unp (b_fmap st) bmap u ;;
  Some (mkRb (b_fw st) (side_push (b_bw st) node x w u') (b_fmap st) bmap).
(** l.400-441: one node *)
Definition rebuild_node (fw bw : fograph N) (upm dnm : list bool) (upu dnu : list unp) (st : rbst) (node : nat) : option rbst :=
  zf <- zipped fw upm upu node ;; st <- foldM (keep_fw node) zf st ;;
  zb <- zipped bw dnm dnu node ;; st <- foldM (keep_bw node) zb st ;;
  Some (mkRb (side_close (b_fw st)) (side_close (b_bw st)) (b_fmap st) (b_bmap st)).
Definition rebuild_seq (fw bw : fograph N) (upm dnm : list bool) (upu dnu : list unp) : option (rside * rside) :=
  let m_fw := length (head fw) in let m_bw := length (head bw) in
  st <- foldM (rebuild_node fw bw upm dnm upu dnu) (seq 0 (num_nodes fw)) (mkRb side_new side_new (repeat m_fw m_fw) (repeat m_bw m_bw)) ;;
  Some (b_fw st, b_bw st).

(** ** Several threads (l.440-613); [k] is 4 * number of threads
    Every spawned closure has exclusive slices of the vectors it writes and reads only shared immutable ones, which is
    checked by the Rust compiler, so a closure is a function and the vectors are put together from their results. *)

(** slice::chunks; a chunk size of 0 panics *)
Fixpoint chunks {A} (fuel size : nat) (l : list A) : list (list A) :=
  match fuel, l with S f, _ :: _ => firstn size l :: chunks f size (skipn size l) | _, _ => [] end.
(** l.460-466 *)
Definition first_nodes (tails : list nat) (n k : nat) : option (list nat) :=
  let size := (length tails + k - 1) / k in
  _ <- guard (negb (size =? 0)) ;;
  l <- mapM (fun c => nth_error c 0) (chunks (length tails) size tails) ;; Some (l ++ [n]).
(** l.475-487: the number of edges chunk [i] keeps in one direction *)
Definition chunk_count (fo : list nat) (ms : list bool) (firsts : list nat) (i : nat) : option nat :=
  a <- nth_error firsts i ;; b <- nth_error firsts (i + 1) ;; ea <- nth_error fo a ;; eb <- nth_error fo b ;;
  l <- slice ms ea eb ;; Some (length (filter negb l)).
(** l.490-496 *)
Fixpoint prefixes (acc : nat) (l : list nat) : list nat := match l with [] => [acc] | x :: l' => acc :: prefixes (acc + x) l' end.

(** what a closure writes for one direction: first_out, (head, tail, weight, unpacking), mapping *)
Record rchunk := mkCh { h_fo : list nat; h_ent : list (nat * nat * N * unp); h_map : list nat }.
(** l.561-573 and l.574-589; [cap] is the length of the slices for the kept edges *)
Definition chunk_edge (before cap eoff node : nat) (st : rchunk) (z : nat * N * bool * unp * nat) : option rchunk :=
  let '(x, w, modified, u, e) := z in
  if (modified : bool) then Some st else
  _ <- guard (length (h_ent st) <? cap) ;;
  i <- csub e eoff ;; mp <- set_at (h_map st) i (before + length (h_ent st)) ;;
  Some (mkCh (h_fo st) (h_ent st ++ [(x, node, w, u)]) mp).
(** l.556-590 for one direction: the two directions of a closure do not touch each other's data *)
Definition chunk_node (g : fograph N) (ms : list bool) (us : list unp) (before cap eoff : nat) (st : rchunk) (node : nat) : option rchunk :=
  zs <- zipped g ms us node ;;
  foldM (chunk_edge before cap eoff node) zs (mkCh (h_fo st ++ [before + length (h_ent st)]) (h_ent st) (h_map st)).
(** l.521-591: chunk [i]; the node range may not be decreasing, the subtractions may not overflow *)
Definition chunk_run (g : fograph N) (ms : list bool) (us : list unp) (firsts pre : list nat) (i : nat) : option rchunk :=
  a <- nth_error firsts i ;; b <- nth_error firsts (i + 1) ;; ea <- nth_error (first_out g) a ;; eb <- nth_error (first_out g) b ;;
  k <- csub b a ;; ne <- csub eb ea ;;
  before <- nth_error pre i ;; after <- nth_error pre (i + 1) ;; cap <- csub after before ;;
  foldM (chunk_node g ms us before cap ea) (seq a k) (mkCh [] [] (repeat (length (head g)) ne)).
(** split_at_mut of a vector of length [len] initialized with [d] into the slices filled by the closures *)
Definition fill {A} (d : A) (len : nat) (l : list A) : option (list A) :=
  _ <- guard (length l <=? len) ;; Some (l ++ repeat d (len - length l)).
(** one direction up to l.604: the side (unpacking not yet mapped) and the mapping; truncate never fails *)
Definition rebuild_side (g : fograph N) (ms : list bool) (us : list unp) (firsts : list nat) (k : nat) : option (rside * list nat) :=
  let m := length (head g) in
  counts <- mapM (chunk_count (first_out g) ms firsts) (seq 0 k) ;;
  let pre := prefixes 0 counts in
  cs <- mapM (chunk_run g ms us firsts pre) (seq 0 k) ;;
  fo <- fill 0 (length (first_out g)) (concat (map h_fo cs)) ;;
  mp <- fill m m (concat (map h_map cs)) ;;
  let ent := concat (map h_ent cs) in
  total <- nth_error pre k ;;
  ents <- fill (0, 0, 0%N, no_unp) m ent ;;
  let ents := firstn total ents in
  fo <- set_at fo (length (first_out g) - 1) (length ents) ;;
  Some (mkSide fo (map (fun e => fst (fst (fst e))) ents) (map (fun e => snd (fst (fst e))) ents) (map (fun e => snd (fst e)) ents) (map snd ents), mp).
Definition side_map (fmap bmap : list nat) (sd : rside) : option rside :=
  us <- mapM (map_unp fmap bmap) (x_unp sd) ;; Some (mkSide (x_fo sd) (x_head sd) (x_tail sd) (x_wt sd) us).
(** [tails] are the tails of the forward edges *)
Definition rebuild_par (k : nat) (tails : list nat) (fw bw : fograph N) (upm dnm : list bool) (upu dnu : list unp) : option (rside * rside) :=
  firsts <- first_nodes tails (num_nodes fw) k ;;
  '(sf, fmap) <- rebuild_side fw upm upu firsts k ;; '(sb, bmap) <- rebuild_side bw dnm dnu firsts k ;;
  sf <- side_map fmap bmap sf ;; sb <- side_map fmap bmap sb ;; Some (sf, sb).

(** l.615-629, mod.rs l.500-535: the perfect customization; forward_tail is not used by anything modelled *)
Definition perfect_of (c : cch) (r : rside * rside) : option customized :=
  fw <- fo_new (x_fo (fst r)) (x_head (fst r)) (x_wt (fst r)) ;; bw <- fo_new (x_fo (snd r)) (x_head (snd r)) (x_wt (snd r)) ;;
  Some (mkCust fw bw (x_unp (fst r)) (x_unp (snd r)) (x_tail (snd r)) (c_elim c) (c_order c) (c_ranks c)).
(** l.252-255 customize_perfect on one thread *)
Definition customize_perfect (c : cch) (k : customized) : option customized :=
  s <- perfect_weights c (weight (k_fw k)) (weight (k_bw k)) ;;
  r <- rebuild_seq (mkFo (c_fo c) (c_head c) (g_up s)) (mkFo (c_fo c) (c_head c) (g_dn s)) (g_upm s) (g_dnm s) (k_upu k) (k_dnu k) ;;
  perfect_of c r.
(** the same with the parallel rebuild by [k] closures (4 per thread); the parallel schedule of the weights does not matter, see C27 *)
Definition customize_perfect_par (k : nat) (c : cch) (cu : customized) : option customized :=
  s <- perfect_weights c (weight (k_fw cu)) (weight (k_bw cu)) ;;
  r <- rebuild_par k (c_tail c) (mkFo (c_fo c) (c_head c) (g_up s)) (mkFo (c_fo c) (c_head c) (g_dn s)) (g_upm s) (g_dnm s) (k_upu cu) (k_dnu cu) ;;
  perfect_of c r.
