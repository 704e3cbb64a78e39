(** Model of the construction of the TD-S server, engine/src/algo/time_dependent_sampling.rs l.35-67 Server::new. *)
From Verif Require Import Base SpecGraph BitVec Graph CCH CCHQuery SpecTTF PLF TDGraph.

Section TDS.
  Variable bs : list N -> N -> option (nat + nat).   (** binary search *)
  Variable P : N.                                    (** period() *)
  Variable debug : bool.

  (** l.37-43: the four windows, in hours *)
  Definition tds_windows : list (N * N) := [(22, 5); (7, 10); (11, 15); (16, 19)]%N.
  (** l.53-57: the average travel time of every arc in a window *)
  Definition tds_metric (g : tdgraph) (w : N * N) : option (list N) :=
    mapM (fun e => '(ds, ts) <- td_ttf P debug g e ;; average bs P debug ds ts w) (seq 0 (length (td_head g))).
  (** l.45-58 for one window; the products do not overflow, the period is a u32 and the hours are below 24 *)
  Definition tds_sample (g : tdgraph) (c : cch) (w : N * N) : option cserver :=
    let hour := (P / 24)%N in
    r <- wr_new P debug (fst w * hour, snd w * hour)%N ;;
    metric <- tds_metric g r ;;
    k <- customize c (mkFo (td_first_out g) (td_head g) metric) ;; Some (cs_new k).
  (** l.35-67; the servers of the four windows (the other fields are new workspaces) *)
  Definition tds_new (g : tdgraph) (c : cch) : option (list cserver) := mapM (tds_sample g c) tds_windows.
End TDS.
