(** Property C65: the TD-S server. *)
From Verif Require Import Base SpecGraph BitVec Graph CCH CCHQuery SpecTTF PLF PLFProof PLFAverage PropsTTF TDGraph TDGraphProof TDQueryProof PropsTD TDS.

(** Creating a TD-S server panics for every graph with an arc, whatever the functions and the CCH, in debug and release builds: the first window, from 22 to 5 o'clock,
    crosses the period. *)
Theorem C65_tds_server_refuted :
  forall bs P debug adj c, nbs_contract bs -> (24 <= P)%N -> wf_td P INF adj -> concat adj <> [] ->
  tds_new bs P debug (td_of adj) c = None.
Proof.
  intros bs P debug adj c HB HP HW Hne.
  assert (exists u e v f, arc_at adj u e v f /\ e = 0) as (u & e & v & f & Ha & ->).
  { clear - Hne. assert (H : forall pre l, concat pre = [] -> concat l <> [] -> exists u e v f, arc_at (pre ++ l) u e v f /\ e = 0).
    { intros pre l. revert pre. induction l as [|a l IH]; intros pre Hp Hl; [cbn in Hl; contradiction|]. destruct a as [|[v f] a].
      - destruct (IH (pre ++ [[]])) as (u & e & v & f & H). { rewrite concat_app, Hp. reflexivity. } { exact Hl. } exists u, e, v, f. rewrite <- app_assoc in H. exact H.
      - exists (length pre), 0, v, f. split; auto. exists 0. rewrite app_nth2 by lia. rewrite Nat.sub_diag. cbn [nth nth_error]. split; auto. rewrite firstn_app, Nat.sub_diag, firstn_all. cbn [firstn]. rewrite app_nil_r, Hp. reflexivity. }
    apply (H [] adj); auto. }
  destruct (HW _ _ _ _ Ha) as (_ & HV & HS). pose proof (td_ttf_ok bs P debug adj HB ltac:(lia) HW _ _ _ _ Ha) as Ht. 
  assert (Hl : exists r, length (td_head (td_of adj)) = S r). { unfold td_of. cbn [td_head]. rewrite map_length. destruct (concat adj) as [|q l]; [contradiction|]. exists (length l). reflexivity. }
  destruct Hl as (r & Hl). unfold tds_new, tds_windows. cbn [mapM]. unfold tds_sample at 1. cbn [fst snd].
  set (s := (22 * (P / 24))%N). set (e := (5 * (P / 24))%N).
  destruct (wr_new P debug (s, e)) as [w|] eqn:Ew; [|reflexivity]. cbn [bind].
  assert (w = (s, e)). { unfold wr_new in Ew. destruct debug; cbn [PLF.dassert guard bind fst snd] in Ew; repeat (destruct (_ <? _)%N; cbn [bind guard] in Ew; try discriminate); injection Ew as <-; reflexivity. } subst w.
  unfold tds_metric. rewrite Hl. cbn [seq mapM]. rewrite Ht. cbn [bind].
  unfold s, e. assert (0 < P / 24)%N by (apply N.div_str_pos; lia). pose proof (N.mul_div_le P 24 ltac:(lia)).
  rewrite (C36_average_across_period_panics bs P debug f); auto; try lia.
Qed.
Print Assumptions C65_tds_server_refuted.

(** a graph with four arcs and a period of 100 *)
Example C65_nonvacuous : nbs_contract lin_search /\ wf_td 100 INF ex_adj /\ concat ex_adj <> [].
Proof. split; [exact lin_search_contract|]. split; [exact ex_wf|]. discriminate. Qed.
