(** C68: the event stream of link speed estimation. *)
From Coq Require Import List NArith Bool Lia.
From Verif Require Import SpecEvent EventIter EventProof.
Import ListNotations.

(** Construction fails exactly for missing input. *)
Theorem C68_construction_fails_iff_input_empty : forall F ls (ts : list (trace_data F)), event_iter ls ts = None <-> ls = [] \/ ts = [].
Proof. intros F [|l ls] [|t ts]; cbn; split; intros H; auto; try discriminate; destruct H; discriminate. Qed.
Print Assumptions C68_construction_fails_iff_input_empty.

(** Links with distinct ids, traces in the order of their links, the last group [(l, ts)] with traces, [ex] the links after it:
    every link up to [l] is delivered, directly followed by its own traces, then the stream ends. Release builds accept any [ex], debug
    builds at most one link. *)
Theorem C68_links_are_followed_by_their_traces :
  forall F (dbg : bool) gs l (ts : list (trace_data F)) ex, ts <> [] ->
  grouped l_id t_link (gs ++ [(l, ts)]) -> distinct l_id (links_of (gs ++ [(l, ts)])) -> (dbg = true -> length ex <= 1) ->
  exists s, event_iter (links_of (gs ++ [(l, ts)]) ++ ex) (traces_of (gs ++ [(l, ts)])) = Some s /\
    forall evs, yields (event_next dbg) s evs <-> evs = expected (gs ++ [(l, ts)]).
Proof.
  intros F dbg gs l [|t us] ex H G D Hd; [congruence|]. destruct (before_last dbg gs l t us ex G D) as (s & E & Em & Ee & Ht & Hu). exists s. split; [exact E|].
  assert (Y : yields (event_next dbg) s (expected (gs ++ [(l, t :: us)]))) by (rewrite Ee; eapply emits_yields; [exact Em|]; eapply last_yields; eauto).
  intros evs. split; [intros Y'; eapply yields_fun; eauto|intros ->; exact Y].
Qed.
Print Assumptions C68_links_are_followed_by_their_traces.

(** Two or more links after the last one with traces: debug builds panic instead of delivering the last trace. *)
Theorem C68_trailing_links_panic_in_debug_builds :
  forall F gs l (ts : list (trace_data F)) ex, ts <> [] ->
  grouped l_id t_link (gs ++ [(l, ts)]) -> distinct l_id (links_of (gs ++ [(l, ts)])) -> 2 <= length ex ->
  exists s, event_iter (links_of (gs ++ [(l, ts)]) ++ ex) (traces_of (gs ++ [(l, ts)])) = Some s /\
    panics_after (event_next true) s (removelast (expected (gs ++ [(l, ts)]))).
Proof.
  intros F gs l [|t us] ex H G D Hl; [congruence|]. destruct (before_last true gs l t us ex G D) as (s & E & Em & Ee & Ht & Hu). exists s. split; [exact E|].
  rewrite Ee, removelast_app by discriminate. eapply emits_panics; [exact Em|]. eapply last_panics; eauto.
Qed.
Print Assumptions C68_trailing_links_panic_in_debug_builds.

(** A trace whose link is not among the links (before or after its place): all links are delivered, then both builds panic. *)
Theorem C68_traces_of_unknown_links_panic :
  forall F (dbg : bool) gs ex (r : trace_data F) rs,
  grouped l_id t_link gs -> distinct l_id (links_of gs) -> links_of gs ++ ex <> [] -> ~ In (t_link r) (map l_id (links_of gs ++ ex)) ->
  exists s, event_iter (links_of gs ++ ex) (traces_of gs ++ r :: rs) = Some s /\ panics_after (event_next dbg) s (expected gs ++ map inl ex).
Proof.
  intros F dbg gs ex r rs G D Hn Hr. rewrite map_app in Hr. destruct (traces_of gs ++ r :: rs) as [|t ts] eqn:E; [destruct (traces_of gs); discriminate E|].
  exists (st_l (links_of gs ++ ex) t ts). split; [apply new_st; auto|].
  eapply emits_panics; [apply groups_emit with (r := r) (rs := rs); auto|apply links_emit]; intros C; apply Hr, in_or_app; auto.
Qed.
Print Assumptions C68_traces_of_unknown_links_panic.

(** The unrestricted claim: every link is delivered, for all grouped input. *)
Definition every_link_is_delivered := forall (dbg : bool) (gs : list (link_data * list (trace_data unit))) s,
  grouped l_id t_link gs -> distinct l_id (links_of gs) -> event_iter (links_of gs) (traces_of gs) = Some s ->
  yields (event_next dbg) s (expected gs).

Definition gs_c68 : list (link_data * list (trace_data unit)) :=
  [(Link 1 500 50, []); (Link 4 800 80, [Trace 10 4 tt; Trace 20 4 tt]); (Link 2 90 30, []); (Link 7 1000 100, [Trace 30 7 tt])].
Definition tail_c68 : link_data := Link 9 100 50.

Theorem C68_every_link_is_delivered_refuted : ~ every_link_is_delivered.
Proof.
  intros H. set (gs := [(Link 4 800 80, [Trace 10 4 tt]); (tail_c68, [])]).
  assert (G : grouped l_id t_link gs). { intros l ts t [E|[E|[]]] Ht; injection E as <- <-; cbn in Ht; [destruct Ht as [<-|[]]; reflexivity|destruct Ht]. }
  assert (D : distinct l_id (links_of gs)). { unfold distinct. cbn. repeat constructor; cbn; intuition discriminate. }
  specialize (H false gs (EIt [tail_c68] [] true (Some (Link 4 800 80)) (Trace 10 4 tt) false) G D eq_refl).
  inversion H as [|? ? ? ? E1 Y1]; subst. cbn in E1. injection E1 as <-. inversion Y1 as [|? ? ? ? E2 Y2]; subst. cbn in E2. injection E2 as <-.
  inversion Y2 as [|? ? ? ? E3 Y3]; subst. cbn in E3. discriminate E3.
Qed.
Print Assumptions C68_every_link_is_delivered_refuted.

(** Four links, two without traces, one trailing link; an unknown trace; two trailing links. *)
Example C68_nonvacuous : grouped l_id t_link gs_c68 /\ distinct l_id (links_of gs_c68) /\ gs_c68 = firstn 3 gs_c68 ++ [(Link 7 1000 100, [Trace 30 7 tt])] /\
  length (expected gs_c68) = 7 /\ ~ In (t_link (Trace 40 5 tt)) (map l_id (links_of gs_c68 ++ [tail_c68])) /\ 2 <= length [tail_c68; Link 11 1 1].
Proof.
  split; [|split; [|split; [reflexivity|split; [reflexivity|split; [cbn; intuition discriminate|cbn; lia]]]]].
  - intros l ts t H Ht. cbn in H. repeat (destruct H as [H|H]; [injection H as <- <-; cbn in Ht; repeat (destruct Ht as [<-|Ht]; [reflexivity|]); destruct Ht|]). destruct H.
  - unfold distinct. cbn. repeat constructor; cbn; intuition discriminate.
Qed.
