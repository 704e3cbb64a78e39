(** Line graph and parallel edge unification. *)
From Verif Require Import Base BitVec SpecGraph Graph GraphProof GraphRevProof GraphOpsProof.

Section Line.
  Variable g : fograph N.
  Variable tc : nat -> nat -> option N.

  (** the turns out of edge [e]: (next edge, weight of e + turn cost), in edge order *)
  Definition turns (e w a b : nat) (wt : N) : list (nat * N) :=
    flat_map (fun e' => match tc e e' with Some c => [(e', wadd wt c)] | None => [] end) (seq a (b - a)).
  Definition turns_of (e : nat) : list (nat * N) :=
    match link g e with
    | Some (v, w) => match range g v with Some (a, b) => turns e 0 a b w | None => [] end
    | None => []
    end.

  Lemma turn_fold e w es : forall hd wt,
    fold_left (fun acc e' => match tc e e' with Some c => (fst acc ++ [e'], snd acc ++ [wadd w c]) | None => acc end) es (hd, wt) =
    (hd ++ map fst (flat_map (fun e' => match tc e e' with Some c => [(e', wadd w c)] | None => [] end) es),
     wt ++ map snd (flat_map (fun e' => match tc e e' with Some c => [(e', wadd w c)] | None => [] end) es)).
  Proof.
    induction es as [|e' es IH]; intros hd wt; cbn [fold_left flat_map]. { cbn [map]. rewrite !app_nil_r. auto. }
    destruct (tc e e') as [c|]; cbn [fst snd app map].
    - rewrite IH. rewrite <- !app_assoc. auto.
    - apply IH.
  Qed.

  Lemma line_graph_ok : wf g -> (forall e v, nth_error (head g) e = Some v -> v < num_nodes g) ->
    (N.of_nat (num_arcs g) + 1 < U32MAX)%N -> (N.of_nat (length (concat (map turns_of (seq 0 (num_arcs g))))) < U32MAX)%N ->
    exists g', line_graph g tc = Some g' /\ wf g' /\ num_nodes g' = num_arcs g /\
      forall e v w, link g e = Some (v, w) -> exists a b, range g v = Some (a, b) /\
        link_iter g' e = Some (flat_map (fun e' => match tc e e' with Some c => [(e', wadd w c)] | None => [] end) (seq a (b - a))).
  Proof.
    intros Hw Hh Hn Hm. unfold line_graph.
    set (body := fun (st : list nat * list nat * list N) (e : nat) => _).
    destruct (foldM_inv body (fun pre st => st = adj_state (map turns_of pre)) (seq 0 (num_arcs g)) ([0], [], [])) as (st & E & ->).
    - reflexivity.
    - intros pre e post st Es ->. assert (He : e < num_arcs g). { assert (In e (seq 0 (num_arcs g))) by (rewrite Es; apply in_or_app; right; left; auto). apply in_seq in H. lia. }
      unfold num_arcs in He. unfold body, adj_state at 1.
      destruct (nth_error_lt (head g) e He) as [v Hv]. destruct (nth_error_lt (weight g) e) as [w Hwt]. { rewrite (wf_wt g Hw); auto. }
      assert (EL : link g e = Some (v, w)). { unfold link. rewrite Hv; cbn [bind]. rewrite Hwt; auto. }
      rewrite EL; cbn [bind]. destruct (range_ok g v Hw (Hh e v Hv)) as (a & b & Er & _). rewrite Er; cbn [bind].
      rewrite turn_fold. eexists; split; [reflexivity|].
      assert (ET : turns_of e = flat_map (fun e' => match tc e e' with Some c => [(e', wadd w c)] | None => [] end) (seq a (b - a))).
      { unfold turns_of. rewrite EL, Er. reflexivity. }
      rewrite <- ET. unfold adj_state. rewrite map_app. cbn [map]. rewrite d2fo_snoc, concat_app. cbn [concat]. rewrite app_nil_r, !map_app.
      rewrite app_length, !map_length. reflexivity.
    - rewrite E. pose proof (adj_state_new (map turns_of (seq 0 (num_arcs g)))) as EN. destruct (adj_state (map turns_of (seq 0 (num_arcs g)))) as [[fo hd] wt]. cbn [bind].
      cbn [fo_new_st] in EN. rewrite EN.
      destruct (from_adjacency_ok (map turns_of (seq 0 (num_arcs g)))) as (g' & Eg & Wg & Ng & _ & Ig). { rewrite map_length, seq_length. auto. } { auto. }
      exists g'. split; auto. split; auto. split. { rewrite Ng, map_length, seq_length. auto. }
      intros e v w EL. assert (He : e < num_arcs g). { unfold link in EL. destruct (nth_error (head g) e) eqn:F; [|discriminate]. eapply nth_error_Some_lt; eauto. }
      assert (Hv : nth_error (head g) e = Some v). { unfold link in EL. destruct (nth_error (head g) e); cbn [bind] in EL; [|discriminate]. destruct (nth_error (weight g) e); cbn [bind] in EL; congruence. }
      destruct (range_ok g v Hw (Hh e v Hv)) as (a & b & Er & _). exists a, b. split; auto. apply Ig.
      rewrite nth_error_map, (nth_error_nth_some _ _ 0) by (rewrite seq_length; auto). rewrite seq_nth by auto. cbn [option_map Nat.add]. f_equal.
      unfold turns_of. rewrite EL, Er. reflexivity.
  Qed.
End Line.

Section Unify.
  Variable g : fograph N.
  Hypothesis Hw : wf g.
  Hypothesis Hh : forall e v, nth_error (head g) e = Some v -> v < num_nodes g.
  Notation n := (num_nodes g).
  Notation m := (length (head g)).
  Notation hd e := (nth e (head g) 0).

  (** minimum of INF and the weights [wt] of the edges in [es] with head [h] *)
  Fixpoint minw (wt : list N) (es : list nat) (h : nat) : N :=
    match es with [] => INF | e :: es' => N.min (if hd e =? h then nth e wt 0%N else INF) (minw wt es' h) end.
  Lemma minw_app wt es1 es2 h : minw wt (es1 ++ es2) h = N.min (minw wt es1 h) (minw wt es2 h).
  Proof.
    assert (B : forall es, (minw wt es h <= INF)%N) by (induction es; cbn [minw]; lia).
    induction es1 as [|e es1 IH]; cbn [app minw]. { specialize (B es2). lia. } rewrite IH. lia.
  Qed.

  Lemma unify_node_ok a b wt : a <= b <= m -> length wt = m ->
    exists wt', unify_node (head g) a b (repeat INF n, wt) = Some (repeat INF n, wt') /\ length wt' = m /\
      forall e, nth_error wt' e = if (a <=? e) && (e <? b) then Some (minw wt (seq a (b - a)) (hd e)) else nth_error wt e.
  Proof.
    intros Hab Hl. unfold unify_node. set (es := seq a (b - a)).
    assert (Hes : forall e, In e es <-> a <= e < b) by (intros e; unfold es; rewrite in_seq; lia).
    assert (HH : forall e, In e es -> nth_error (head g) e = Some (hd e) /\ hd e < n).
    { intros e He. apply Hes in He. assert (E : nth_error (head g) e = Some (hd e)) by (apply nth_error_nth_some; lia). split; auto. apply (Hh e); auto. }
    set (f1 := fun (c : list N) e => _).
    destruct (foldM_inv f1 (fun pre c => length c = n /\ forall h, h < n -> nth_error c h = Some (minw wt pre h)) es (repeat INF n)) as (c1 & E1 & L1 & N1).
    { rewrite repeat_length. split; auto. intros h Hh'. rewrite nth_error_repeat. destruct (Nat.ltb_spec h n); [auto|lia]. }
    { intros pre e post c Ee [L1 N1]. assert (Hin : In e es) by (rewrite Ee; apply in_or_app; right; left; auto). destruct (HH e Hin) as [E Hlt]. apply Hes in Hin.
      unfold f1. rewrite E; cbn [bind]. rewrite (nth_error_nth_some wt e 0%N) by lia. cbn [bind]. rewrite N1 by auto. cbn [bind]. rewrite set_at_lt by lia.
      eexists; split; [reflexivity|]. rewrite upd_length. split; auto. intros h Hh'. rewrite nth_error_upd, minw_app. cbn [minw].
      assert (Bd : (minw wt pre h <= INF)%N) by (clear; induction pre; cbn [minw]; lia).
      destruct (Nat.eqb_spec (hd e) h) as [<-|Hne].
      - destruct (Nat.ltb_spec (hd e) (length c)); [|lia]. cbn [andb]. f_equal. lia.
      - cbn [andb]. rewrite N1 by auto. f_equal. lia. }
    rewrite E1; cbn [bind].
    set (f2 := fun (w : list N) e => _).
    destruct (foldM_inv f2 (fun pre w => length w = m /\ forall e, nth_error w e = if existsb (Nat.eqb e) pre then Some (minw wt es (hd e)) else nth_error wt e) es wt) as (w1 & E2 & L2 & N2).
    { split; auto. }
    { intros pre e post w Ee [L2 N2]. assert (Hin : In e es) by (rewrite Ee; apply in_or_app; right; left; auto). destruct (HH e Hin) as [E Hlt]. apply Hes in Hin.
      unfold f2. rewrite E; cbn [bind]. rewrite N1 by auto. cbn [bind]. rewrite set_at_lt by lia. eexists; split; [reflexivity|]. rewrite upd_length. split; auto.
      intros e'. rewrite nth_error_upd, existsb_app. cbn [existsb]. rewrite orb_false_r. rewrite (Nat.eqb_sym e' e).
      destruct (Nat.eqb_spec e e') as [<-|Hne].
      - destruct (Nat.ltb_spec e (length w)); [|lia]. rewrite orb_true_r. auto.
      - cbn [andb]. rewrite orb_false_r. auto. }
    rewrite E2; cbn [bind].
    set (f3 := fun (c : list N) e => _).
    destruct (foldM_inv f3 (fun pre c => length c = n /\ forall h, h < n -> nth_error c h = Some (if existsb (fun e => hd e =? h) pre then INF else minw wt es h)) es c1) as (c3 & E3 & L3 & N3).
    { split; auto. }
    { intros pre e post c Ee [L3 N3]. assert (Hin : In e es) by (rewrite Ee; apply in_or_app; right; left; auto). destruct (HH e Hin) as [E Hlt].
      unfold f3. rewrite E; cbn [bind]. rewrite set_at_lt by lia. eexists; split; [reflexivity|]. rewrite upd_length. split; auto.
      intros h Hh'. rewrite nth_error_upd, existsb_app. cbn [existsb]. rewrite orb_false_r. destruct (Nat.eqb_spec (hd e) h) as [<-|Hne].
      - destruct (Nat.ltb_spec (hd e) (length c)); [|lia]. rewrite orb_true_r. auto.
      - cbn [andb]. rewrite orb_false_r. auto. }
    rewrite E3; cbn [bind]. exists w1. split; [|split; auto].
    - f_equal. f_equal. apply list_ext. intros h. rewrite nth_error_repeat. destruct (Nat.ltb_spec h n).
      + rewrite N3 by auto. f_equal. destruct (existsb (fun e => hd e =? h) es) eqn:X; auto.
        clear -X. induction es as [|e es IH]; auto. cbn [existsb minw] in *. apply orb_false_iff in X. destruct X as [-> X]. rewrite IH by auto. lia.
      + apply nth_error_None. lia.
    - intros e. rewrite N2. destruct (Nat.leb_spec a e), (Nat.ltb_spec e b); cbn [andb];
        destruct (existsb (Nat.eqb e) es) eqn:X; auto; exfalso.
      1:{ assert (In e es) by (apply Hes; lia). assert (existsb (Nat.eqb e) es = true) by (apply existsb_exists; exists e; split; auto; apply Nat.eqb_refl). congruence. }
      all: apply existsb_exists in X; destruct X as (x & Hx & Ex); apply Nat.eqb_eq in Ex; subst x; apply Hes in Hx; lia.
  Qed.

  Lemma unify_ok : exists wt', unify_parallel_edges g = Some (mkFo (first_out g) (head g) wt') /\ length wt' = m /\
    forall u a b e, range g u = Some (a, b) -> a <= e < b -> nth_error wt' e = Some (minw (weight g) (seq a (b - a)) (hd e)).
  Proof.
    unfold unify_parallel_edges.
    set (body := fun (st : list N * list N) (u : nat) => _).
    destruct (foldM_inv body (fun pre st => let '(c, wt) := st in c = repeat INF n /\ length wt = m /\
       forall u a b e, u < n -> range g u = Some (a, b) -> a <= e < b ->
         nth_error wt e = if u <? length pre then Some (minw (weight g) (seq a (b - a)) (hd e)) else nth_error (weight g) e)
       (seq 0 n) (repeat INF n, weight g)) as ([c wt] & E & -> & Lw & Nw).
    - split; auto. split; auto. apply wf_wt; auto.
    - intros pre u post [c wt] Es (-> & Lw & Nw).
      assert (Eu : u = length pre /\ u < n).
      { assert (nth_error (seq 0 n) (length pre) = Some u) by (rewrite Es, nth_error_app2, Nat.sub_diag by lia; auto).
        assert (length pre < n). { apply nth_error_Some_lt in H. rewrite seq_length in H. auto. }
        rewrite (nth_error_nth_some _ _ 0) in H by (rewrite seq_length; auto). rewrite seq_nth in H by auto. cbn in H. split; congruence. }
      destruct Eu as [Eu Hu]. destruct (range_ok g u Hw Hu) as (a & b & Er & Fa & Fb & Hab).
      unfold body. rewrite Er; cbn [bind]. destruct (unify_node_ok a b wt Hab Lw) as (wt' & E & L' & N'). rewrite E. eexists; split; [reflexivity|].
      cbn beta iota. split; auto. split; auto. intros u' a' b' e Hu' Er' He. rewrite N', app_length. cbn [length].
      assert (Hdis : (a <=? e) && (e <? b) = (u' =? u)).
      { destruct (range_ok g u' Hw Hu') as (a2 & b2 & Er2 & Fa2 & Fb2 & Hab2). rewrite Er' in Er2. injection Er2 as <- <-.
        destruct (lt_eq_lt_dec u' u) as [[C|C]|C].
        - pose proof (wf_mono_le g (u' + 1) u b' a Hw ltac:(lia) Fb2 Fa). destruct (Nat.leb_spec a e), (Nat.eqb_spec u' u); cbn [andb]; try lia; auto.
        - subst u'. rewrite Fa in Fa2. injection Fa2 as <-. rewrite Fb in Fb2. injection Fb2 as <-.
          destruct (Nat.leb_spec a e), (Nat.ltb_spec e b), (Nat.eqb_spec u u); cbn [andb]; try lia; auto.
        - pose proof (wf_mono_le g (u + 1) u' b a' Hw ltac:(lia) Fb Fa2). destruct (Nat.leb_spec a e), (Nat.ltb_spec e b), (Nat.eqb_spec u' u); cbn [andb]; try lia; auto. }
      rewrite Hdis. destruct (Nat.eqb_spec u' u) as [->|Hne].
      + rewrite Er in Er'. injection Er' as <- <-. destruct (Nat.ltb_spec u (length pre + 1)); [|lia]. f_equal.
        assert (Hm : forall es, (forall e, In e es -> a <= e < b) -> forall h, minw wt es h = minw (weight g) es h).
        { induction es as [|x es IH]; intros Hx h; auto. cbn [minw]. rewrite IH by (intros; apply Hx; right; auto). f_equal.
          destruct (hd x =? h); auto. assert (Hax : a <= x < b) by (apply Hx; left; auto). pose proof (Nw u a b x Hu Er Hax) as NW.
          rewrite <- Eu, Nat.ltb_irrefl in NW. rewrite (nth_error_nth_some wt x 0%N), (nth_error_nth_some (weight g) x 0%N) in NW by (rewrite ?(wf_wt g Hw); lia). congruence. }
        apply Hm. intros x Hx. apply in_seq in Hx. lia.
      + rewrite (Nw u' a' b' e Hu' Er' He). destruct (Nat.ltb_spec u' (length pre)), (Nat.ltb_spec u' (length pre + 1)); auto; lia.
    - rewrite E; cbn [bind]. exists wt. split; auto. split; auto. intros u a b e Er He.
      assert (Hu : u < n). { unfold range in Er. destruct (nth_error (first_out g) u); cbn [bind] in Er; [|discriminate]. destruct (nth_error (first_out g) (u + 1)) eqn:F; [|discriminate]. apply nth_error_Some_lt in F. unfold num_nodes. lia. }
      rewrite (Nw u a b e Hu Er He), seq_length. destruct (Nat.ltb_spec u n); [auto|lia].
  Qed.

  Lemma minw_spec wt es h : (minw wt es h <= INF)%N /\ (forall e, In e es -> hd e = h -> (minw wt es h <= nth e wt 0)%N) /\
    (minw wt es h = INF \/ exists e, In e es /\ hd e = h /\ minw wt es h = nth e wt 0%N).
  Proof.
    induction es as [|e es (I1 & I2 & I3)]; cbn [minw]. { split; [lia|]. split; auto. intros e []. }
    split; [lia|]. split.
    - intros e' [->|He'] Eh. { rewrite Eh, Nat.eqb_refl. lia. } specialize (I2 e' He' Eh). lia.
    - destruct (Nat.eqb_spec (hd e) h).
      + destruct (N.min_spec (nth e wt 0%N) (minw wt es h)) as [[_ ->]|[_ ->]].
        * right. exists e. split; [left; auto|auto].
        * destruct I3 as [I3|(e' & A & B & C)]; auto. right. exists e'. split; [right; auto|auto].
      + rewrite N.min_r by lia. destruct I3 as [I3|(e' & A & B & C)]; auto. right. exists e'. split; [right; auto|auto].
  Qed.
End Unify.
