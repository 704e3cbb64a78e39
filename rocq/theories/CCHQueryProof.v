(** The elimination tree query, for arbitrary upward graphs whose arcs lead to ancestors. *)
From Verif Require Import Base Graph SpecGraph SpecCCH Dijkstra LoopProof CCHTheory CCH CCHContractProof CCHQuery.
From Coq Require Import Sorting.Sorted.

Section Tree.
  Variable n : nat.
  Variable elim : list (option nat).
  Hypothesis EL : length elim = n.
  Hypothesis EP : forall x p, nth_error elim x = Some (Some p) -> x < p < n.

  (** [l] is the path from [x] to its root *)
  Inductive rpath : nat -> list nat -> Prop :=
  | rp_root x : nth_error elim x = Some None -> rpath x [x]
  | rp_up x p l : nth_error elim x = Some (Some p) -> rpath p l -> rpath x (x :: l).

  Lemma rpath_ex x : x < n -> exists l, rpath x l.
  Proof using EL EP.
    intros Hx. assert (G : forall k x, n - x < k -> x < n -> exists l, rpath x l).
    { induction k as [|k IH]; intros y Hk Hy; [lia|]. destruct (nth_error_lt elim y) as ([p|] & E); [lia| |exists [y]; constructor; auto].
      pose proof (EP _ _ E). destruct (IH p) as (l & Hl); [lia|lia|]. exists (y :: l). econstructor; eauto. }
    apply (G (S (n - x))); auto.
  Qed.
  Lemma rpath_lt x l : rpath x l -> forall y, In y l -> x <= y < n.
  Proof using EL EP.
    induction 1 as [x E|x p l E H IH]; intros y [->|Hy]; try (destruct Hy; fail).
    - apply nth_error_Some_lt in E. lia.
    - apply nth_error_Some_lt in E. lia.
    - specialize (IH y Hy). pose proof (EP _ _ E). lia.
  Qed.
  Lemma rpath_asc x l : rpath x l -> ascending_list l.
  Proof using EL EP.
    induction 1 as [x E|x p l E H IH]. { constructor; constructor. } apply ss_cons; auto. intros y Hy. apply (rpath_lt _ _ H) in Hy. pose proof (EP _ _ E). lia.
  Qed.
  Lemma rpath_hd x l : rpath x l -> exists l', l = x :: l'.
  Proof using. clear EL EP. destruct 1; eauto. Qed.
  Lemma rpath_fun x l : rpath x l -> forall l', rpath x l' -> l = l'.
  Proof using. clear EL EP. induction 1 as [x E|x p l E H IH]; intros l' H'; inversion H'; subst; try congruence. rewrite E in H0. injection H0 as <-. f_equal. auto. Qed.
  (** splitting the path at a node *)
  Lemma rpath_mid x P y R : rpath x (P ++ y :: R) -> rpath y (y :: R) /\ nth_error elim y = Some (hd_error R).
  Proof using.
    clear EL EP. revert x. induction P as [|a P IH]; intros x H; cbn [app] in H.
    - assert (x = y). { inversion H; auto. } subst y. split; auto. inversion H; subst; auto. destruct (rpath_hd _ _ H3) as (l' & ->). auto.
    - inversion H; subst. { destruct P; discriminate. } eapply IH; eauto.
  Qed.
  (** an upward graph: arcs lead to proper ancestors, weights at most INF *)
  Definition up_graph (links : idlinks) : Prop :=
    forall x, x < n -> exists ls, links x = Some ls /\ forall y w e, In (y, w, e) ls -> x < y /\ (w <= INF)%N /\ forall l, rpath x l -> In y l.
  Definition larc (links : idlinks) (x e y : nat) (w : N) : Prop := garc_ids links x e y w.
  Definition uarc (links : idlinks) (x y : nat) (w : N) : Prop := exists e, larc links x e y w.

  Section Side.
    Variable links : idlinks.
    Hypothesis HG : up_graph links.
    Variable s : nat.
    Hypothesis Hs : s < n.

    Lemma links_dom x e y w : larc links x e y w -> x < n -> x < y /\ (w <= INF)%N /\ forall l, rpath x l -> In y l.
    Proof using HG. intros (ls & E & H) Hx. destruct (HG x Hx) as (ls' & E' & H'). rewrite E in E'. injection E' as <-. eapply H'; eauto. Qed.

    Record side (P R S : list nat) (tent : N) (meet : nat) (d : list N) (gd : nat -> N) (par : list (nat * nat)) : Prop := {
      sd_path : rpath s (P ++ R);
      sd_dl : length d = n; sd_pl : length par = n;
      sd_fin : forall x, In x P -> nth_error d x = Some INF;
      sd_un : forall x, x < n -> ~ In x P -> nth_error d x = Some (gd x);
      sd_out : forall x, ~ In x (P ++ R) -> gd x = INF;
      sd_le : forall x, (gd x <= INF)%N;
      sd_s : gd s = 0%N;
      sd_S : forall x, In x S -> In x P;
      sd_par : forall x, x <> s -> (gd x < INF)%N -> exists p e w, nth_error par x = Some (p, e) /\ larc links p e x w /\ In p S /\ gd x = (gd p + w)%N /\
        forall p' w' e', In p' S -> p' < p -> larc links p' e' x w' -> (gd x < gd p' + w')%N;
      sd_rel : forall p w e x, In p S -> larc links p e x w -> (gd x <= gd p + w)%N;
      sd_pruned : forall p, In p P -> ~ In p S -> (tent <= gd p)%N /\ (tent = gd p -> (tent < INF)%N -> meet < p) }.

    Lemma side_lt P R S tent meet d gd par : side P R S tent meet d gd par -> forall x, In x (P ++ R) -> s <= x < n.
    Proof using EL EP. intros H. apply (rpath_lt _ _ (sd_path _ _ _ _ _ _ _ _ H)). Qed.
    Lemma side_asc P R S tent meet d gd par : side P R S tent meet d gd par -> ascending_list (P ++ R).
    Proof using EL EP. intros H. apply (rpath_asc _ _ (sd_path _ _ _ _ _ _ _ _ H)). Qed.
    Lemma asc_split (P : list nat) p R x : ascending_list (P ++ p :: R) -> (In x P -> x < p) /\ (In x R -> p < x).
    Proof using.
      clear. induction P as [|a P IH]; cbn [app]; intros H.
      - apply ss_inv in H. split; [intros []|]. apply H.
      - apply ss_inv in H. destruct H as [H1 H2]. destruct (IH H1) as [I1 I2]. split; auto. intros [->|Hx]; auto. apply H2. apply in_elt.
    Qed.
    (** the node of an arc out of an ancestor is an ancestor *)
    Lemma side_arc P R S tent meet d gd par x e y w : side P R S tent meet d gd par -> In x (P ++ R) -> larc links x e y w -> In y (P ++ R).
    Proof using EL EP HG Hs.
      intros H Hx Ha. pose proof (side_lt _ _ _ _ _ _ _ _ H x Hx) as Hlt. destruct (links_dom _ _ _ _ Ha) as (_ & _ & K); [lia|].
      apply in_split in Hx. destruct Hx as (A & B & E). pose proof (sd_path _ _ _ _ _ _ _ _ H) as Hp. rewrite E in Hp. destruct (rpath_mid _ _ _ _ Hp) as [Hx _].
      rewrite E. apply in_or_app. right. apply (K _ Hx).
    Qed.
    Lemma side_walk P R S tent meet d gd par x l : side P R S tent meet d gd par -> walk (uarc links) s x l -> In x (P ++ R).
    Proof using EL EP HG Hs.
      intros H Hw. assert (G : forall u v l, walk (uarc links) u v l -> In u (P ++ R) -> In v (P ++ R)).
      { induction 1 as [|u v t w l' (e & Ha) Hw' IH]; auto. intros Hu. apply IH. eapply side_arc; eauto. }
      eapply G; eauto. destruct (rpath_hd _ _ (sd_path _ _ _ _ _ _ _ _ H)) as (l' & ->). left; auto.
    Qed.
    Lemma uwalk_lt u v l : walk (uarc links) u v l -> u < n -> u <= v /\ (u = v -> l = 0%N).
    Proof using EL EP HG Hs.
      induction 1 as [u|u v t w l (e & Ha) Hw IH]; intros Hu. { auto. } destruct (links_dom _ _ _ _ Ha Hu) as (L & _ & K).
      assert (Hv : v < n). { destruct (rpath_ex u Hu) as (r & Hr). pose proof (rpath_lt _ _ Hr v (K _ Hr)). lia. } specialize (IH Hv). split; lia.
    Qed.

    (** The label of a node whose lower ancestors are processed is right, unless pruning took place. *)
    Lemma side_complete P R S tent meet d gd par : side P R S tent meet d gd par -> forall x a, walk (uarc links) s x a -> In x P \/ hd_error R = Some x ->
      (gd x <= a)%N \/ ((tent <= a)%N /\ (tent = a -> (tent < INF)%N -> meet < x)).
    Proof using EL EP HG Hs.
      intros H. assert (G : forall k x a, x < k -> walk (uarc links) s x a -> In x P \/ hd_error R = Some x -> (gd x <= a)%N \/ ((tent <= a)%N /\ (tent = a -> (tent < INF)%N -> meet < x))).
      { induction k as [|k IH]; intros x a Hk Hw Hx; [lia|].
        destruct (walk_last _ _ _ _ Hw) as [[<- ->]|(q & l1 & w & Hq & (e & Ha) & ->)].
        - left. rewrite (sd_s _ _ _ _ _ _ _ _ H). lia.
        - pose proof (side_walk _ _ _ _ _ _ _ _ _ _ H Hq) as Hin. pose proof (side_lt _ _ _ _ _ _ _ _ H q Hin) as Hqn.
          destruct (links_dom _ _ _ _ Ha) as (Lqx & _ & _); [lia|].
          assert (HqP : In q P).
          { pose proof (side_asc _ _ _ _ _ _ _ _ H) as Asc. apply in_app_or in Hin. destruct Hin as [?|Hin]; auto. exfalso. destruct Hx as [Hx|Hx].
            - apply in_split in Hin. destruct Hin as (R1 & R2 & ->). rewrite app_assoc in Asc. pose proof (proj1 (asc_split (P ++ R1) q R2 x Asc) ltac:(apply in_or_app; auto)). lia.
            - destruct R as [|r R']; [discriminate|]. injection Hx as ->. destruct Hin as [->|Hin]; [lia|]. pose proof (proj2 (asc_split P x R' q Asc) Hin). lia. }
          destruct (IH q l1) as [K|[K1 K2]]; auto; [lia| |].
          + destruct (in_dec Nat.eq_dec q S) as [HS|HS].
            * left. pose proof (sd_rel _ _ _ _ _ _ _ _ H q w e x HS Ha). lia.
            * right. destruct (sd_pruned _ _ _ _ _ _ _ _ H q HqP HS) as [K1 K2]. split; [lia|]. intros E1 E2. assert (meet < q) by (apply K2; auto; lia). lia.
          + right. split; [lia|]. intros E1 E2. assert (meet < q) by (apply K2; auto; lia). lia. }
      intros x a Hw Hx. apply (G (Datatypes.S x)); auto.
    Qed.

    (** changes of the tentative distance *)
    Lemma side_tent P R S tent meet d gd par tent' meet' : side P R S tent meet d gd par -> (tent' < tent)%N -> side P R S tent' meet' d gd par.
    Proof using EL EP Hs. intros [] L. constructor; auto. intros p Hp HS. destruct (sd_pruned0 p Hp HS) as [K1 K2]. split; lia. Qed.

    Lemma side_real P R S tent meet d gd par : side P R S tent meet d gd par -> forall x, (gd x < INF)%N -> walk (uarc links) s x (gd x).
    Proof using EL EP HG Hs.
      intros H. assert (G : forall k x, x < k -> (gd x < INF)%N -> walk (uarc links) s x (gd x)).
      { induction k as [|k IH]; intros x Hk Hx; [lia|]. destruct (Nat.eq_dec x s) as [->|Ne].
        - rewrite (sd_s _ _ _ _ _ _ _ _ H). constructor.
        - destruct (sd_par _ _ _ _ _ _ _ _ H x Ne Hx) as (p & e & w & _ & Ha & HS & E & _).
          assert (Hp : p < n). { apply (side_lt _ _ _ _ _ _ _ _ H). apply in_or_app. left. apply (sd_S _ _ _ _ _ _ _ _ H); auto. }
          destruct (links_dom _ _ _ _ Ha Hp) as (L & _). rewrite E. replace (gd p + w)%N with (gd p + (w + 0))%N by lia.
          eapply walk_app. { apply IH; lia. } econstructor; [exists e; exact Ha|constructor]. }
      intros x. apply (G (Datatypes.S x)); lia.
    Qed.
  End Side.

  (** relaxing a list of arcs *)
  Lemma relax_all p dist ls : (dist <= INF)%N -> forall d par, length d = n -> length par = n ->
    (forall y w e, In (y, w, e) ls -> y < n /\ (w <= INF)%N) ->
    exists d' par', foldM (etw_relax p dist) ls (d, par) = Some (d', par') /\ length d' = n /\ length par' = n /\
    forall x v, nth_error d x = Some v -> exists v', nth_error d' x = Some v' /\ (v' <= v)%N /\ (forall w e, In (x, w, e) ls -> (v' <= dist + w)%N) /\
      ((v' = v /\ nth_error par' x = nth_error par x) \/
       ((v' < v)%N /\ exists w e, In (x, w, e) ls /\ v' = (dist + w)%N /\ nth_error par' x = Some (p, e))).
  Proof using.
    clear. intros Hd. induction ls as [|[[h w] e] ls IH]; intros d par Ld Lp Hls.
    - exists d, par. repeat split; auto. intros x v Hv. exists v. repeat split; auto; [lia|intros ? ? []].
    - destruct (Hls h w e) as [Hh Hw]; [left; auto|]. cbn [foldM]. unfold etw_relax at 1. unfold cadd. rewrite (proj2 (N.ltb_lt (dist + w) U32)) by (unfold INF in *; unfold U32; cbn in *; lia).
      cbn [bind fst snd]. destruct (nth_error_lt d h) as (dh & Edh); [lia|]. rewrite Edh. cbn [bind].
      destruct (N.ltb_spec (dist + w) dh) as [L|L].
      + rewrite !set_at_lt by lia. cbn [bind]. destruct (IH (upd d h (dist + w)%N) (upd par h (p, e))) as (d' & par' & E & L1 & L2 & K); [rewrite upd_length; auto|rewrite upd_length; auto|intros; eapply Hls; right; eauto|].
        exists d', par'. split; [exact E|]. split; [auto|]. split; [auto|]. intros x v Hv. destruct (Nat.eq_dec x h) as [->|Ne].
        * rewrite Edh in Hv. injection Hv as <-. destruct (K h (dist + w)%N) as (v' & E1 & E2 & E3 & E4). { apply nth_error_upd_eq; lia. }
          exists v'. split; [auto|]. split; [lia|]. split. { intros w' e' [Eq|Hin]; [injection Eq as -> ->; lia|eauto]. }
          right. split; [lia|]. destruct E4 as [[-> Ep]|[Lt (w' & e' & Hin & Ev & Ep)]].
          -- exists w, e. split; [left; auto|]. split; auto. rewrite Ep. apply nth_error_upd_eq; lia.
          -- exists w', e'. split; [right; auto|]. auto.
        * destruct (K x v) as (v' & E1 & E2 & E3 & E4). { rewrite nth_error_upd_neq; auto. }
          exists v'. split; [auto|]. split; [auto|]. split. { intros w' e' [Eq|Hin]; [congruence|eauto]. }
          destruct E4 as [[-> Ep]|[Lt (w' & e' & Hin & Ev & Ep)]].
          -- left. split; auto. rewrite Ep, nth_error_upd_neq; auto.
          -- right. split; [auto|]. exists w', e'. split; [right; auto|auto].
      + destruct (IH d par) as (d' & par' & E & L1 & L2 & K); auto. { intros; eapply Hls; right; eauto. }
        exists d', par'. cbn [bind]. split; [exact E|]. split; [auto|]. split; [auto|]. intros x v Hv. destruct (K x v Hv) as (v' & E1 & E2 & E3 & E4).
        exists v'. split; [auto|]. split; [auto|]. split. { intros w' e' [Eq|Hin]; [|eauto]. injection Eq as -> -> ->. rewrite Edh in Hv. injection Hv as ->. lia. }
        destruct E4 as [?|[Lt (w' & e' & Hin & Ev & Ep)]]; [left; auto|]. right. split; [auto|]. exists w', e'. split; [right; auto|auto].
  Qed.

  Section Side2.
    Variable links : idlinks.
    Hypothesis HG : up_graph links.
    Variable s : nat.
    Hypothesis Hs : s < n.
    Notation side := (side links s).

    Lemma side_hd P R S tent meet d gd par p : side P (p :: R) S tent meet d gd par ->
      p < n /\ ~ In p P /\ ~ In p R /\ nth_error d p = Some (gd p) /\ nth_error elim p = Some (hd_error R) /\
      (forall x, In x P -> x < p) /\ (forall x, In x R -> p < x).
    Proof using EL EP HG Hs.
      intros H. pose proof (side_lt _ _ _ _ _ _ _ _ _ _ H p ltac:(apply in_elt)) as Hp. pose proof (side_asc _ _ _ _ _ _ _ _ _ _ H) as Asc.
      assert (A1 : forall x, In x P -> x < p) by (intros x; apply (asc_split P p R x Asc)).
      assert (A2 : forall x, In x R -> p < x) by (intros x; apply (asc_split P p R x Asc)).
      assert (N1 : ~ In p P). { intros H0. apply A1 in H0. lia. }
      split; [lia|]. split; [auto|]. split. { intros H0. apply A2 in H0. lia. }
      split. { apply (sd_un _ _ _ _ _ _ _ _ _ _ H); auto; lia. }
      split; auto. apply (rpath_mid _ _ _ _ (sd_path _ _ _ _ _ _ _ _ _ _ H)).
    Qed.

    Lemma skip_ok P R S tent meet d gd par p : side P (p :: R) S tent meet d gd par ->
      (tent <= gd p)%N -> (tent = gd p -> (tent < INF)%N -> meet < p) ->
      etw_skip elim (mkEtw d par (Some p)) = Some (mkEtw d par (hd_error R)) /\ side (P ++ [p]) R S tent meet (upd d p INF) gd par.
    Proof using EL EP HG Hs.
      intros H T1 T2. destruct (side_hd _ _ _ _ _ _ _ _ _ H) as (Hp & N1 & N2 & Ed & Ee & A1 & A2). unfold etw_skip. cbn [w_next w_dist w_par]. rewrite Ee. split; [reflexivity|].
      destruct H. constructor; auto.
      - rewrite <- app_assoc. auto.
      - rewrite upd_length; auto.
      - intros x Hx. destruct (Nat.eq_dec p x) as [->|Ne]; [apply nth_error_upd_eq; lia|]. rewrite nth_error_upd_neq by auto.
        apply sd_fin0. apply in_app_or in Hx. destruct Hx as [?|[?|[]]]; auto; congruence.
      - intros x Hx Hn. rewrite nth_error_upd_neq. { apply sd_un0; auto. intros H0; apply Hn, in_or_app; auto. } intros ->. apply Hn, in_or_app. right; left; auto.
      - intros x. rewrite <- app_assoc. apply sd_out0.
      - intros x Hx. apply in_or_app. left. auto.
      - intros q Hq HS. apply in_app_or in Hq. destruct Hq as [Hq|[<-|[]]]; auto.
    Qed.

    Lemma settle_ok P R S tent meet d gd par p : side P (p :: R) S tent meet d gd par ->
      exists d' par', etw_next links elim (mkEtw d par (Some p)) = Some (mkEtw d' par' (hd_error R)) /\ length d' = n /\ nth_error d' p = Some (gd p) /\
      exists gd', (forall x, In x (P ++ [p]) -> gd' x = gd x) /\ side (P ++ [p]) R (p :: S) tent meet (upd d' p INF) gd' par'.
    Proof using EL EP HG Hs.
      intros H. destruct (side_hd _ _ _ _ _ _ _ _ _ H) as (Hp & N1 & N2 & Ed & Ee & A1 & A2).
      destruct (HG p Hp) as (ls & El & Hls). unfold etw_next. cbn [w_next w_dist w_par]. rewrite Ed, Ee, El. cbn [bind].
      assert (Arc : forall y w e, In (y, w, e) ls <-> larc links p e y w).
      { intros y w e. split; [intros Hin; exists ls; auto|]. intros (ls' & E' & Hin). rewrite El in E'. injection E' as <-. auto. }
      assert (Hin : forall y w e, In (y, w, e) ls -> In y R).
      { intros y w e Hi. pose proof (side_arc links HG s Hs _ _ _ _ _ _ _ _ p e y w H (in_elt _ _ _) (proj1 (Arc y w e) Hi)) as K. destruct (Hls _ _ _ Hi) as (L & _).
        apply in_app_or in K. destruct K as [K|[->|K]]; auto; [apply A1 in K; lia|lia]. }
      destruct (relax_all p (gd p) ls (sd_le _ _ _ _ _ _ _ _ _ _ H p) d par (sd_dl _ _ _ _ _ _ _ _ _ _ H) (sd_pl _ _ _ _ _ _ _ _ _ _ H)) as (d' & par' & E & L1 & L2 & K).
      { intros y w e Hi. split; [|apply (Hls _ _ _ Hi)]. apply (side_lt _ _ _ _ _ _ _ _ _ _ H). apply in_or_app. right. right. eauto. }
      rewrite E. cbn [bind]. exists d', par'. split; [reflexivity|]. split; [auto|].
      assert (Kp : nth_error d' p = Some (gd p)).
      { destruct (K p _ Ed) as (v' & E1 & _ & _ & E4). destruct E4 as [[-> _]|(_ & w & e & Hi & _)]; auto. apply Hin in Hi. contradiction. }
      split; [exact Kp|].
      set (gd' := fun x => if in_dec Nat.eq_dec x P then gd x else match nth_error d' x with Some v => v | None => INF end).
      assert (GP : forall x, In x (P ++ [p]) -> gd' x = gd x).
      { intros x Hx. unfold gd'. destruct (in_dec Nat.eq_dec x P) as [|Nx]; auto. apply in_app_or in Hx. destruct Hx as [?|[<-|[]]]; [contradiction|]. rewrite Kp. auto. }
      assert (GU : forall x, x < n -> ~ In x P -> nth_error d' x = Some (gd' x)).
      { intros x Hx Nx. unfold gd'. destruct (in_dec Nat.eq_dec x P); [contradiction|]. destruct (nth_error_lt d' x) as (v & ->); [lia|auto]. }
      assert (GC : forall x, (gd' x <= gd x)%N /\ (forall w e, In (x, w, e) ls -> (gd' x <= gd p + w)%N) /\
        ((gd' x = gd x /\ nth_error par' x = nth_error par x) \/ ((gd' x < gd x)%N /\ exists w e, In (x, w, e) ls /\ gd' x = (gd p + w)%N /\ nth_error par' x = Some (p, e)))).
      { intros x. destruct (Nat.lt_ge_cases x n) as [Hx|Hx].
        - destruct (in_dec Nat.eq_dec x P) as [HP|HP].
          + rewrite (GP x) by (apply in_or_app; auto). split; [lia|]. split. { intros w e Hi. apply Hin in Hi. apply A2 in Hi. apply A1 in HP. lia. }
            left. split; auto. destruct (K x INF) as (v' & _ & _ & _ & E4). { apply (sd_fin _ _ _ _ _ _ _ _ _ _ H); auto. }
            destruct E4 as [[_ ?]|(_ & w & e & Hi & _)]; auto. apply Hin in Hi. apply A2 in Hi. apply A1 in HP. lia.
          + destruct (K x (gd x)) as (v' & E1 & E2 & E3 & E4). { apply (sd_un _ _ _ _ _ _ _ _ _ _ H); auto. } rewrite (GU x Hx HP) in E1. injection E1 as <-. auto.
        - assert (gd x = INF). { apply (sd_out _ _ _ _ _ _ _ _ _ _ H). intros Hi. apply (side_lt _ _ _ _ _ _ _ _ _ _ H) in Hi. lia. }
          assert (gd' x = INF). { unfold gd'. destruct (in_dec Nat.eq_dec x P); auto. rewrite (proj2 (nth_error_None d' x)); auto; lia. }
          split; [lia|]. split. { intros w e Hi. apply Hin in Hi. pose proof (side_lt _ _ _ _ _ _ _ _ _ _ H x ltac:(apply in_or_app; right; right; auto)). lia. }
          left. split; [congruence|]. rewrite !(proj2 (nth_error_None _ _)); auto; [rewrite (sd_pl _ _ _ _ _ _ _ _ _ _ H)|]; lia. }
      exists gd'. split; [exact GP|]. destruct H. constructor; auto.
      - rewrite <- app_assoc. auto.
      - rewrite upd_length; auto.
      - intros x Hx. destruct (Nat.eq_dec p x) as [->|Ne]; [apply nth_error_upd_eq; lia|]. rewrite nth_error_upd_neq by auto.
        apply in_app_or in Hx. destruct Hx as [Hx|[?|[]]]; [|congruence]. destruct (K x INF) as (v' & E1 & E2 & _ & E4); auto. rewrite E1. f_equal.
        destruct E4 as [[? _]|(_ & w & e & Hi & _)]; auto. apply Hin in Hi. apply A2 in Hi. apply A1 in Hx. lia.
      - intros x Hx Hn. rewrite nth_error_upd_neq. { apply GU; auto. intros H0; apply Hn, in_or_app; auto. } intros ->. apply Hn, in_or_app. right; left; auto.
      - intros x. rewrite <- app_assoc. intros Nx. destruct (GC x) as (_ & _ & [[-> _]|(_ & w & e & Hi & _)]); auto. exfalso. apply Nx. apply in_or_app. right. right. eauto.
      - intros x. destruct (GC x) as (? & _). specialize (sd_le0 x). lia.
      - destruct (GC s) as (? & _). rewrite sd_s0 in H. lia.
      - intros x [<-|Hx]; apply in_or_app; [right; left; auto|left; auto].
      - intros x Ns Hx. destruct (GC x) as (G1 & _ & [[G2 G3]|(G2 & w & e & Hi & G3 & G4)]).
        + rewrite G2 in Hx. destruct (sd_par0 x Ns Hx) as (q & e & w & Eq & Ha & HS & Eg & Kq). exists q, e, w.
          split; [congruence|]. split; [auto|]. split; [right; auto|]. split. { rewrite G2, (GP q); auto. apply in_or_app; auto. }
          intros p' w' e' [<-|HS'] L Ha'. { apply sd_S0 in HS. apply A1 in HS. lia. } rewrite G2, (GP p') by (apply in_or_app; auto). eapply Kq; eauto.
        + exists p, e, w. split; [auto|]. split; [apply Arc; auto|]. split; [left; auto|]. split. { rewrite (GP p); auto. apply in_or_app; right; left; auto. }
          intros p' w' e' [<-|HS'] L Ha'; [lia|]. rewrite (GP p') by (apply in_or_app; auto). pose proof (sd_rel0 p' w' e' x HS' Ha'). lia.
      - intros q w e x [<-|HS] Ha.
        + rewrite (GP p) by (apply in_or_app; right; left; auto). apply (GC x) with (e := e). apply Arc; auto.
        + rewrite (GP q) by (apply in_or_app; auto). pose proof (sd_rel0 q w e x HS Ha). destruct (GC x). lia.
      - intros q Hq HS. apply in_app_or in Hq. destruct Hq as [Hq|[<-|[]]].
        + rewrite (GP q) by (apply in_or_app; auto). apply sd_pruned0; auto. intros H0; apply HS; right; auto.
        + exfalso. apply HS. left; auto.
    Qed.

    Lemma side_init d par : length d = n -> (forall x, x < n -> nth_error d x = Some INF) -> length par = n -> forall R, rpath s R ->
      exists f, etw_query elim d par s = Some f /\ w_next f = hd_error R /\ side [] R [] INF 0 (w_dist f) (fun x => if x =? s then 0%N else INF) (w_par f).
    Proof using EL EP HG Hs.
      intros Ld Hd Lp R HR. unfold etw_query.
      assert (G : forall k x l, rpath x l -> length l <= k -> root_path_inf k elim d (Some x) = Some tt).
      { induction k as [|k IH]; intros x l Hl Lk; [destruct (rpath_hd _ _ Hl) as (? & ->); cbn in Lk; lia|]. cbn [root_path_inf].
        pose proof (rpath_lt _ _ Hl x) as Hx. destruct (rpath_hd _ _ Hl) as (l' & El). rewrite Hd by (destruct (Hx ltac:(rewrite El; left; auto)); auto). cbn [bind]. rewrite N.eqb_refl. cbn [guard bind].
        inversion Hl; subst.
        - rewrite H. cbn [bind]. destruct k; reflexivity.
        - rewrite H. cbn [bind]. eapply IH; [eassumption|]. injection H2 as ->. cbn [length] in Lk. lia. }
      rewrite (G _ _ _ HR).
      2:{ rewrite EL. apply Nat.le_trans with (length (seq 0 n)); [|rewrite seq_length; lia]. apply NoDup_incl_length.
          - apply rpath_asc in HR. clear -HR. induction R as [|a R IH]; constructor. { intros Hi. apply ss_inv in HR. pose proof (proj2 HR a Hi). lia. } apply IH. apply ss_inv in HR. apply HR.
          - intros x Hx. apply in_seq. pose proof (rpath_lt _ _ HR x Hx). lia. }
      cbn [bind]. rewrite !set_at_lt by lia. cbn [bind]. eexists. split; [reflexivity|]. cbn [w_next w_dist w_par].
      destruct (rpath_hd _ _ HR) as (R' & ER). split. { rewrite ER. auto. } constructor; cbn [app]; auto.
      - rewrite upd_length; auto.
      - rewrite upd_length; auto.
      - intros x [].
      - intros x Hx _. destruct (Nat.eq_dec s x) as [<-|Ne].
        + rewrite Nat.eqb_refl. apply nth_error_upd_eq; lia.
        + rewrite nth_error_upd_neq by auto. rewrite (proj2 (Nat.eqb_neq x s)) by lia. apply Hd; auto.
      - intros x Hx. destruct (Nat.eqb_spec x s) as [->|]; auto. exfalso. apply Hx. rewrite ER. left; auto.
      - intros x. destruct (x =? s); unfold INF; lia.
      - rewrite Nat.eqb_refl; auto.
      - intros x Ne. rewrite (proj2 (Nat.eqb_neq x s)) by lia. lia.
      - intros p w e x [].
      - intros p [].
    Qed.
  End Side2.

  (** The query: both sides together. *)
  Section Query.
    Variables lf lb : idlinks.
    Hypothesis HF : up_graph lf.
    Hypothesis HB : up_graph lb.
    Variables s t : nat.
    Hypothesis Hs : s < n.
    Hypothesis Ht : t < n.

    Record joint (Pf Rf Sf Pb Rb Sb : list nat) (gf gb : nat -> N) (f b : etw) (tent : N) (meet : nat) : Prop := {
      jt_f : side lf s Pf Rf Sf tent meet (w_dist f) gf (w_par f);
      jt_b : side lb t Pb Rb Sb tent meet (w_dist b) gb (w_par b);
      jt_nf : w_next f = hd_error Rf;
      jt_nb : w_next b = hd_error Rb;
      jt_inf : (tent <= INF)%N;
      jt_meet : (tent < INF)%N -> In meet Pf /\ In meet Pb /\ (gf meet + gb meet)%N = tent;
      jt_best : forall m a c, In m Pf -> In m Pb -> walk (uarc lf) s m a -> walk (uarc lb) t m c ->
        (tent <= a + c)%N /\ (tent = (a + c)%N -> (tent < INF)%N -> meet <= m);
      jt_xf : forall m, In m Pf -> ~ In m Rb;
      jt_xb : forall m, In m Pb -> ~ In m Rf }.

    Lemma joint_f Pf x Rf Sf Pb Rb Sb gf gb f b tent meet : joint Pf (x :: Rf) Sf Pb Rb Sb gf gb f b tent meet ->
      (forall y, In y Rb -> x < y) ->
      exists f' f'' gf', etw_next lf elim f = Some f' /\ etw_reset f' x = Some f'' /\ joint (Pf ++ [x]) Rf (x :: Sf) Pb Rb Sb gf' gb f'' b tent meet.
    Proof using EL EP HF HB Hs Ht.
      intros [] HR. destruct f as [d par nx]. cbn [w_dist w_par w_next] in *. subst nx. cbn [hd_error].
      destruct (settle_ok lf HF s Hs _ _ _ _ _ _ _ _ _ jt_f0) as (d' & par' & E & Ld & Ed & gf' & GP & HS). rewrite E. exists (mkEtw d' par' (hd_error Rf)). unfold etw_reset. cbn [w_dist w_par w_next].
      assert (x < n). { apply (side_lt _ _ _ _ _ _ _ _ _ _ jt_f0). apply in_elt. }
      rewrite set_at_lt by lia. cbn [bind]. eexists. exists gf'. split; [reflexivity|]. split; [reflexivity|]. constructor; cbn [w_dist w_par w_next]; auto.
      - intros L. destruct (jt_meet0 L) as (M1 & M2 & M3). split; [apply in_or_app; auto|]. split; [auto|]. rewrite GP; auto. apply in_or_app; auto.
      - intros m a c Hm Hm'. apply in_app_or in Hm. destruct Hm as [Hm|[<-|[]]]; auto. exfalso. apply (jt_xb0 _ Hm'). left; auto.
      - intros m Hm Hm'. apply in_app_or in Hm. destruct Hm as [Hm|[<-|[]]]; [apply (jt_xf0 m); auto|]. apply HR in Hm'. lia.
      - intros m Hm Hm'. apply (jt_xb0 m Hm). right; auto.
    Qed.
    Lemma joint_b Pf Rf Sf Pb x Rb Sb gf gb f b tent meet : joint Pf Rf Sf Pb (x :: Rb) Sb gf gb f b tent meet ->
      (forall y, In y Rf -> x < y) ->
      exists b' b'' gb', etw_next lb elim b = Some b' /\ etw_reset b' x = Some b'' /\ joint Pf Rf Sf (Pb ++ [x]) Rb (x :: Sb) gf gb' f b'' tent meet.
    Proof using EL EP HF HB Hs Ht.
      intros [] HR. destruct b as [d par nx]. cbn [w_dist w_par w_next] in *. subst nx. cbn [hd_error].
      destruct (settle_ok lb HB t Ht _ _ _ _ _ _ _ _ _ jt_b0) as (d' & par' & E & Ld & Ed & gb' & GP & HS). rewrite E. exists (mkEtw d' par' (hd_error Rb)). unfold etw_reset. cbn [w_dist w_par w_next].
      assert (x < n). { apply (side_lt _ _ _ _ _ _ _ _ _ _ jt_b0). apply in_elt. }
      rewrite set_at_lt by lia. cbn [bind]. eexists. exists gb'. split; [reflexivity|]. split; [reflexivity|]. constructor; cbn [w_dist w_par w_next]; auto.
      - intros L. destruct (jt_meet0 L) as (M1 & M2 & M3). split; [auto|]. split; [apply in_or_app; auto|]. rewrite GP; auto. apply in_or_app; auto.
      - intros m a c Hm' Hm. apply in_app_or in Hm. destruct Hm as [Hm|[<-|[]]]; auto. exfalso. apply (jt_xf0 _ Hm'). left; auto.
      - intros m Hm Hm'. apply (jt_xf0 m Hm). right; auto.
      - intros m Hm Hm'. apply in_app_or in Hm. destruct Hm as [Hm|[<-|[]]]; [apply (jt_xb0 m); auto|]. apply HR in Hm'. lia.
    Qed.

    (** one side of the step at a common node *)
    Lemma half_ok links r (HL : up_graph links) (Hr : r < n) P R S tent meet d gd par x : side links r P (x :: R) S tent meet d gd par ->
      ((tent < INF)%N -> meet < x) ->
      exists d' par', (dx <- nth_error d x ;; (if (dx <? tent)%N then etw_next links elim (mkEtw d par (Some x)) else etw_skip elim (mkEtw d par (Some x)))) = Some (mkEtw d' par' (hd_error R)) /\
      length d' = n /\ nth_error d' x = Some (gd x) /\
      exists S' gd', (forall y, In y (P ++ [x]) -> gd' y = gd y) /\ side links r (P ++ [x]) R S' tent meet (upd d' x INF) gd' par'.
    Proof using EL EP.
      intros H Hm. destruct (side_hd links HL r Hr _ _ _ _ _ _ _ _ _ H) as (Hx & _ & _ & Ed & _). rewrite Ed. cbn [bind].
      destruct (N.ltb_spec (gd x) tent) as [L|L].
      - destruct (settle_ok links HL r Hr _ _ _ _ _ _ _ _ _ H) as (d' & par' & E & Ld & Ed' & gd' & GP & HS). exists d', par'. split; [exact E|]. split; [auto|]. split; [auto|]. eauto.
      - destruct (skip_ok links HL r Hr _ _ _ _ _ _ _ _ _ H) as [E HS]; auto. exists d, par. split; [exact E|]. split; [apply (sd_dl _ _ _ _ _ _ _ _ _ _ H)|]. split; [auto|]. eauto.
    Qed.

    Lemma side_head_complete links r (HL : up_graph links) (Hr : r < n) P R S tent meet d gd par x a : side links r P (x :: R) S tent meet d gd par -> walk (uarc links) r x a ->
      (gd x <= a)%N \/ ((tent <= a)%N /\ (tent = a -> (tent < INF)%N -> meet < x)).
    Proof using EL EP. intros H Hw. apply (side_complete links HL r Hr _ _ _ _ _ _ _ _ H x a Hw). right; auto. Qed.

    Lemma joint_meet Pf x Rf Sf Pb Rb Sb gf gb f b tent meet : joint Pf (x :: Rf) Sf Pb (x :: Rb) Sb gf gb f b tent meet ->
      exists q, cq_step lf lb elim (f, b, tent, meet) = Some (inl q) /\ let '(f', b', tent', meet') := q in
      exists Sf' Sb' gf' gb', joint (Pf ++ [x]) Rf Sf' (Pb ++ [x]) Rb Sb' gf' gb' f' b' tent' meet'.
    Proof using EL EP HF HB Hs Ht.
      intros []. destruct f as [d par nx], b as [db parb nxb]. cbn [w_dist w_par w_next] in *. subst nx nxb. cbn [hd_error].
      destruct (side_hd lf HF s Hs _ _ _ _ _ _ _ _ _ jt_f0) as (Hx & NP & NR & _ & _ & AP & AR).
      destruct (side_hd lb HB t Ht _ _ _ _ _ _ _ _ _ jt_b0) as (_ & NPb & NRb & _ & _ & APb & ARb).
      assert (Hm : (tent < INF)%N -> meet < x). { intros L. apply AP. apply jt_meet0; auto. }
      destruct (half_ok lf s HF Hs _ _ _ _ _ _ _ _ _ jt_f0 Hm) as (d' & par' & E & Ld & Ed & Sf' & gf' & GP & HS).
      destruct (half_ok lb t HB Ht _ _ _ _ _ _ _ _ _ jt_b0 Hm) as (db' & parb' & Eb & Ldb & Edb & Sb' & gb' & GPb & HSb).
      unfold cq_step. cbn [w_next w_dist w_par]. rewrite Nat.ltb_irrefl.
      destruct (nth_error d x) as [dx|] eqn:Edx; [|discriminate]. cbn [bind] in E |- *. rewrite E. cbn [bind].
      destruct (nth_error db x) as [dbx|] eqn:Edbx; [|discriminate]. cbn [bind] in Eb |- *. rewrite Eb. cbn [bind w_dist]. rewrite Ed, Edb. cbn [bind].
      pose proof (sd_le _ _ _ _ _ _ _ _ _ _ jt_f0 x) as Lf. pose proof (sd_le _ _ _ _ _ _ _ _ _ _ jt_b0 x) as Lb.
      unfold cadd. rewrite (proj2 (N.ltb_lt (gf x + gb x) U32)) by (unfold INF in *; unfold U32; cbn in *; lia). cbn [bind].
      unfold etw_reset. cbn [w_dist w_par w_next]. rewrite !set_at_lt by lia. cbn [bind].
      assert (Hbest : forall a c, walk (uarc lf) s x a -> walk (uarc lb) t x c -> (gf x + gb x <= a + c)%N \/ ((tent <= a + c)%N /\ (tent = (a + c)%N -> (tent < INF)%N -> meet < x))).
      { intros a c Wa Wc. destruct (side_head_complete lf s HF Hs _ _ _ _ _ _ _ _ _ a jt_f0 Wa) as [Ka|[Ka1 Ka2]].
        - destruct (side_head_complete lb t HB Ht _ _ _ _ _ _ _ _ _ c jt_b0 Wc) as [Kc|[Kc1 Kc2]]; [left; lia|]. right. split; [lia|]. intros E1 L1. apply Kc2; lia.
        - right. split; [lia|]. intros E1 L1. apply Ka2; lia. }
      assert (J9 : forall m, In m (Pf ++ [x]) -> ~ In m Rb).
      { intros m Hmm Hn. apply in_app_or in Hmm. destruct Hmm as [Hmm|[<-|[]]]; [apply (jt_xf0 m Hmm); right; auto|auto]. }
      assert (J10 : forall m, In m (Pb ++ [x]) -> ~ In m Rf).
      { intros m Hmm Hn. apply in_app_or in Hmm. destruct Hmm as [Hmm|[<-|[]]]; [apply (jt_xb0 m Hmm); right; auto|auto]. }
      destruct (N.ltb_spec (gf x + gb x) tent) as [L|L]; (eexists; split; [reflexivity|]; exists Sf', Sb', gf', gb').
      - constructor; cbn [w_dist w_par w_next]; auto.
        + apply (side_tent lf s Hs) with (tent := tent) (meet := meet); auto.
        + apply (side_tent lb t Ht) with (tent := tent) (meet := meet); auto.
        + lia.
        + intros _. split; [apply in_or_app; right; left; auto|]. split; [apply in_or_app; right; left; auto|]. rewrite GP, GPb; auto; apply in_or_app; right; left; auto.
        + intros m a c Hmf Hmb Wa Wc. apply in_app_or in Hmf. apply in_app_or in Hmb. destruct Hmf as [Hmf|[<-|[]]].
          * destruct Hmb as [Hmb|[<-|[]]]; [|contradiction]. destruct (jt_best0 m a c); auto. split; lia.
          * split; [|lia]. destruct (Hbest a c Wa Wc) as [?|[? _]]; lia.
      - constructor; cbn [w_dist w_par w_next]; auto.
        + intros Lt. destruct (jt_meet0 Lt) as (M1 & M2 & M3). split; [apply in_or_app; auto|]. split; [apply in_or_app; auto|]. rewrite GP, GPb; auto; apply in_or_app; auto.
        + intros m a c Hmf Hmb Wa Wc. apply in_app_or in Hmf. apply in_app_or in Hmb. destruct Hmf as [Hmf|[<-|[]]].
          * destruct Hmb as [Hmb|[<-|[]]]; [|contradiction]. apply (jt_best0 m a c); auto.
          * destruct (Hbest a c Wa Wc) as [K|[K1 K2]]; (split; [lia|]); intros E1 L1; specialize (Hm L1); lia.
    Qed.

    (** What a finished query knows; [rf], [rb] are the root paths. *)
    Definition query_done (q : cq_state) : Prop :=
      let '(f, b, tent, meet) := q in exists rf rb Sf Sb gf gb, joint rf [] Sf rb [] Sb gf gb f b tent meet.

    Lemma cq_run_ok fd bd fp bp : length fd = n -> length bd = n -> length fp = n -> length bp = n ->
      (forall x, x < n -> nth_error fd x = Some INF) -> (forall x, x < n -> nth_error bd x = Some INF) ->
      exists q, cq_run lf lb elim fd bd fp bp s t = Some q /\ query_done q.
    Proof using EL EP HF HB Hs Ht.
      intros L1 L2 L3 L4 I1 I2. unfold cq_run. destruct (rpath_ex s Hs) as (rf & Hrf). destruct (rpath_ex t Ht) as (rb & Hrb).
      destruct (side_init lf HF s Hs fd fp L1 I1 L3 rf Hrf) as (f & Ef & Nf & Sf). destruct (side_init lb HB t Ht bd bp L2 I2 L4 rb Hrb) as (b & Eb & Nb & Sb).
      rewrite Ef, Eb. cbn [bind].
      apply (loopN_ghost _ (fun g (q : cq_state) => let '(f, b, tent, meet) := q in exists Pf Sf Pb Sb gf gb, joint Pf (fst g) Sf Pb (snd g) Sb gf gb f b tent meet) query_done
        (fun g => N.of_nat (length (fst g) + length (snd g))) _ (rf, rb)).
      - clear -EL EP HF HB Hs Ht. intros [Rf Rb] [[[f b] tent] meet] (Pf & Sf & Pb & Sb & gf & gb & J). cbn [fst snd] in *. pose proof (jt_nf _ _ _ _ _ _ _ _ _ _ _ _ J) as Nf. pose proof (jt_nb _ _ _ _ _ _ _ _ _ _ _ _ J) as Nb.
        destruct Rf as [|x Rf], Rb as [|y Rb]; cbn [hd_error] in Nf, Nb.
        + exists (inr (f, b, tent, meet)). unfold cq_step. rewrite Nf, Nb. split; [reflexivity|]. exists Pf, Pb, Sf, Sb, gf, gb. exact J.
        + destruct (joint_b _ _ _ _ _ _ _ _ _ _ _ _ _ J) as (b' & b'' & gb' & E1 & E2 & J'). { intros ? []. }
          unfold cq_step. rewrite Nf, Nb, E1. cbn [bind]. rewrite E2. cbn [bind]. eexists. split; [reflexivity|]. exists ([], Rb). cbn [fst snd length]. split; [|lia]. do 6 eexists. exact J'.
        + destruct (joint_f _ _ _ _ _ _ _ _ _ _ _ _ _ J) as (b' & b'' & gb' & E1 & E2 & J'). { intros ? []. }
          unfold cq_step. rewrite Nf, Nb, E1. cbn [bind]. rewrite E2. cbn [bind]. eexists. split; [reflexivity|]. exists (Rf, []). cbn [fst snd length]. split; [|lia]. do 6 eexists. exact J'.
        + destruct (side_hd lf HF s Hs _ _ _ _ _ _ _ _ _ (jt_f _ _ _ _ _ _ _ _ _ _ _ _ J)) as (_ & _ & _ & _ & _ & _ & AR).
          destruct (side_hd lb HB t Ht _ _ _ _ _ _ _ _ _ (jt_b _ _ _ _ _ _ _ _ _ _ _ _ J)) as (_ & _ & _ & _ & _ & _ & ARb).
          destruct (Nat.lt_trichotomy x y) as [L|[L|L]].
          * destruct (joint_f _ _ _ _ _ _ _ _ _ _ _ _ _ J) as (b' & b'' & gb' & E1 & E2 & J'). { intros z [<-|Hz]; auto. apply ARb in Hz. lia. }
            unfold cq_step. rewrite Nf, Nb, E1, (proj2 (Nat.ltb_lt x y) L). cbn [bind]. rewrite E2. cbn [bind]. eexists. split; [reflexivity|]. exists (Rf, y :: Rb). cbn [fst snd length]. split; [|lia]. do 6 eexists. exact J'.
          * subst y. destruct (joint_meet _ _ _ _ _ _ _ _ _ _ _ _ _ J) as (q' & E & J'). exists (inl q'). split; [exact E|]. exists (Rf, Rb). cbn [fst snd length]. destruct q' as [[[f' b'] tent'] meet']. cbn [fst snd].
            destruct J' as (Sf' & Sb' & gf' & gb' & J'). split; [|lia]. exists (Pf ++ [x]), Sf', (Pb ++ [x]), Sb', gf', gb'. exact J'.
          * destruct (joint_b _ _ _ _ _ _ _ _ _ _ _ _ _ J) as (b' & b'' & gb' & E1 & E2 & J'). { intros z [<-|Hz]; auto. apply AR in Hz. lia. }
            unfold cq_step. rewrite Nf, Nb, E1, (proj2 (Nat.ltb_ge x y)), (proj2 (Nat.ltb_lt y x) L) by lia. cbn [bind]. rewrite E2. cbn [bind]. eexists. split; [reflexivity|]. exists (x :: Rf, Rb). cbn [fst snd length]. split; [|lia]. do 6 eexists. exact J'.
      - exists [], [], [], []. eexists. eexists. cbn [fst snd]. constructor; [exact Sf|exact Sb|exact Nf|exact Nb|..]; try (intros; contradiction); lia.
      - cbn [fst snd]. rewrite EL. assert (G : forall x l, rpath x l -> length l <= n).
        { clear -EL EP. intros x l Hl. apply Nat.le_trans with (length (seq 0 n)); [|rewrite seq_length; lia]. apply NoDup_incl_length.
          - apply rpath_asc in Hl. induction l as [|a R IH]; constructor. { intros Hi. apply ss_inv in Hl. pose proof (proj2 Hl a Hi). lia. } apply IH. apply ss_inv in Hl. apply Hl.
          - intros y Hy. apply in_seq. pose proof (rpath_lt _ _ Hl y Hy). lia. }
        pose proof (G _ _ Hrf). pose proof (G _ _ Hrb). lia.
    Qed.

    (** The result of a finished query. *)
    Lemma query_all f b tent meet : query_done (f, b, tent, meet) ->
      length (w_dist f) = n /\ length (w_dist b) = n /\ length (w_par f) = n /\ length (w_par b) = n /\
      (forall x, x < n -> nth_error (w_dist f) x = Some INF) /\ (forall x, x < n -> nth_error (w_dist b) x = Some INF).
    Proof using EL EP HF HB Hs Ht.
      intros (rf & rb & Sf & Sb & gf & gb & [[] [] _ _ _ _ _ _ _]). repeat (split; [assumption|]).
      split; intros x Hx; [destruct (in_dec Nat.eq_dec x rf)|destruct (in_dec Nat.eq_dec x rb)]; auto.
      - rewrite sd_un0, sd_out0; auto. rewrite app_nil_r; auto.
      - rewrite sd_un1, sd_out1; auto. rewrite app_nil_r; auto.
    Qed.
    Lemma query_exact f b tent meet : query_done (f, b, tent, meet) -> (tent <= INF)%N /\
      (forall l, meets (uarc lf) (uarc lb) s t l -> (tent <= l)%N) /\ ((tent < INF)%N -> meets (uarc lf) (uarc lb) s t tent).
    Proof using EL EP HF HB Hs Ht.
      intros (rf & rb & Sf & Sb & gf & gb & []). split; [auto|]. split.
      - intros l (m & a & c & Wa & Wc & ->). apply (jt_best0 m a c); auto.
        + rewrite <- (app_nil_r rf). eapply side_walk; [exact HF|exact Hs|exact jt_f0|exact Wa].
        + rewrite <- (app_nil_r rb). eapply side_walk; [exact HB|exact Ht|exact jt_b0|exact Wc].
      - intros L. destruct (jt_meet0 L) as (M1 & M2 & M3). exists meet, (gf meet), (gb meet). split; [|split; [|auto]].
        + eapply side_real; [exact HF|exact Hs|exact jt_f0|lia].
        + eapply side_real; [exact HB|exact Ht|exact jt_b0|lia].
    Qed.
  End Query.
End Tree.
