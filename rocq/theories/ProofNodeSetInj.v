(** * Injection of a network into node sets *)

Require Import Verif.Base Verif.World Verif.ModelGraph Verif.ModelExpr Verif.ModelLoci Verif.ModelBN Verif.ModelSample Verif.ModelSim
        Verif.ModelNodeSet Verif.Spec Verif.SpecBN Verif.SpecSim Verif.SpecNodeSet Verif.ProofBase Verif.ProofGraph Verif.ProofBN Verif.ProofBNViews
        Verif.ProofBNHist Verif.ProofNodeSet.

Section Inject.
  Context {w : world}.

  Lemma hr_node : forall (b : bn w) n g r, has_randomness b n g = Ok r -> node b n.
  Proof.
    intros b n g r E. unfold has_randomness, is_rv in E. destruct (bget b n) as [l|e] eqn:B; [|discriminate].
    apply bget_holds in B. eapply holds_node; eauto.
  Qed.
  Lemma hr_spec : forall (b : bn w) n g, coherent b -> node b n -> exists r, has_randomness b n g = Ok r
    /\ (r = true -> ~ deterministic b n)
    /\ (r = false -> (forall s, In s g -> deterministic b s) -> deterministic b n).
  Proof.
    intros b n g C Hn. destruct g as [|g0 g].
    - destruct (has_randomness_none b n C Hn) as [r [E I]]. exists r. splits; auto.
      + intros -> [D1 D2]. destruct (proj1 I eq_refl) as [H|[a [H1 H2]]]; auto. apply (D2 a); auto.
      + intros -> _. split.
        * intros H. assert (false = true) by (apply I; auto). discriminate.
        * intros a Ha Hr. assert (false = true) by (apply I; eauto). discriminate.
    - destruct (has_randomness_given b n (g0 :: g) C Hn) as [r [E I]]; [discriminate|]. exists r. splits; auto.
      + intros -> [D1 D2]. destruct (proj1 I eq_refl) as [H|[a [H1 [H2 _]]]]; auto. apply (D2 a); auto.
      + intros -> Hg. split.
        * intros H. assert (false = true) by (apply I; auto). discriminate.
        * intros a Ha Hr. assert (false = true); [|discriminate]. apply I. right. exists a. splits; auto.
          -- intros Hi. apply (Hg a) in Hi. apply Hi. auto.
          -- intros [s [S1 [S2 S3]]]. apply Hg in S1. apply (proj2 S1 a); auto.
  Qed.

  Lemma exogenous_ok : forall (b : bn w) n, node b n -> exists l, holds b n l /\ is_exogenous b n = Ok (is_pseudo_l l || is_exo_l l).
  Proof.
    intros b n Hn. destruct (node_holds b n Hn) as [l Hl]. exists l. split; auto.
    unfold is_exogenous. apply bget_holds in Hl. rewrite Hl. auto.
  Qed.

  Definition state := (list name * list name * list name)%type.
  Definition s_flo (s : state) := fst (fst s).
  Definition s_fx (s : state) := snd (fst s).
  Definition s_al (s : state) := snd s.

  (** one invariant for the three loops *)
  Definition loop_inv (b : bn w) (was afix aflo : list name) (s : state) : Prop :=
    incl afix (s_fx s) /\ (forall x, In x aflo -> In x (s_flo s) \/ In x (s_fx s) /\ node b x)
    /\ (forall x, In x (s_al s) -> In x was \/ In x (s_fx s)) /\ incl was (s_al s) /\ incl (s_fx s) (s_al s)
    /\ (forall x, In x (s_fx s) -> In x afix \/ node b x).

  Lemma med_inv : forall (b : bn w) was afix aflo s d s', loop_inv b was afix aflo s -> med_step b s d = Ok s' -> loop_inv b was afix aflo s'.
  Proof.
    intros b was afix aflo [[flo fx] al] d s' (I1 & I2 & I3 & I4 & I5 & I6) E. unfold med_step in E.
    destruct (has_randomness b d al) as [r|e] eqn:Er; cbn [bind] in E; [|discriminate]. apply hr_node in Er.
    unfold loop_inv, s_flo, s_fx, s_al in *. cbn [fst snd] in *. inversion E; subst. destruct r; cbn [fst snd]; splits; auto; intros x Hx; rewrite ?sadd_In in *.
    - destruct (I2 x Hx); auto.
    - auto.
    - destruct (I2 x Hx) as [H|[H1 H2]]; auto.
    - destruct Hx as [->|Hx]; auto. apply I3 in Hx. tauto.
    - auto.
    - destruct Hx as [->|Hx]; auto.
    - destruct Hx as [->|Hx]; auto.
  Qed.
  Lemma flo_inv : forall (b : bn w) was afix aflo s d s', loop_inv b was afix aflo s -> flo_step b s d = Ok s' -> loop_inv b was afix aflo s'.
  Proof.
    intros b was afix aflo [[flo fx] al] d s' (I1 & I2 & I3 & I4 & I5 & I6) E. unfold flo_step in E.
    destruct (has_randomness b d al) as [r|e] eqn:Er; cbn [bind] in E; [|discriminate]. apply hr_node in Er.
    unfold loop_inv, s_flo, s_fx, s_al in *. cbn [fst snd] in *. inversion E; subst. destruct r; cbn [fst snd]; splits; auto; intros x Hx; rewrite ?sadd_In in *.
    - auto.
    - destruct (I2 x Hx) as [H|[H1 H2]]; [|auto].
      destruct (String.eqb x d) eqn:Ex; [apply String.eqb_eq in Ex; subst; auto|].
      left. apply diff_In. split; auto. intros [<-|[]]. rewrite String.eqb_refl in Ex. discriminate.
    - destruct Hx as [->|Hx]; auto. apply I3 in Hx. tauto.
    - auto.
    - destruct Hx as [->|Hx]; auto.
    - destruct Hx as [->|Hx]; auto.
  Qed.
  Lemma root_inv : forall (b : bn w) was afix aflo s d s', loop_inv b was afix aflo s -> root_step b s d = Ok s' -> loop_inv b was afix aflo s'.
  Proof.
    intros b was afix aflo [[flo fx] al] d s' (I1 & I2 & I3 & I4 & I5 & I6) E. unfold root_step in E.
    destruct (has_randomness b d []) as [r|e] eqn:Er; cbn [bind] in E; [|discriminate]. apply hr_node in Er.
    unfold loop_inv, s_flo, s_fx, s_al in *. cbn [fst snd] in *. inversion E; subst. destruct r; cbn [fst snd]; splits; auto; intros x Hx; rewrite ?sadd_In in *.
    - auto.
    - destruct (I2 x Hx) as [H|[H1 H2]]; auto.
    - destruct Hx as [->|Hx]; auto. apply I3 in Hx. tauto.
    - auto.
    - destruct Hx as [->|Hx]; auto.
    - destruct Hx as [->|Hx]; auto.
  Qed.

  Lemma local_one_split : forall (b : bn w) r nm was afix aflo a al, local_one b r nm was afix aflo = Ok (a, al) ->
    exists m mini med s1 sf s2 s3 le,
      minimal_dag (dag b) (union afix aflo) = Ok m /\ order m = Ok mini /\ sort (dag b) (diff (diff mini afix) aflo) = Ok med
      /\ foldM (med_step b) med (to_set aflo, to_set afix, union was afix) = Ok s1 /\ bn_sort b (fst (fst s1)) = Ok sf
      /\ foldM (flo_step b) sf s1 = Ok s2
      /\ (if r then do rs <- Roots b; foldM (root_step b) rs s2 else Ok s2) = Ok s3
      /\ reqs (dag b) (s_flo s3) [] mini ([], []) = Ok le
      /\ a = mkAlloc nm (diff (snd le) (s_fx s3)) (diff (fst le) mini) (s_fx s3) (s_flo s3) was [] [] [] /\ al = s_al s3.
  Proof.
    intros b r nm was afix aflo a al E. unfold local_one in E. cbv zeta in E.
    destruct (minimal_dag _ _) as [m|] eqn:E1; cbn [bind] in E; [|discriminate].
    destruct (order m) as [mini|] eqn:E2; cbn [bind] in E; [|discriminate].
    destruct (sort _ _) as [med|] eqn:E3; cbn [bind] in E; [|discriminate].
    destruct (foldM (med_step b) _ _) as [s1|] eqn:E4; cbn [bind] in E; [|discriminate].
    destruct (bn_sort b _) as [sf|] eqn:E5; cbn [bind] in E; [|discriminate].
    destruct (foldM (flo_step b) _ _) as [s2|] eqn:E6; cbn [bind] in E; [|discriminate].
    match type of E with bind ?x _ = _ => destruct x as [s3|] eqn:E7; cbn [bind] in E; [|discriminate] end.
    destruct s3 as [[flo fx] al3]. destruct (reqs _ _ _ _ _) as [le|] eqn:E8; cbn [bind] in E; [|discriminate].
    inversion E; subst. exists m, mini, med, s1, sf, s2, (flo, fx, al), le. splits; auto.
  Qed.

  Lemma root_loop_inv : forall (b : bn w) (r : bool) (I : state -> Prop) s2 s3,
    (forall rs s d s', Roots b = Ok rs -> In d rs -> I s -> root_step b s d = Ok s' -> I s') -> I s2 ->
    (if r then do rs <- Roots b; foldM (root_step b) rs s2 else Ok s2) = Ok s3 -> I s3.
  Proof.
    intros b r I s2 s3 H I2 E. destruct r; [|inversion E; subst; auto].
    destruct (Roots b) as [rs|] eqn:Er; cbn [bind] in E; [|discriminate].
    eapply foldM_inv; [|exact I2|exact E]. intros s x s' Is Hx Es. eapply H; eauto.
  Qed.

  Lemma local_one_ok : forall (b : bn w) r nm was afix aflo a al, local_one b r nm was afix aflo = Ok (a, al) ->
    a_name a = nm /\ a_was a = was /\ a_will a = [] /\ incl afix (a_fixed a)
    /\ (forall x, In x aflo -> In x (a_float a) \/ In x (a_fixed a) /\ node b x)
    /\ (forall x, In x al -> In x was \/ In x (a_fixed a)) /\ incl was al.
  Proof.
    intros b r nm was afix aflo a al E. destruct (local_one_split _ _ _ _ _ _ _ _ E) as (m & mini & med & s1 & sf & s2 & s3 & le & E1 & E2 & E3 & E4 & E5 & E6 & E7 & E8 & -> & ->).
    assert (I0 : loop_inv b was afix aflo (to_set aflo, to_set afix, union was afix)).
    { unfold loop_inv, s_flo, s_fx, s_al; cbn [fst snd]. splits; try intros x; rewrite ?to_set_In, ?union_In; auto. }
    assert (I1 : loop_inv b was afix aflo s1) by (eapply foldM_inv; [|exact I0|exact E4]; intros; eapply med_inv; eauto).
    assert (I2 : loop_inv b was afix aflo s2) by (eapply foldM_inv; [|exact I1|exact E6]; intros; eapply flo_inv; eauto).
    assert (I3 : loop_inv b was afix aflo s3) by (eapply (root_loop_inv b r); [|exact I2|exact E7]; intros; eapply root_inv; eauto).
    destruct I3 as (J1 & J2 & J3 & J4 & J5 & J6). cbn. splits; auto.
  Qed.

  (** ** Every step succeeds on nodes of the network *)

  Definition known (b : bn w) (a : alloc) : Prop :=
    forall x, In x (a_exo a) \/ In x (a_listen a) \/ In x (a_fixed a) \/ In x (a_float a) \/ In x (a_was a) \/ In x (a_will a) -> node b x.
  Definition state_known (b : bn w) (s : state) : Prop := forall x, In x (s_flo s) \/ In x (s_fx s) \/ In x (s_al s) -> node b x.

  Lemma med_total : forall (b : bn w) s d, coherent b -> state_known b s -> node b d -> exists s', med_step b s d = Ok s' /\ state_known b s'.
  Proof.
    intros b [[flo fx] al] d C K Hd. unfold med_step. destruct (hr_spec b d al C Hd) as [r [E _]]. rewrite E. cbn [bind].
    eexists. split; [reflexivity|]. unfold state_known, s_flo, s_fx, s_al in *. destruct r; cbn [fst snd] in *; intros x; rewrite ?sadd_In; intuition (subst; auto).
  Qed.
  Lemma flo_total : forall (b : bn w) s d, coherent b -> state_known b s -> node b d -> exists s', flo_step b s d = Ok s' /\ state_known b s'.
  Proof.
    intros b [[flo fx] al] d C K Hd. unfold flo_step. destruct (hr_spec b d al C Hd) as [r [E _]]. rewrite E. cbn [bind].
    eexists. split; [reflexivity|]. unfold state_known, s_flo, s_fx, s_al in *. destruct r; cbn [fst snd] in *; intros x; rewrite ?sadd_In, ?diff_In; intuition (subst; auto).
  Qed.
  Lemma root_total : forall (b : bn w) s d, coherent b -> state_known b s -> node b d -> exists s', root_step b s d = Ok s' /\ state_known b s'.
  Proof.
    intros b [[flo fx] al] d C K Hd. unfold root_step. destruct (hr_spec b d [] C Hd) as [r [E _]]. rewrite E. cbn [bind].
    eexists. split; [reflexivity|]. unfold state_known, s_flo, s_fx, s_al in *. destruct r; cbn [fst snd] in *; intros x; rewrite ?sadd_In; intuition (subst; auto).
  Qed.

  (** what the requirement loop collects *)
  Lemma reqs_spec : forall (b : bn w) flo mini par s, coherent b -> (forall x, In x mini -> node b x) ->
    exists le, reqs (dag b) flo par mini s = Ok le
      /\ (forall x, In x (fst le) <-> In x (fst s) \/ exists l1 n l2, mini = l1 ++ n :: l2 /\ In n flo /\ path (dag b) x n
            /\ ~ exists c, In c (par ++ l1) /\ path (dag b) c n /\ path (dag b) x c)
      /\ (forall x, In x (snd le) <-> In x (snd s) \/ exists l1 n l2, mini = l1 ++ n :: l2 /\ ~ In n flo /\ path (dag b) x n
            /\ ~ exists c, In c (par ++ l1) /\ path (dag b) c n /\ path (dag b) x c).
  Proof.
    intros b flo mini. induction mini as [|n mini IH]; intros par s C Hm; cbn [reqs].
    - exists s. splits; auto; intros x; (split; [auto|]; intros [H|[l1 [n [l2 [E _]]]]]; auto; destruct l1; discriminate).
    - destruct (minimal_requirements_spec (dag b) n par (co_wf _ C) (co_acyclic _ C)) as [rq [Hr [[_ I] _]]]; [apply node_gnodes, Hm; left; auto|].
      rewrite Hr. cbn [bind].
      destruct (IH (par ++ [n]) (if mem n flo then (union (fst s) rq, snd s) else (fst s, union (snd s) rq)) C) as [le [E1 [E2 E3]]]; [intros; apply Hm; right; auto|].
      exists le. split; auto.
      assert (G : forall (Q : name -> Prop) x, (exists l1 n0 l2, n :: mini = l1 ++ n0 :: l2 /\ Q n0 /\ path (dag b) x n0 /\ ~ exists c, In c (par ++ l1) /\ path (dag b) c n0 /\ path (dag b) x c)
          <-> (Q n /\ In x rq) \/ (exists l1 n0 l2, mini = l1 ++ n0 :: l2 /\ Q n0 /\ path (dag b) x n0 /\ ~ exists c, In c ((par ++ [n]) ++ l1) /\ path (dag b) c n0 /\ path (dag b) x c)).
      { intros Q x. split.
        - intros (l1 & n0 & l2 & E & H1 & H2 & H3). destruct l1 as [|y l1]; inversion E; subst.
          + left. split; auto. apply I. rewrite app_nil_r in H3. auto.
          + right. exists l1, n0, l2. splits; auto. rewrite <- app_assoc. auto.
        - intros [[H1 H2]|(l1 & n0 & l2 & E & H1 & H2 & H3)].
          + apply I in H2. exists [], n, mini. rewrite app_nil_r. splits; auto; tauto.
          + exists (n :: l1), n0, l2. subst. splits; auto. rewrite <- app_assoc in H3. auto. }
      destruct (mem n flo) eqn:M; [apply mem_In in M|apply mem_false in M]; cbn [fst snd] in *; split; intros x.
      + rewrite E2, (G (fun n => In n flo)), union_In. tauto.
      + rewrite E3, (G (fun n => ~ In n flo)). tauto.
      + rewrite E2, (G (fun n => In n flo)). tauto.
      + rewrite E3, (G (fun n => ~ In n flo)), union_In. tauto.
  Qed.

  Lemma mini_spec : forall (b : bn w) ns m, coherent b -> minimal_dag (dag b) ns = Ok m ->
    exists mini, order m = Ok mini /\ NoDup mini
      /\ (forall x, In x mini <-> node b x /\ (In x ns \/ exists a c, In a ns /\ In c ns /\ path (dag b) a x /\ path (dag b) x c)).
  Proof.
    intros b ns m C E. destruct (minimal_dag_spec (dag b) ns (co_wf _ C) (co_acyclic _ C)) as [m' [E' [W [N Ed]]]]. rewrite E in E'. inversion E'; subst m'.
    assert (A : acyclic m). { intros x Hx. apply (co_acyclic _ C x). eapply path_incl; [|exact Hx]. intros; apply Ed; auto. }
    destruct (order_total m W A) as [mini Ho]. destruct (order_topo m mini W Ho) as [[D I] _].
    exists mini. splits; auto. intros x. rewrite I, N. split; intros [H1 H2]; split; auto; apply node_gnodes; auto.
  Qed.

  Lemma local_one_total : forall (b : bn w) r nm was afix aflo, coherent b -> fresh b ->
    (forall x, In x was \/ In x afix \/ In x aflo -> node b x) ->
    exists a al, local_one b r nm was afix aflo = Ok (a, al) /\ known b a /\ forall x, In x al -> node b x.
  Proof.
    intros b r nm was afix aflo C F K. unfold local_one. cbv zeta.
    destruct (minimal_dag_spec (dag b) (union afix aflo) (co_wf _ C) (co_acyclic _ C)) as [m [E1 _]].
    destruct (mini_spec b _ m C E1) as [mini [E2 [Dm Im]]]. rewrite E1. cbn [bind]. rewrite E2. cbn [bind].
    assert (Km : forall x, In x mini -> node b x) by (intros x Hx; apply Im in Hx; tauto).
    destruct (sort_spec (dag b) (diff (diff mini afix) aflo) (co_wf _ C) (co_acyclic _ C)) as [med [E3 [[_ Id] _]]]. rewrite E3. cbn [bind].
    destruct (foldM_total _ _ (med_step b) (state_known b) med (to_set aflo, to_set afix, union was afix)) as [s1 [E4 K1]].
    { intros s x Ks Hx. apply med_total; auto. apply Id in Hx. apply node_gnodes. tauto. }
    { unfold state_known, s_flo, s_fx, s_al; cbn [fst snd]. intros x. rewrite !to_set_In, union_In. intuition. }
    rewrite E4. cbn [bind]. destruct (bn_sort_ok b (fst (fst s1)) C F) as [sf [E5 [_ Sf]]]. rewrite E5. cbn [bind].
    destruct (foldM_total _ _ (flo_step b) (state_known b) sf s1) as [s2 [E6 K2]]; auto.
    { intros s x Ks Hx. apply flo_total; auto. apply Sf in Hx. tauto. }
    rewrite E6. cbn [bind].
    assert (E7 : exists s3, (if r then do rs <- Roots b; foldM (root_step b) rs s2 else Ok s2) = Ok s3 /\ state_known b s3).
    { destruct r; [|eauto]. destruct (fresh_views b F) as (_ & R & _). rewrite R. cbn [bind].
      apply (foldM_total _ _ (root_step b) (state_known b)); auto. intros s x Ks Hx. apply root_total; auto.
      apply (roots_spec _ (co_wf _ C)) in Hx. apply node_gnodes. tauto. }
    destruct E7 as [[[flo fx] al] [E7 K3]]. rewrite E7. cbn [bind].
    destruct (reqs_spec b flo mini [] ([], []) C Km) as [le [E8 [L1 L2]]]. rewrite E8. cbn [bind]. eexists _, _. split; [reflexivity|].
    unfold state_known, s_flo, s_fx, s_al in K3; cbn [fst snd] in K3. split; [|intros; apply K3; auto].
    unfold known. cbn. intros x. rewrite !diff_In. intros [[H _]|[[H _]|[H|[H|[H|[]]]]]]; auto.
    - apply L2 in H. destruct H as [[]|(l1 & n & l2 & _ & _ & H & _)]. apply node_gnodes. eapply path_src; [apply C|eauto].
    - apply L1 in H. destruct H as [[]|(l1 & n & l2 & _ & _ & H & _)]. apply node_gnodes. eapply path_src; [apply C|eauto].
  Qed.

  Lemma Forall_cons_iff' : forall (A : Type) (P : A -> Prop) x l, Forall P (x :: l) <-> P x /\ Forall P l.
  Proof. intros A P x l. split; [intros H; inversion H; auto|intros [H1 H2]; constructor; auto]. Qed.

  Lemma resolve_total : forall (b : bn w) t r was, coherent b -> fresh b -> (forall x, In x was -> node b x) ->
    (forall nm fx fl, In (nm, fx, fl) (requests t) -> forall x, In x fx \/ In x fl -> node b x) ->
    exists t', resolve_local b r was t = Ok t' /\ Forall (known b) (allocs t').
  Proof.
    intros b t r was C F. revert r was. induction t as [nm fx fl ks IH] using nset_ind'. intros r was Kw K. rewrite resolve_local_eq.
    destruct (local_one_total b r nm was fx fl C F) as [a [al [E [Ka Kl]]]].
    { intros x [H|H]; auto. eapply K; eauto. left; auto. }
    rewrite E. cbn [bind fst snd].
    assert (M : exists ks', mapM (resolve_local b false al) ks = Ok ks' /\ Forall (fun k => Forall (known b) (allocs k)) ks').
    { cbn [requests] in K. assert (K' : forall nm0 fx0 fl0, In (nm0, fx0, fl0) (flat_map requests ks) -> forall x, In x fx0 \/ In x fl0 -> node b x) by (intros; eapply K; [right|]; eauto).
      clear K E. induction IH as [|k ks Hk IH IH2]; cbn [mapM]; [exists []; split; auto; constructor|]. cbn [flat_map] in K'.
      destruct (Hk false al Kl) as [k' [E1 E2]]; [intros; eapply K'; [apply in_or_app|]; eauto|].
      destruct IH2 as [ks' [E3 E4]]; [intros; eapply K'; [apply in_or_app|]; eauto|].
      rewrite E1, E3. cbn [bind]. eexists. split; [reflexivity|]. constructor; auto. }
    destruct M as [ks' [M1 M2]]. rewrite M1. cbn [bind]. eexists. split; [reflexivity|]. rewrite allocs_eq. constructor; auto.
    apply Forall_flat_map. auto.
  Qed.

  Lemma raise_known : forall (b : bn w) t, Forall (known b) (allocs t) -> Forall (known b) (allocs (raise_up t)).
  Proof.
    intros b t. induction t as [a sh ks IH] using stree_ind'. intros K. rewrite raise_up_eq, allocs_eq. rewrite allocs_eq in K.
    apply Forall_cons_iff' in K. destruct K as [Ka Kk]. apply Forall_flat_map in Kk.
    assert (G : Forall (fun k => Forall (known b) (allocs k)) (map raise_up ks)).
    { clear Ka. induction IH as [|k ks Hk IH IH2]; cbn [map]; constructor; inversion Kk; subst; auto. }
    constructor; [|apply Forall_flat_map; auto].
    assert (W : forall l acc x, Forall (fun k => Forall (known b) (allocs k)) l -> (In x acc -> node b x) ->
      In x (fold_left (fun acc k => union acc (union (a_will (s_alloc k)) (a_float (s_alloc k)))) l acc) -> node b x).
    { induction l as [|k l IHl]; intros acc x Hl Ha; cbn [fold_left]; auto. inversion Hl; subst. apply IHl; auto.
      rewrite !union_In. destruct k as [ak sk kk]. rewrite allocs_eq in H1. apply Forall_cons_iff' in H1. cbn [s_alloc]. destruct H1 as [H1 _]. intros [H|[H|H]]; auto; apply H1; tauto. }
    unfold known in *. cbn. intros x [H|[H|[H|[H|[H|H]]]]]; try (apply Ka; tauto). eapply W; [exact G| |exact H]. intros [].
  Qed.

  Lemma relate_one_total : forall (b : bn w) r was a, coherent b -> known b a -> (forall x, In x was -> node b x) ->
    exists a' hs, relate_one b r was a = Ok (a', hs) /\ known b a'.
  Proof.
    intros b r was a C K Kw. unfold relate_one. set (tsh := diff (a_exo a) was).
    assert (Kt : forall x, In x tsh -> node b x) by (intros x Hx; apply diff_In in Hx; apply K; tauto).
    destruct (filterM_total _ (fun d => do r0 <- has_randomness b d was; Ok (negb r0)) tsh) as [th Eh].
    { intros x Hx. destruct (hr_spec b x was C (Kt x Hx)) as [v [E _]]. rewrite E. cbn. eauto. }
    rewrite Eh. cbn [bind]. pose proof (filterM_ok _ _ _ _ Eh) as Hh.
    destruct (filterM_total _ (fun d => do e <- is_exogenous b d; Ok (negb e)) (diff (a_listen a) was)) as [cand Ec].
    { intros x Hx. apply diff_In in Hx. destruct (exogenous_ok b x) as [l [_ E]]; [apply K; tauto|]. rewrite E. cbn. eauto. }
    rewrite Ec. cbn [bind]. pose proof (filterM_ok _ _ _ _ Ec) as Hc.
    match goal with |- context[foldM ?f cand (?x, ?y)] => set (fn := f); set (fx := y) end.
    assert (Kfx : forall x, In x fx -> node b x).
    { intros x. unfold fx. destruct r; rewrite ?union_In, ?diff_In; intros H.
      - destruct H as [[H|H]|H]; [apply K; tauto|apply Kt; tauto|apply Kt, Hh; auto].
      - destruct H as [H|H]; [apply K; tauto|apply Kt; tauto]. }
    destruct (foldM_total _ _ fn (fun s => forall x, In x (fst s) \/ In x (snd s) -> node b x) cand (a_float a, fx)) as [q [Eq Kq]].
    { intros s x Ks Hx. unfold fn. apply Hc in Hx. destruct Hx as [Hx _]. apply diff_In in Hx.
      assert (Nx : node b x) by (apply K; tauto).
      match goal with |- context[has_randomness b x ?g] => destruct (hr_spec b x g C Nx) as [v [E _]] end.
      rewrite E. cbn [bind]. eexists. split; [reflexivity|]. destruct v; cbn [fst snd]; intros y; rewrite sadd_In; intuition (subst; auto). }
    { cbn [fst snd]. intros x [H|H]; [apply K; tauto|auto]. }
    rewrite Eq. cbn [bind]. eexists _, _. split; [reflexivity|]. unfold known. cbn. intros x.
    assert (Ex : forall r : bool, In x (if r then diff (diff (a_exo a) (diff tsh th)) th else diff (a_exo a) (diff tsh th)) -> In x (a_exo a)).
    { intros [|]; rewrite !diff_In; tauto. }
    rewrite !diff_In. intros [H|[H|[H|[H|[H|H]]]]]; auto; apply K; [apply Ex in H; auto|tauto|tauto].
  Qed.

  Lemma relate_total : forall (b : bn w) t r was, coherent b -> Forall (known b) (allocs t) -> (forall x, In x was -> node b x) ->
    exists t' was' hs, relate b r was t = Ok (t', was', hs) /\ Forall (known b) (allocs t') /\ (forall x, In x was' -> node b x).
  Proof.
    intros b t r was C. revert r was. induction t as [a sh ks IH] using stree_ind'. intros r was K Kw. rewrite relate_eq.
    rewrite allocs_eq in K. apply Forall_cons_iff' in K. destruct K as [Ka Kk]. apply Forall_flat_map in Kk.
    destruct (relate_one_total b r was a C Ka Kw) as [a1 [h1 [E1 K1]]]. rewrite E1. cbn [bind fst snd].
    assert (G : forall l s S, Forall (fun k => Forall (known b) (allocs k)) l ->
              Forall (fun t => forall r was, Forall (known b) (allocs t) -> (forall x, In x was -> node b x) ->
                exists t' was' hs, relate b r was t = Ok (t', was', hs) /\ Forall (known b) (allocs t') /\ (forall x, In x was' -> node b x)) l ->
              (forall x, In x (fst s) \/ In x (snd s) \/ In x S -> node b x) ->
              exists l' s' S', relate_kids b sh l s S = Ok (l', s', S') /\ Forall (fun k => Forall (known b) (allocs k)) l'
                /\ (forall x, In x (fst s') \/ In x (snd s') \/ In x S' -> node b x)).
    { induction l as [|k l IHl]; intros s S Hl Hi Ks; cbn [relate_kids]; [exists [], s, S; splits; auto|].
      inversion Hl; subst. inversion Hi; subst.
      assert (Kwas : forall x, In x (if sh then S else a_was (s_alloc k)) -> node b x).
      { destruct sh; [auto|]. destruct k as [ak sk kk]. rewrite allocs_eq in H1. apply Forall_cons_iff' in H1. destruct H1 as [H1 _]. cbn [s_alloc]. intros x Hx. apply H1. tauto. }
      destruct (H3 false _ H1 Kwas) as [k' [w' [hs [E2 [E3 E4]]]]]. rewrite E2. cbn [bind].
      assert (Kh : forall x, In x hs -> node b x).
      { assert (Q : relate b false (if sh then S else a_was (s_alloc k)) k = Ok (k', w', hs)) by auto. clear - Q H1.
        destruct k as [ak sk kk]. rewrite relate_eq in Q. cbn [s_alloc] in Q. destruct (relate_one b false (if sh then S else a_was ak) ak) as [[a2 h2]|] eqn:Er; cbn [bind fst snd] in Q; [|discriminate].
        destruct (relate_kids _ _ _ _ _) as [[[? [? ?]] ?]|]; cbn [bind] in Q; [|discriminate]. inversion Q; subst. apply relate_one_ok in Er.
        destruct Er as (_ & _ & _ & _ & _ & _ & _ & Er & _). intros x Hx. apply Er in Hx. rewrite allocs_eq in H1. apply Forall_cons_iff' in H1. apply H1. tauto. }
      destruct (hoist_ok hs s _ eq_refl) as (O1 & O2 & O3 & O4 & O5).
      destruct (IHl (fold_left hoist hs s) (if sh then w' else S) H2 H4) as [l' [s' [S' [E5 [E6 E7]]]]].
      { intros x [H|[H|H]]; [apply O4 in H; destruct H; auto|apply O5 in H; destruct H as [H|[_ H]]; auto|destruct sh; auto]. }
      rewrite E5. cbn [bind]. eexists _, _, _. split; [reflexivity|]. split; auto. constructor; auto.
      destruct k' as [ak sk kk]. cbn [s_alloc s_kids]. rewrite allocs_eq in *. apply Forall_cons_iff' in E3. destruct E3 as [E3 E3']. constructor; auto.
      destruct sh; auto. unfold known in *. cbn. intros x [H|[H|[H|[H|[H|H]]]]]; try (apply E3; tauto). auto. }
    destruct (G ks (a_fixed a1, was) (match ks with k :: _ => a_was (s_alloc k) | [] => [] end) Kk IH) as [ks' [[fx was2] [S [E2 [E3 E4]]]]].
    { cbn [fst snd]. intros x [H|[H|H]]; [apply K1; tauto|auto|]. destruct ks as [|k ks]; [destruct H|].
      inversion Kk; subst. destruct k as [ak sk kk]. rewrite allocs_eq in H2. apply Forall_cons_iff' in H2. cbn [s_alloc] in H. apply H2. tauto. }
    rewrite E2. cbn [bind]. eexists _, _, _. split; [reflexivity|]. cbn [fst snd] in E4. split; [|intros; apply E4; auto].
    rewrite allocs_eq. constructor; [|apply Forall_flat_map; auto]. unfold known in *. cbn. intros x [H|[H|[H|[H|[H|H]]]]]; try (apply K1; tauto); apply E4; auto.
  Qed.

  Lemma down_total : forall (b : bn w) gfi gfl s n, node b n -> exists s', down_step b gfi gfl s n = Ok s'.
  Proof.
    intros b gfi gfl [[fx flo] down] n Hn. unfold down_step. destruct (node_holds b n Hn) as [l Hl]. apply bget_holds in Hl.
    unfold is_rv. rewrite Hl. cbn [bind]. destruct (forallb _ _); cbn; eauto. 
  Qed.
  Lemma pass_down_total : forall (b : bn w) t fi fl ns, Forall (known b) (allocs t) -> (forall x, In x ns -> node b x) ->
    exists t', pass_down b fi fl ns t = Ok t' /\ Forall (known b) (allocs t').
  Proof.
    intros b. induction t as [a sh ks IH] using stree_ind'. intros fi fl ns K Kn. rewrite pass_down_eq. cbv zeta.
    rewrite allocs_eq in K. apply Forall_cons_iff' in K. destruct K as [Ka Kk]. apply Forall_flat_map in Kk.
    set (gfi := union _ _). set (gfl := union _ _).
    destruct (foldM_total _ _ (down_step b gfi gfl) (fun s => forall x, In x (fst (fst s)) \/ In x (snd (fst s)) \/ In x (snd s) -> node b x) ns (a_fixed a, a_float a, [])) as [[[fx flo] down] [E Ks]].
    { intros s x Ks Hx. destruct (down_total b gfi gfl s x (Kn x Hx)) as [s' Es]. exists s'. split; auto. apply down_step_ok in Es.
      destruct Es as (Nx & _ & _ & _ & A1 & A2 & A3 & _). intros y [H|[H|H]]; [apply A1 in H|apply A2 in H|apply A3 in H]; destruct H; subst; auto. }
    { cbn [fst snd]. intros x [H|[H|[]]]; apply Ka; tauto. }
    rewrite E. cbn [bind]. cbn [fst snd] in Ks.
    assert (M : exists ks', mapM (pass_down b gfi gfl down) ks = Ok ks' /\ Forall (fun k => Forall (known b) (allocs k)) ks').
    { clear E. induction IH as [|k ks Hk IH IH2]; cbn [mapM]; [exists []; split; auto; constructor|]. inversion Kk; subst.
      destruct (Hk gfi gfl down H1) as [k' [E1 E2]]; [intros; apply Ks; auto|]. destruct IH2 as [ks' [E3 E4]]; auto.
      rewrite E1, E3. cbn [bind]. eexists. split; [reflexivity|]. constructor; auto. }
    destruct M as [ks' [M1 M2]]. rewrite M1. cbn [bind]. eexists. split; [reflexivity|]. rewrite allocs_eq. constructor; [|apply Forall_flat_map; auto].
    unfold known in *. cbn. intros x [H|[H|[H|[H|[H|H]]]]]; try (apply Ka; tauto); apply Ks; auto.
  Qed.

  Lemma samplers_total : forall (b : bn w) t, coherent b -> Forall (known b) (allocs t) -> exists t', define_samplers b t = Ok t'.
  Proof.
    intros b t C. induction t as [a sh ks IH] using stree_ind'. intros K. rewrite define_samplers_eq.
    rewrite allocs_eq in K. apply Forall_cons_iff' in K. destruct K as [Ka Kk]. apply Forall_flat_map in Kk.
    assert (S : exists a', samplers_one b a = Ok a').
    { unfold samplers_one. cbv zeta.
      match goal with |- context[foldM ?f ?l ?s] => destruct (foldM_total _ _ f (fun _ => True) l s) as [q [E _]]; auto end.
      { intros s x _ Hx. apply union_In in Hx. assert (Nx : node b x) by (apply Ka; tauto).
        unfold blueprint_of. destruct (node_holds b x Nx) as [l Hl]. apply bget_holds in Hl. rewrite Hl. cbn [bind]. cbv zeta.
        destruct (forallb _ _); [eexists; split; [reflexivity|auto]|].
        match goal with |- context[minimal_requirements _ x ?af] => destruct (minimal_requirements_spec (dag b) x af (co_wf _ C) (co_acyclic _ C)) as [rq [Er [[_ I] _]]]; [apply node_gnodes; auto|] end.
        rewrite Er. cbn [bind].
        match goal with |- context[filterM ?f rq] => destruct (filterM_total _ f rq) as [tr Et] end.
        { intros y Hy. destruct (mem y _); eauto. destruct (exogenous_ok b y) as [ly [_ Ey]]; [|rewrite Ey; eauto].
          apply I in Hy. apply node_gnodes. eapply path_src; [apply C|apply Hy]. }
        rewrite Et. cbn [bind]. eexists. split; [reflexivity|auto]. }
      rewrite E. cbn [bind]. eauto. }
    destruct S as [a' Ea]. rewrite Ea. cbn [bind].
    assert (M : exists ks', mapM (define_samplers b) ks = Ok ks').
    { clear Ka Ea. induction IH as [|k ks Hk IH IH2]; cbn [mapM]; [eauto|]. inversion Kk; subst. destruct (Hk H1) as [k' E1]. destruct IH2 as [ks' E2]; auto.
      rewrite E1, E2. cbn [bind]. eauto. }
    destruct M as [ks' M1]. rewrite M1. cbn [bind]. eauto.
  Qed.
End Inject.
