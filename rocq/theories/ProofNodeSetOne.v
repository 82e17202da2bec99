(** * Node sets without children: everything floating, everything fixed *)

Require Import Verif.Base Verif.World Verif.ModelGraph Verif.ModelExpr Verif.ModelLoci Verif.ModelBN Verif.ModelSample Verif.ModelSim
        Verif.ModelNodeSet Verif.Spec Verif.SpecBN Verif.SpecSim Verif.SpecNodeSet Verif.ProofBase Verif.ProofGraph Verif.ProofBN Verif.ProofBNViews
        Verif.ProofBNHist Verif.ProofNodeSet Verif.ProofNodeSetInj Verif.ProofNodeSetMain.

Section One.
  Context {w : world}.

  (** ** Leaves *)

  Lemma path_dec' : forall g x y, wf g -> acyclic g -> path g x y \/ ~ path g x y.
  Proof.
    intros g x y W A. destruct (In_dec_name y (gnodes g)) as [Hy|Hy].
    - destruct (ancestors_spec g y W Hy) as [l [E _]]. destruct (ancestors_ok g y l W A E) as [_ [_ I]]. rewrite <- I. apply In_dec_name.
    - right. intros H. apply Hy. eapply path_dst; eauto.
  Qed.

  Lemma leaf_below : forall g x, wf g -> acyclic g -> In x (gnodes g) -> In x (leaves g) \/ exists y, In y (leaves g) /\ path g x y.
  Proof.
    intros g x W A. destruct (order_total g W A) as [od Ho]. destruct (order_topo g od W Ho) as [[D I] T].
    intros Hx. apply I in Hx. destruct (in_split _ _ Hx) as [l1 [l2 E]].
    remember (length l2) as n eqn:En. revert x l1 l2 Hx E En. induction n as [n IH] using lt_wf_ind. intros x l1 l2 Hx E En.
    destruct (succs g x) as [|y l] eqn:Es.
    - left. unfold leaves. apply filter_In. split; [apply I; auto|]. rewrite Es. auto.
    - right. assert (He : edge g x y) by (apply succs_In; rewrite Es; left; auto).
      assert (Hy : In y od) by (apply I; eapply wf_dst; eauto).
      pose proof (T x y He Hx Hy) as Bf. rewrite E in Bf. apply before_app in Bf. rewrite E in D. apply NoDup_app_elim in D. destruct D as [D1 [D2 D3]].
      assert (Y2 : In y l2).
      { destruct Bf as [Bf|[Bf|[Bf _]]].
        - apply before_In in Bf. exfalso. apply (D3 x); [tauto|left; auto].
        - apply before_cons in Bf. destruct Bf as [[_ Q]|Q]; auto. apply before_In in Q. tauto.
        - exfalso. apply (D3 x Bf). left; auto. }
      destruct (in_split _ _ Y2) as [m1 [m2 E2]].
      assert (Q : In y (leaves g) \/ exists z, In z (leaves g) /\ path g y z).
      { apply (IH (length m2)) with (l1 := l1 ++ x :: m1) (l2 := m2); auto.
        - subst. rewrite app_length. cbn. lia.
        - subst. rewrite <- app_assoc. cbn. auto. }
      destruct Q as [Q|[z [Z1 Z2]]]; [exists y; split; auto; constructor; auto|]. exists z. split; auto. eapply path_step; eauto.
  Qed.

  Lemma first_such : forall (P : name -> Prop) l, (forall x, P x \/ ~ P x) -> (exists x, In x l /\ P x) ->
    exists l1 n l2, l = l1 ++ n :: l2 /\ P n /\ forall c, In c l1 -> ~ P c.
  Proof.
    intros P l Dc. induction l as [|a l IH]; intros [x [Hx Px]]; [destruct Hx|].
    destruct (Dc a) as [Pa|Pa]; [exists [], a, l; splits; auto; intros c []|].
    destruct IH as (l1 & n & l2 & E & Pn & Hc); [destruct Hx as [-> |Hx]; [tauto|eauto]|].
    exists (a :: l1), n, l2. subst. splits; auto. intros c [<-|Hc']; auto.
  Qed.

  Lemma deterministic_up : forall (b : bn w) x n, deterministic b n -> path (dag b) x n -> deterministic b x.
  Proof. intros b x n [D1 D2] P. split; [apply D2; auto|]. intros a Ha. apply D2. eapply path_trans; eauto. Qed.

  (** ** The loops of the first phase without fixed nodes *)

  Definition all_det (b : bn w) (s : state) : Prop := forall x, In x (s_fx s) \/ In x (s_al s) -> deterministic b x.
  Definition covers (L : list name) (s : state) : Prop := forall x, In x L -> In x (s_flo s) \/ In x (s_fx s).

  Lemma med_det : forall (b : bn w) s d s' L, coherent b -> all_det b s -> covers L s -> med_step b s d = Ok s' ->
    all_det b s' /\ covers (d :: L) s' /\ forall x, In x (s_flo s') -> In x (s_flo s) \/ x = d.
  Proof.
    intros b [[flo fx] al] d s' L C A Cv E. unfold med_step in E. destruct (has_randomness b d al) as [r|] eqn:Er; cbn [bind] in E; [|discriminate].
    pose proof (hr_node _ _ _ _ Er) as Nd. destruct (hr_spec b d al C Nd) as [r' [Er' [_ H2]]]. rewrite Er in Er'. inversion Er'; subst r'.
    unfold all_det, covers, s_flo, s_fx, s_al in *. cbn [fst snd] in *. inversion E; subst. destruct r; cbn [fst snd]; splits.
    - auto.
    - intros x [<-|Hx]; rewrite sadd_In; auto. destruct (Cv x Hx); auto.
    - intros x. rewrite sadd_In. tauto.
    - intros x. rewrite !sadd_In. intros [[-> |Hx]|[-> |Hx]]; auto.
    - intros x [<-|Hx]; rewrite sadd_In; auto. destruct (Cv x Hx); auto.
    - auto.
  Qed.
  Lemma med_loop : forall (b : bn w) l s s' L, coherent b -> all_det b s -> covers L s -> foldM (med_step b) l s = Ok s' ->
    all_det b s' /\ covers (L ++ l) s' /\ forall x, In x (s_flo s') -> In x (s_flo s) \/ In x l.
  Proof.
    intros b l. induction l as [|d l IH]; intros s s' L C A Cv E; cbn [foldM] in E.
    - inversion E; subst. rewrite app_nil_r. splits; auto.
    - destruct (med_step b s d) as [s1|] eqn:E1; cbn [bind] in E; [|discriminate].
      destruct (med_det b s d s1 L C A Cv E1) as (A1 & C1 & F1). destruct (IH s1 s' (d :: L) C A1 C1 E) as (A2 & C2 & F2). splits; auto.
      + intros x Hx. apply C2. apply in_app_or in Hx. apply in_or_app. cbn. cbn in Hx. tauto.
      + intros x Hx. apply F2 in Hx. destruct Hx as [Hx|Hx]; cbn; auto. apply F1 in Hx. destruct Hx; auto.
  Qed.
  Lemma flo_loop : forall (b : bn w) l s s' L, coherent b -> all_det b s -> covers L s -> foldM (flo_step b) l s = Ok s' ->
    all_det b s' /\ covers L s' /\ forall x, In x (s_flo s') -> In x (s_flo s) /\ (In x l -> ~ deterministic b x).
  Proof.
    intros b l. induction l as [|d l IH]; intros s s' L C A Cv E; cbn [foldM] in E.
    - inversion E; subst. splits; auto.
    - destruct (flo_step b s d) as [s1|] eqn:E1; cbn [bind] in E; [|discriminate].
      assert (G : all_det b s1 /\ covers L s1 /\ forall x, In x (s_flo s1) -> In x (s_flo s) /\ (x = d -> ~ deterministic b x)).
      { destruct s as [[flo fx] al]. unfold flo_step in E1. destruct (has_randomness b d al) as [r|] eqn:Er; cbn [bind] in E1; [|discriminate].
        pose proof (hr_node _ _ _ _ Er) as Nd. destruct (hr_spec b d al C Nd) as [r' [Er' [H1 H2]]]. rewrite Er in Er'. inversion Er'; subst r'.
        unfold all_det, covers, s_flo, s_fx, s_al in *. cbn [fst snd] in *. inversion E1; subst. destruct r; cbn [fst snd]; splits.
        - auto.
        - auto.
        - intros x Hx. split; auto. intros ->. auto.
        - intros x. rewrite !sadd_In. intros [[-> |Hx]|[-> |Hx]]; auto.
        - intros x Hx. rewrite sadd_In. destruct (String.eqb x d) eqn:Q; [apply String.eqb_eq in Q; auto|]. destruct (Cv x Hx); auto.
          left. apply diff_In. split; auto. intros [<-|[]]. rewrite String.eqb_refl in Q. discriminate.
        - intros x Hx. apply diff_In in Hx. split; [tauto|]. intros ->. exfalso. apply Hx. left; auto. }
      destruct G as (A1 & C1 & F1). destruct (IH s1 s' L C A1 C1 E) as (A2 & C2 & F2). splits; auto.
      intros x Hx. apply F2 in Hx. destruct Hx as [Hx Hl]. apply F1 in Hx. destruct Hx as [Hx Hd]. split; auto. intros [<-|Q]; auto.
  Qed.
  Lemma root_loop : forall (b : bn w) l s s' L, coherent b -> all_det b s -> covers L s -> foldM (root_step b) l s = Ok s' ->
    all_det b s' /\ covers L s' /\ s_flo s' = s_flo s /\ (forall x, In x (s_fx s) -> In x (s_fx s')) /\ forall x, In x l -> deterministic b x -> In x (s_fx s').
  Proof.
    intros b l. induction l as [|d l IH]; intros s s' L C A Cv E; cbn [foldM] in E.
    - inversion E; subst. splits; auto. intros x [].
    - destruct (root_step b s d) as [s1|] eqn:E1; cbn [bind] in E; [|discriminate].
      assert (G : all_det b s1 /\ covers L s1 /\ s_flo s1 = s_flo s /\ (forall x, In x (s_fx s) -> In x (s_fx s1)) /\ (deterministic b d -> In d (s_fx s1))).
      { destruct s as [[flo fx] al]. unfold root_step in E1. destruct (has_randomness b d []) as [r|] eqn:Er; cbn [bind] in E1; [|discriminate].
        pose proof (hr_node _ _ _ _ Er) as Nd. destruct (hr_spec b d [] C Nd) as [r' [Er' [H1 H2]]]. rewrite Er in Er'. inversion Er'; subst r'.
        unfold all_det, covers, s_flo, s_fx, s_al in *. cbn [fst snd] in *. inversion E1; subst. destruct r; cbn [fst snd]; splits; auto.
        - intros Q. destruct (H1 eq_refl Q).
        - assert (Dd : deterministic b d) by (apply H2; auto; intros x []). intros x. rewrite !sadd_In. intros [[-> |Hx]|[-> |Hx]]; auto.
        - intros x Hx. rewrite sadd_In. destruct (Cv x Hx); auto.
        - intros x Hx. rewrite sadd_In. auto.
        - intros _. rewrite sadd_In. auto. }
      destruct G as (A1 & C1 & F1 & M1 & R1). destruct (IH s1 s' L C A1 C1 E) as (A2 & C2 & F2 & M2 & R2). splits; auto; [congruence|].
      intros x [<-|Hx]; auto.
  Qed.

  (** the node set after the first phase *)
  Lemma local_float : forall (b : bn w) nm aflo a al, coherent b -> fresh b -> (forall x, In x aflo -> node b x) ->
    local_one b true nm [] [] aflo = Ok (a, al) ->
    (forall x, In x (a_fixed a) \/ In x (a_exo a) -> deterministic b x)
    /\ (forall x, In x (a_float a) -> ~ deterministic b x)
    /\ (forall x, In x (a_float a) -> ~ In x (a_listen a))
    /\ (incl (leaves (dag b)) aflo -> (forall n l, holds b n l -> is_pseudo_l l = false) -> forall x, node b x -> In x (a_fixed a) \/ In x (a_float a) \/ In x (a_exo a)
          \/ In x (a_listen a) /\ is_exogenous b x = Ok false).
  Proof.
    intros b nm aflo a al C F K E. destruct (local_one_split _ _ _ _ _ _ _ _ E) as (m & mini & med & s1 & sf & s2 & s3 & le & E1 & E2 & E3 & E4 & E5 & E6 & E7 & E8 & -> & ->).
    cbn [a_fixed a_exo a_float a_listen].
    destruct (mini_spec b _ m C E1) as [mini' [E2' [Dm Im]]]. rewrite E2 in E2'. inversion E2'; subst mini'.
    assert (Km : forall x, In x mini -> node b x) by (intros x Hx; apply Im in Hx; tauto).
    assert (Am : forall x, In x aflo -> In x mini) by (intros x Hx; apply Im; split; auto; left; apply union_In; auto).
    destruct (sort_spec (dag b) (diff (diff mini []) aflo) (co_wf _ C) (co_acyclic _ C)) as [med' [E3' [[_ Id] _]]]. rewrite E3 in E3'. inversion E3'; subst med'.
    assert (A0 : all_det b (to_set aflo, to_set [], union [] [])) by (intros x [[]|[]]).
    assert (C0 : covers aflo (to_set aflo, to_set [], union [] [])) by (intros x Hx; left; apply to_set_In; auto).
    destruct (med_loop b med _ s1 aflo C A0 C0 E4) as (A1 & C1 & F1).
    assert (C1' : covers mini s1).
    { intros x Hx. apply C1, in_or_app. destruct (In_dec_name x aflo); auto. right. apply Id. split; [apply diff_In; split; [apply diff_In; split; [exact Hx|intros []]|auto]|apply node_gnodes, Km; exact Hx]. }
    assert (M1 : forall x, In x (s_flo s1) -> In x mini).
    { intros x Hx. apply F1 in Hx. destruct Hx as [Hx|Hx]; [apply Am, to_set_In; auto|]. apply Id in Hx. destruct Hx as [Hx _]. apply diff_In in Hx. destruct Hx as [Hx _]. apply diff_In in Hx. tauto. }
    destruct (bn_sort_ok b (fst (fst s1)) C F) as [sf' [E5' [_ Sf]]]. rewrite E5 in E5'. inversion E5'; subst sf'.
    destruct (flo_loop b sf s1 s2 mini C A1 C1' E6) as (A2 & C2 & F2).
    destruct (fresh_views b F) as (_ & R & _). rewrite R in E7. cbn [bind] in E7.
    destruct (root_loop b _ s2 s3 mini C A2 C2 E7) as (A3 & C3 & F3 & _ & R3).
    destruct (reqs_spec b (s_flo s3) mini [] ([], []) C Km) as [le' [E8' [L1 L2]]]. rewrite E8 in E8'. inversion E8'; subst le'.
    assert (Fl : forall x, In x (s_flo s3) -> In x mini /\ ~ deterministic b x).
    { intros x Hx. rewrite F3 in Hx. apply F2 in Hx. destruct Hx as [Hx Hd]. split; auto. apply Hd, Sf. split; auto. }
    splits.
    - intros x [Hx|Hx]; [apply A3; auto|]. apply diff_In in Hx. destruct Hx as [Hx _]. apply L2 in Hx.
      destruct Hx as [[]|(l1 & n & l2 & Q & Nf & P & _)]. eapply deterministic_up; [|exact P].
      assert (Hn : In n mini) by (rewrite Q; apply in_or_app; right; left; auto).
      destruct (C3 n Hn) as [H|H]; [tauto|]. apply A3; auto.
    - intros x Hx. apply Fl; auto.
    - intros x Hx Hl. apply diff_In in Hl. apply Fl in Hx. tauto.
    - intros Lv Np x Nx. destruct (In_dec_name x mini) as [Hm|Hm]; [destruct (C3 x Hm); auto|].
      destruct (leaf_below (dag b) x (co_wf _ C) (co_acyclic _ C)) as [Lx|[y [Ly Py]]]; [apply node_gnodes; auto|exfalso; apply Hm, Am, Lv; auto|].
      destruct (first_such (fun n => path (dag b) x n) mini) as (l1 & n & l2 & Q & Pn & Hc).
      { intros z. apply path_dec'; apply C. }
      { exists y. split; auto. }
      assert (Nc : ~ exists c, In c ([] ++ l1) /\ path (dag b) c n /\ path (dag b) x c).
      { intros [c [Q1 [_ Q2]]]. apply (Hc c); auto. }
      destruct (In_dec_name n (s_flo s3)) as [Hf|Hf].
      + assert (Hl : In x (fst le)) by (apply L1; right; exists l1, n, l2; splits; auto).
        destruct (exogenous_ok b x Nx) as [l [Hl1 Hl2]]. pose proof (Np x l Hl1) as Ps.
        destruct (is_exo_l l) eqn:Ex.
        * left. apply R3.
          -- apply (roots_spec _ (co_wf _ C)). split; [apply node_gnodes; auto|]. intros p Hp. apply (co_parents _ C _ _ Hl1) in Hp. destruct l; cbn in Ex, Hp; try discriminate. destruct Hp.
          -- split.
             ++ intros [l' [H1 H2]]. rewrite (holds_fun _ _ _ _ Hl1 H1) in *. destruct l'; discriminate.
             ++ intros p Hp. exfalso. apply path_last in Hp. assert (He : exists q, edge (dag b) q x) by (destruct Hp as [Hp|[q [_ Hp]]]; eauto).
                destruct He as [q He]. apply (co_parents _ C _ _ Hl1) in He. destruct l; cbn in Ex, He; try discriminate. destruct He.
        * right. right. right. split; [apply diff_In; auto|]. rewrite Hl2, Ps. auto.
      + assert (Hl : In x (snd le)) by (apply L2; right; exists l1, n, l2; splits; auto).
        destruct (In_dec_name x (s_fx s3)) as [Hx|Hx]; auto. right. right. left. apply diff_In. auto.
  Qed.

  Lemma hr_fold : forall (b : bn w) given cand flo fx q,
    foldM (fun s d => do r <- has_randomness b d given; Ok (if r : bool then (sadd d (fst s), snd s) else (fst s, sadd d (snd s)))) cand (flo, fx) = Ok q ->
    (forall x, In x (fst q) <-> In x flo \/ In x cand /\ has_randomness b x given = Ok true)
    /\ (forall x, In x (snd q) <-> In x fx \/ In x cand /\ has_randomness b x given = Ok false).
  Proof.
    intros b given cand. induction cand as [|d cand IH]; intros flo fx q E; cbn [foldM] in E; [inversion E; subst; cbn; split; intros x; tauto|].
    destruct (has_randomness b d given) as [r|] eqn:Er; cbn [bind fst snd] in E; [|discriminate].
    destruct r; apply IH in E; destruct E as [E1 E2]; split; intros x; [rewrite E1|rewrite E2|rewrite E1|rewrite E2]; rewrite ?sadd_In; cbn; split; intuition (subst; auto; congruence).
  Qed.

  (** the second phase for a root *)
  Lemma relate_root : forall (b : bn w) a a' hs, relate_one b true [] a = Ok (a', hs) ->
    exists given, (forall x, In x (a_fixed a') <-> In x (a_fixed a) \/ In x (a_exo a) \/ (In x (a_listen a) /\ is_exogenous b x = Ok false /\ has_randomness b x given = Ok false))
      /\ (forall x, In x (a_float a') <-> In x (a_float a) \/ (In x (a_listen a) /\ is_exogenous b x = Ok false /\ has_randomness b x given = Ok true))
      /\ (forall x, In x (a_listen a) -> is_exogenous b x = Ok false -> exists r, has_randomness b x given = Ok r)
      /\ (forall x, In x given -> In x (a_fixed a) \/ In x (a_exo a)).
  Proof.
    intros b a a' hs E. unfold relate_one in E. cbv zeta in E. set (tsh := diff (a_exo a) []) in *.
    destruct (filterM (fun d => do r0 <- has_randomness b d []; Ok (negb r0)) tsh) as [th|e] eqn:Eh; cbn [bind] in E; [|discriminate].
    pose proof (filterM_ok _ _ _ _ Eh) as Hh. set (fx := union (union (a_fixed a) (diff tsh th)) th) in *.
    set (given := union (union fx (diff (diff (a_exo a) (diff tsh th)) th)) []) in *.
    destruct (filterM (fun d => do e <- is_exogenous b d; Ok (negb e)) (diff (a_listen a) [])) as [cand|e] eqn:Ec; cbn [bind] in E; [|discriminate].
    pose proof (filterM_ok _ _ _ _ Ec) as Hc.
    match type of E with context[foldM ?f cand ?s] => destruct (foldM f cand s) as [q|e] eqn:Ef; cbn [bind] in E; [|discriminate] end.
    inversion E; subst. clear E. exists given.
    assert (Hc' : forall x, In x cand <-> In x (a_listen a) /\ is_exogenous b x = Ok false).
    { intros x. rewrite Hc, diff_In. destruct (is_exogenous b x) as [[|]|]; cbn; split; intuition (auto; try congruence; discriminate). }
    destruct (hr_fold _ _ _ _ _ _ Ef) as [Q1 Q2]. cbn. splits.
    - intros x. rewrite Q2, Hc'. unfold fx. rewrite !union_In, diff_In. unfold tsh at 1. rewrite diff_In.
      assert (T : In x th -> In x (a_exo a)) by (intros H; apply Hh in H; destruct H as [H _]; apply diff_In in H; tauto).
      destruct (In_dec_name x th); simpl; tauto.
    - intros x. rewrite Q1, Hc'. tauto.
    - intros x H1 H2. assert (Hx : In x cand) by (apply Hc'; auto). clear - Ef Hx. revert Ef Hx. generalize (a_float a, fx) as s. induction cand as [|d cand IH]; intros s Ef Hx; [destruct Hx|].
      cbn [foldM] in Ef. destruct (has_randomness b d given) as [r|] eqn:Er; cbn [bind] in Ef; [|discriminate]. destruct Hx as [<-|Hx]; eauto.
    - intros x. unfold given, fx, tsh. rewrite !union_In, !diff_In.
      assert (T : In x th -> In x (a_exo a)) by (intros H; apply Hh in H; destruct H as [H _]; apply diff_In in H; tauto). tauto.
  Qed.

  Lemma down_disjoint : forall (b : bn w) gfi gfl ns s s', NoDup ns -> (forall x, In x ns -> ~ In x (fst (fst s)) /\ ~ In x (snd (fst s))) ->
    (forall x, In x (fst (fst s)) -> ~ In x (snd (fst s))) -> foldM (down_step b gfi gfl) ns s = Ok s' ->
    forall x, In x (fst (fst s')) -> ~ In x (snd (fst s')).
  Proof.
    intros b gfi gfl ns. induction ns as [|n ns IH]; intros s s' D N I E; cbn [foldM] in E; [inversion E; subst; auto|].
    destruct (down_step b gfi gfl s n) as [s1|] eqn:E1; cbn [bind] in E; [|discriminate]. inversion D; subst.
    destruct (N n (or_introl eq_refl)) as [N1 N2].
    assert (St : (forall x, In x (fst (fst s1)) -> In x (fst (fst s)) \/ x = n) /\ (forall x, In x (snd (fst s1)) -> In x (snd (fst s)) \/ x = n)
      /\ ~ (In n (fst (fst s1)) /\ In n (snd (fst s1)))).
    { destruct s as [[fx flo] down]. unfold down_step in E1. cbn [fst snd] in *. destruct (bget b n) as [l|]; cbn [bind] in E1; [|discriminate].
      destruct (forallb (fun p => mem p gfi) (loci_parents l)); [destruct (is_rv b n) as [[|]|]|destruct (forallb (fun p => mem p gfl) (loci_parents l))];
        inversion E1; subst; cbn [fst snd]; splits; try (intros x Hx; rewrite ?sadd_In in Hx; tauto); try (rewrite ?sadd_In; tauto). }
    destruct St as (S1 & S2 & S3). eapply (IH s1 s'); auto.
    - intros x Hx. assert (x <> n) by (intros ->; auto). destruct (N x (or_intror Hx)) as [Nx1 Nx2]. split; intros Q; [apply S1 in Q|apply S2 in Q]; tauto.
    - intros x Hx Hy. destruct (S1 x Hx) as [Q1| ->]; [|tauto]. destruct (S2 x Hy) as [Q2| ->]; [|tauto]. apply (I x); auto.
  Qed.

  (** a single node set without nodes asked to be fixed *)
  Lemma float_partition : forall (b : bn w) nm aflo s, coherent b -> fresh b -> inject b (NSet nm [] aflo []) = Ok s ->
    (forall x, In x (a_fixed (s_alloc s)) -> ~ In x (a_float (s_alloc s)))
    /\ (incl (leaves (dag b)) aflo -> (forall n l, holds b n l -> is_pseudo_l l = false) -> forall x, node b x -> In x (a_fixed (s_alloc s)) \/ In x (a_float (s_alloc s)))
    /\ (forall x, In x (a_fixed (s_alloc s)) -> ~ random b x).
  Proof.
    intros b nm aflo s C F E. assert (V : valid_request b (NSet nm [] aflo [])) by (apply inject_iff; eauto).
    assert (K : forall x, In x aflo -> node b x) by (intros x Hx; apply (V nm [] aflo (ask_here _ _ _ _)); auto).
    destruct (inject_known b _ s C F E) as (t1 & t2 & was & hs & t3 & t4 & E1 & E2 & E3 & E4 & E5 & K1 & K2 & K3 & K4).
    rewrite resolve_local_eq in E1. destruct (local_one b true nm [] [] aflo) as [[a al]|] eqn:El; cbn [bind mapM fst snd] in E1; [|discriminate]. inversion E1; subst. clear E1.
    destruct (local_float b nm aflo a al C F K El) as (D1 & D2 & D3 & D4).
    rewrite raise_up_eq in E2. cbn [map fold_left] in E2. rewrite relate_eq in E2.
    destruct (relate_one b true [] (set_will a [])) as [[a1 h1]|] eqn:Er; cbn [bind relate_kids fst snd] in E2; [|discriminate]. inversion E2; subst. clear E2.
    destruct (relate_root _ _ _ _ Er) as (given & R1 & R2 & R3 & R4). cbn in R1, R2, R3, R4.
    assert (X : forall x, In x (a_fixed a1) -> ~ In x (a_float a1)).
    { intros x Hx Hy. apply R1 in Hx. apply R2 in Hy. destruct Hy as [Hy|(Hy & _ & Hr)].
      - destruct Hx as [Hx|[Hx|(Hx & _)]]; [apply (D2 x Hy), D1; auto|apply (D2 x Hy), D1; auto|apply (D3 x Hy Hx)].
      - assert (Nd : ~ deterministic b x).
        { pose proof (hr_node _ _ _ _ Hr) as Nx. destruct (hr_spec b x given C Nx) as [r [Er' [Q _]]]. rewrite Hr in Er'. inversion Er'; subst. auto. }
        destruct Hx as [Hx|[Hx|(_ & _ & Hx)]]; [apply Nd, D1; auto|apply Nd, D1; auto|congruence]. }
    assert (Y : incl (leaves (dag b)) aflo -> (forall n l, holds b n l -> is_pseudo_l l = false) -> forall x, node b x -> In x (a_fixed a1) \/ In x (a_float a1)).
    { intros Lv Np x Nx. rewrite R1, R2. destruct (D4 Lv Np x Nx) as [H|[H|[H|[H1 H2]]]]; auto. destruct (R3 x H1 H2) as [[|] Q]; auto 10. }
    assert (W : forall x, In x (a_fixed a1) -> deterministic b x).
    { intros x Hx. apply R1 in Hx. destruct Hx as [Hx|[Hx|(_ & _ & Hr)]]; [apply D1; auto|apply D1; auto|].
      pose proof (hr_node _ _ _ _ Hr) as Nx. destruct (hr_spec b x given C Nx) as [r [Er' [_ Q]]]. rewrite Hr in Er'. inversion Er'; subst. apply Q; auto. }
    unfold locate_undefined in E3. destruct (Order_ok b C F) as [od [Eo [[Do Io] _]]]. rewrite Eo in E3. cbn [bind] in E3. rewrite pass_down_eq in E3. cbv zeta in E3.
    match type of E3 with context[foldM ?f ?ns ?s0] => destruct (foldM f ns s0) as [[[fx flo] down]|] eqn:Ef; cbn [bind mapM] in E3; [|discriminate] end.
    inversion E3; subst. clear E3.
    assert (W3 : forall x, In x fx -> ~ random b x).
    { refine (foldM_inv _ _ _ (fun s => forall x, In x (fst (fst s)) -> ~ random b x) _ _ _ _ _ Ef); [|cbn; intros x Hx; apply W; auto].
      clear. intros [[f0 fl0] d0] n s' I _ Es. unfold down_step in Es. cbn [fst snd] in *. destruct (bget b n) as [l|] eqn:El; cbn [bind] in Es; [|discriminate].
      destruct (forallb (fun p => mem p _) (loci_parents l)).
      - unfold is_rv in Es. rewrite El in Es. cbn [bind] in Es. destruct (is_rv_l l) eqn:Er; inversion Es; subst; cbn [fst snd]; auto.
        intros x Hx. apply sadd_In in Hx. destruct Hx as [-> |Hx]; auto. intros [l' [H1 H2]]. apply bget_holds in El. rewrite (holds_fun _ _ _ _ H1 El) in H2. congruence.
      - destruct (forallb _ _); inversion Es; subst; cbn [fst snd]; auto. }
    assert (X3 : forall x, In x fx -> ~ In x flo).
    { refine (down_disjoint b _ _ _ _ _ _ _ _ Ef); [| |cbn; exact X].
      - apply NoDup_filter. auto.
      - cbn. intros x Hx. apply diff_In in Hx. destruct Hx as [_ Hx]. split; intros Q; apply Hx; apply union_In; auto. }
    assert (Y3 : incl (a_fixed a1) fx /\ incl (a_float a1) flo).
    { apply (foldM_inv _ _ _ (fun s => incl (a_fixed a1) (fst (fst s)) /\ incl (a_float a1) (snd (fst s)))) in Ef; auto; [|cbn; split; apply incl_refl].
      intros s0 x s' [I1 I2] Hx Es. apply down_step_ok in Es. destruct Es as (_ & Q1 & Q2 & _). split; eapply incl_tran; eauto. }
    rewrite define_samplers_eq in E4. cbn [mapM] in E4. destruct (samplers_one b _) as [a4|] eqn:Es; cbn [bind] in E4; [|discriminate]. inversion E4; subst. clear E4.
    apply (samplers_one_ok b _ _ C) in Es. destruct Es as [(l & s0 & -> & _) _].
    rewrite sort_fixed_eq in E5. cbn [a_fixed set_samplers set_nodes set_relation mapM] in E5. destruct (bn_sort_ok b fx C F) as [fx' [Eb [_ Sb]]]. rewrite Eb in E5. cbn [bind] in E5. inversion E5; subst.
    cbn. split; [|split].
    - intros x Hx. apply X3. apply Sb in Hx. tauto.
    - intros Lv Np x Nx. destruct (Y Lv Np x Nx) as [Q|Q]; [left; apply Sb; split; auto; apply Y3; auto|right; apply Y3; auto].
    - intros x Hx. apply W3. apply Sb in Hx. tauto.
  Qed.

  (** ** Everything fixed *)
  Lemma nil_of : forall (A : Type) (l : list A), (forall x, ~ In x l) -> l = [].
  Proof. intros A [|x l] H; auto. exfalso. apply (H x). left; auto. Qed.

  Lemma all_fixed_inject : forall (b : bn w) od, coherent b -> fresh b -> Order b = Ok od ->
    exists s, inject b (NSet "Root" od [] []) = Ok s /\ s_kids s = [] /\ a_name (s_alloc s) = "Root" /\ a_fixed (s_alloc s) = od /\ a_float (s_alloc s) = []
      /\ a_exo (s_alloc s) = [] /\ a_local (s_alloc s) = [] /\ a_shared (s_alloc s) = [].
  Proof.
    intros b od C F Eo. destruct (Order_ok b C F) as [od' [Eo' [[Do Io] _]]]. rewrite Eo in Eo'. inversion Eo'; subst od'.
    destruct (inject_total b (NSet "Root" od [] []) C F) as [s E].
    { intros nm fx fl A. inversion A as [|? ? ? ? k ? ? ? Hk ?]; subst; [|destruct Hk]. split; [intros x [Hx|[]]; apply Io; auto|intros x y []]. }
    exists s. split; auto. destruct (inject_known b _ s C F E) as (t1 & t2 & was & hs & t3 & t4 & E1 & E2 & E3 & E4 & E5 & K1 & K2 & K3 & K4).
    rewrite resolve_local_eq in E1. destruct (local_one b true "Root" [] od []) as [[a al]|] eqn:El; cbn [bind mapM fst snd] in E1; [|discriminate]. inversion E1; subst. clear E1.
    pose proof (local_one_ok _ _ _ _ _ _ _ _ El) as (N1 & N2 & N3 & N4 & _).
    assert (L : a_float a = [] /\ a_exo a = [] /\ a_listen a = []).
    { destruct (local_one_split _ _ _ _ _ _ _ _ El) as (m & mini & med & s1 & sf & s2 & s3 & le & G1 & G2 & G3 & G4 & G5 & G6 & G7 & G8 & Ea & Eal).
      destruct (mini_spec b _ m C G1) as [mini' [G2' [Dm Im]]]. rewrite G2 in G2'. inversion G2'; subst mini'.
      destruct (sort_spec (dag b) (diff (diff mini od) []) (co_wf _ C) (co_acyclic _ C)) as [med' [G3' [[_ Id] _]]]. rewrite G3 in G3'. inversion G3'; subst med'.
      assert (med = []) as ->.
      { apply nil_of. intros x Hx. apply Id in Hx. destruct Hx as [Hx _]. apply diff_In in Hx. destruct Hx as [Hx _]. apply diff_In in Hx. destruct Hx as [H1 H2]. apply H2, Io, (proj1 (proj1 (Im x) H1)). }
      cbn [foldM] in G4. inversion G4; subst s1. cbn [fst to_set union fold_left] in G5. destruct (bn_sort_ok b [] C F) as [sf' [G5' [_ Sf]]]. rewrite G5 in G5'. inversion G5'; subst sf'.
      assert (sf = []) as -> by (apply nil_of; intros x Hx; apply Sf in Hx; tauto). cbn [foldM] in G6. inversion G6; subst s2.
      assert (Fl : s_flo s3 = []).
      { apply (root_loop_inv b true (fun s => s_flo s = []) (to_set [], to_set od, union [] od) s3); [|reflexivity|exact G7]. intros rs [[flo fx] al'] d s' _ _ Q Es. unfold root_step in Es.
        destruct (has_randomness b d []) as [[|]|]; cbn [bind] in Es; inversion Es; subst; auto. }
      destruct (reqs_spec b (s_flo s3) mini [] ([], []) C) as [le' [G8' [L1 L2]]]; [intros x Hx; apply Im in Hx; tauto|]. rewrite G8 in G8'. inversion G8'; subst le'.
      rewrite Ea. cbn. splits; auto.
      - apply nil_of. intros x Hx. apply diff_In in Hx. destruct Hx as [Hx Hn]. apply Hn. rewrite Ea in N4. cbn in N4. apply N4, Io. apply L2 in Hx.
        destruct Hx as [[]|(l1 & n & l2 & _ & _ & P & _)]. apply node_gnodes. eapply path_src; [apply C|eauto].
      - apply nil_of. intros x Hx. apply diff_In in Hx. destruct Hx as [Hx _]. apply L1 in Hx. destruct Hx as [[]|(l1 & n & l2 & _ & Hf & _)]. rewrite Fl in Hf. destruct Hf. }
    destruct L as (L1 & L2 & L3).
    rewrite raise_up_eq in E2. cbn [map fold_left] in E2. rewrite relate_eq in E2.
    destruct (relate_one b true [] (set_will a [])) as [[a1 h1]|] eqn:Er; cbn [bind relate_kids fst snd] in E2; [|discriminate]. inversion E2; subst. clear E2.
    pose proof (relate_one_ok _ _ _ _ _ _ Er) as (P1 & P2 & _ & _ & P5 & P6 & _ & _ & P9).
    destruct (relate_root _ _ _ _ Er) as (given & R1 & R2 & R3). cbn in R1, R2, R3, P1, P2, P5, P6, P9.
    assert (X1 : a_float a1 = []) by (apply nil_of; intros x Hx; apply R2 in Hx; rewrite L1, L3 in Hx; destruct Hx as [[]|[[] _]]).
    assert (X2 : a_exo a1 = []) by (apply nil_of; intros x Hx; apply P6 in Hx; rewrite L2 in Hx; destruct Hx as [[] _]).
    unfold locate_undefined in E3. rewrite Eo in E3. cbn [bind] in E3.
    assert (Un : forall sh ks, diff od (claim (STree (set_relation a1 (a_exo a1) (a_listen a1) (a_fixed a1) (a_float a1) []) sh ks)) = []).
    { intros sh ks. apply nil_of. intros x Hx. apply diff_In in Hx. destruct Hx as [H1 H2]. apply H2, claim_eq. left. cbn. apply P2, N4. auto. }
    rewrite Un, pass_down_eq in E3. cbv zeta in E3. cbn [foldM bind mapM] in E3. inversion E3; subst. clear E3.
    rewrite define_samplers_eq in E4. cbn [mapM] in E4. unfold samplers_one in E4. cbn in E4. rewrite X1, P5 in E4. cbn in E4. inversion E4; subst. clear E4.
    rewrite sort_fixed_eq in E5. cbn [mapM] in E5. cbn in E5. unfold bn_sort in E5. rewrite Eo in E5. cbn in E5. inversion E5; subst. clear E5. cbn. splits; auto; [congruence|].
    assert (Q : forall l, (forall x, In x l -> In x (a_fixed a1)) -> filter (fun n => mem n (a_fixed a1)) l = l).
    { induction l as [|x l IH]; intros H; auto. cbn [filter]. rewrite (proj2 (mem_In x (a_fixed a1))); [|apply H; left; auto]. f_equal. apply IH. intros; apply H; right; auto. }
    apply Q. intros x Hx. apply P2, N4. auto.
  Qed.
End One.
