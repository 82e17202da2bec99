(** * The outcome of inject_bn *)

Require Import Verif.Base Verif.World Verif.ModelGraph Verif.ModelExpr Verif.ModelLoci Verif.ModelBN Verif.ModelSample Verif.ModelSim
        Verif.ModelNodeSet Verif.Spec Verif.SpecBN Verif.SpecSim Verif.SpecNodeSet Verif.ProofBase Verif.ProofGraph Verif.ProofBN Verif.ProofBNViews
        Verif.ProofBNHist Verif.ProofNodeSet Verif.ProofNodeSetInj.

Lemma asks_requests : forall t nm fx fl, asks t nm fx fl <-> In (nm, fx, fl) (requests t).
Proof.
  induction t as [n x l ks IH] using nset_ind'. intros nm fx fl. cbn [requests]. rewrite Forall_forall in IH. split.
  - intros H. inversion H; subst; [left; auto|]. right. apply in_flat_map. exists k. split; auto. apply IH; auto.
  - intros [H|H]; [inversion H; subst; constructor|]. apply in_flat_map in H. destruct H as [k [K1 K2]]. eapply ask_below; eauto. apply IH; auto.
Qed.

Section Main.
  Context {w : world}.

  Lemma validate_eq : forall g nm fx fl ks, validate g (NSet nm fx fl ks) =
    do ok <- (fix go l := match l with [] => Ok true | k :: l' => do v <- validate g k; if v then go l' else Ok false end) ks;
    if ok : bool then match fx with [] => Ok true | _ => do anc <- upstream g fx; Ok (forallb (fun d => mem d fx || negb (mem d anc)) fl) end else Ok false.
  Proof. reflexivity. Qed.

  Lemma validate_ok : forall (b : bn w) t, coherent b -> valid_request b t -> validate (dag b) t = Ok true.
  Proof.
    intros b t C. induction t as [nm fx fl ks IH] using nset_ind'. intros V. rewrite validate_eq.
    assert (K : (fix go l := match l with [] => Ok true | k :: l' => do v <- validate (dag b) k; if v then go l' else Ok false end) ks = Ok true).
    { assert (Vk : forall k, In k ks -> valid_request b k) by (intros k Hk n x l A; apply (V n x l); eapply ask_below; eauto).
      clear V. induction IH as [|k ks Hk IH IH2]; auto. rewrite Hk; [|apply Vk; left; auto]. cbn [bind]. apply IH2. intros; apply Vk; right; auto. }
    rewrite K. cbn [bind]. destruct (V nm fx fl (ask_here _ _ _ _)) as [V1 V2]. destruct fx as [|f0 fx]; auto.
    assert (U : incl (f0 :: fx) (gnodes (dag b))) by (intros x Hx; apply node_gnodes, V1; left; auto).
    destruct (upstream_spec (dag b) (f0 :: fx) (co_wf _ C) U) as [anc [E [_ I]]]; [discriminate|].
    rewrite E. cbn [bind]. f_equal. apply forallb_forall. intros x Hx. apply orb_true_iff.
    destruct (In_dec_name x (f0 :: fx)) as [D|D]; [left; apply mem_In; auto|right]. apply negb_true_iff, mem_false. intros Ha.
    apply I in Ha. destruct Ha as [n [N1 [N2 N3]]]. apply (V2 x n); auto.
  Qed.

  Lemma validate_true : forall (b : bn w) t, coherent b -> validate (dag b) t = Ok true -> forall nm fx fl, asks t nm fx fl ->
    (forall x, In x fx -> node b x) /\ forall x y, In x fl -> ~ In x fx -> In y fx -> ~ path (dag b) x y.
  Proof.
    intros b t C. induction t as [nm fx fl ks IH] using nset_ind'. intros V. rewrite validate_eq in V.
    match type of V with bind ?x _ = _ => destruct x as [[|]|] eqn:K; cbn [bind] in V; try discriminate end.
    assert (Vk : forall k, In k ks -> validate (dag b) k = Ok true).
    { clear - K. induction ks as [|k ks IH]; intros k' Hk'; [destruct Hk'|].
      destruct (validate (dag b) k) as [[|]|] eqn:E; cbn [bind] in K; try discriminate. destruct Hk' as [<-|Hk']; auto. }
    intros n x l A. inversion A; subst.
    - destruct x as [|f0 fx]; [split; [intros x []|intros x y _ _ []]|].
      destruct (upstream (dag b) (f0 :: fx)) as [anc|] eqn:E; cbn [bind] in V; [|discriminate]. assert (V' : forallb (fun d => mem d (f0 :: fx) || negb (mem d anc)) l = true) by (injection V; auto).
      assert (N : forall x, In x (f0 :: fx) -> node b x).
      { unfold upstream in E. destruct (mapM (ancestors (dag b)) (f0 :: fx)) as [ls|] eqn:M; cbn [bind] in E; [|discriminate].
        apply mapM_ok in M. intros x Hx. destruct (Forall2_in_l _ _ _ _ _ _ M Hx) as [a [_ Ha]].
        apply node_gnodes. apply (ancestors_ok _ _ _ (co_wf _ C) (co_acyclic _ C) Ha). }
      split; auto. intros x y Hx Nx Hy Hp. rewrite forallb_forall in V'. apply V' in Hx. apply orb_true_iff in Hx. destruct Hx as [Hx|Hx]; [apply mem_In in Hx; auto|].
      apply negb_true_iff, mem_false in Hx. apply Hx.
      assert (U : incl (f0 :: fx) (gnodes (dag b))) by (intros z Hz; apply node_gnodes, N; auto).
      destruct (upstream_spec (dag b) (f0 :: fx) (co_wf _ C) U) as [anc' [E' [_ I]]]; [discriminate|].
      rewrite E in E'. inversion E'; subst. apply I. exists y. splits; auto. intros ->. apply Nx. auto.
    - rewrite Forall_forall in IH. eapply IH; eauto.
  Qed.

  (** after the first phase *)
  Definition answers (b : bn w) (q : name * list name * list name) (a : alloc) : Prop :=
    match q with (nm, fx, fl) =>
      a_name a = nm /\ incl fx (a_fixed a) /\ forall x, In x fl -> In x (a_float a) \/ In x (a_fixed a) /\ node b x
    end.
  Lemma resolve_answers : forall (b : bn w) t r was t', resolve_local b r was t = Ok t' -> Forall2 (answers b) (requests t) (allocs t').
  Proof.
    intros b. induction t as [nm fx fl ks IH] using nset_ind'. intros r was t' E. rewrite resolve_local_eq in E.
    destruct (local_one b r nm was fx fl) as [[a al]|] eqn:E1; cbn [bind fst snd] in E; [|discriminate].
    destruct (mapM _ ks) as [ks'|] eqn:Em; cbn [bind] in E; [|discriminate]. inversion E; subst. clear E. cbn [requests]. rewrite allocs_eq. constructor.
    - apply local_one_ok in E1. unfold answers. intuition.
    - apply Forall2_flat_map. apply mapM_ok in Em. rewrite Forall_forall in IH.
      clear - IH Em. revert IH. induction Em as [|x y xs ys Ex Em IHm]; intros IH; constructor.
      + eapply IH; eauto. left; auto.
      + apply IHm. intros z Hz. apply IH. right; auto.
  Qed.

  Lemma inject_split : forall (b : bn w) t s, inject b t = Ok s ->
    exists t1 t2 was hs t3 t4, validate (dag b) t = Ok true /\ resolve_local b true [] t = Ok t1 /\ relate b true [] (raise_up t1) = Ok (t2, was, hs)
      /\ locate_undefined b t2 = Ok t3 /\ define_samplers b t3 = Ok t4 /\ sort_fixed b t4 = Ok s.
  Proof.
    intros b t s E. unfold inject in E. destruct (validate (dag b) t) as [[|]|]; cbn [bind] in E; try discriminate.
    destruct (resolve_local b true [] t) as [t1|] eqn:E1; cbn [bind] in E; [|discriminate].
    destruct (relate b true [] (raise_up t1)) as [[[t2 was] hs]|] eqn:E2; cbn [bind fst] in E; [|discriminate].
    destruct (locate_undefined b t2) as [t3|] eqn:E3; cbn [bind] in E; [|discriminate].
    destruct (define_samplers b t3) as [t4|] eqn:E4; cbn [bind] in E; [|discriminate].
    exists t1, t2, was, hs, t3, t4. splits; auto.
  Qed.

  (** the result, node set by node set *)
  Definition settled (b : bn w) (q : name * list name * list name) (a : alloc) : Prop :=
    match q with (nm, fx, fl) =>
      a_name a = nm /\ (forall x, In x fx -> node b x -> In x (a_fixed a))
      /\ (forall x, In x fl -> node b x /\ (In x (a_float a) \/ In x (a_fixed a)))
      /\ sorted b (a_fixed a) /\ prints_ok b (a_local a) /\ prints_ok b (a_shared a) /\ (forall x, In x (a_float a) -> node b x)
      /\ same_set (dkeys (a_local a)) (union (a_float a) (a_will a)) /\ same_set (dkeys (a_shared a)) (union (a_float a) (a_will a))
    end.
  Lemma inject_settled : forall (b : bn w) t s, coherent b -> fresh b -> inject b t = Ok s -> Forall2 (settled b) (requests t) (allocs s).
  Proof.
    intros b t s C F E. destruct (inject_split _ _ _ E) as (t1 & t2 & was & hs & t3 & t4 & E0 & E1 & E2 & E3 & E4 & E5).
    apply resolve_answers in E1. pose proof (raise_up_grows t1) as G1. apply relate_grows in E2.
    unfold locate_undefined in E3. destruct (Order b) as [od|]; cbn [bind] in E3; [|discriminate]. apply pass_down_grows in E3.
    apply (define_samplers_ok _ _ _ C) in E4. destruct (sort_fixed_ok b t4 C F) as [s' [E5' E6]]. rewrite E5 in E5'. inversion E5'; subst s'.
    assert (G : Forall2 grows (allocs t1) (allocs t3)).
    { eapply Forall2_trans'; [apply grows_trans| |exact E3]. eapply Forall2_trans'; [apply grows_trans|exact G1|exact E2]. }
    assert (A : Forall2 (answers b) (requests t) (allocs t3)).
    { eapply Forall2_trans'; [|exact E1|exact G]. intros [[nm fx] fl] a c (A1 & A2 & A3) (B1 & B2 & B3). unfold answers. splits; [congruence|eapply incl_tran; eauto|].
      intros x Hx. destruct (A3 x Hx) as [H|[H1 H2]]; auto. }
    assert (S : Forall2 (fun q a => answers b q a /\ prints_ok b (a_local a) /\ prints_ok b (a_shared a) /\ (forall x, In x (a_float a) -> node b x)
         /\ same_set (dkeys (a_local a)) (union (a_float a) (a_will a)) /\ same_set (dkeys (a_shared a)) (union (a_float a) (a_will a))) (requests t) (allocs t4)).
    { eapply Forall2_trans'; [|exact A|exact E4]. intros [[nm fx] fl] a c (A1 & A2 & A3) (l & s0 & -> & P1 & P2 & P3 & P4 & P5). cbn. splits; auto. }
    eapply Forall2_trans'; [|exact S|exact E6]. intros [[nm fx] fl] a c ((A1 & A2 & A3) & P1 & P2 & P3 & P4 & P5) (fx' & -> & S1 & S2). cbn. splits; auto.
    - intros x Hx Nx. apply S2. auto.
    - intros x Hx. destruct (A3 x Hx) as [H|[H1 H2]]; split; auto. right. apply S2; auto.
  Qed.

  Lemma inject_total : forall (b : bn w) t, coherent b -> fresh b -> valid_request b t -> exists s, inject b t = Ok s.
  Proof.
    intros b t C F V. unfold inject. rewrite (validate_ok b t C V). cbn [bind].
    destruct (resolve_total b t true [] C F) as [t1 [E1 K1]]; [intros x []|intros nm fx fl H; apply asks_requests in H; apply (V nm fx fl H)|].
    rewrite E1. cbn [bind]. destruct (relate_total b (raise_up t1) true [] C (raise_known b t1 K1)) as [t2 [wa [hs [E2 [K2 _]]]]]; [intros x []|].
    rewrite E2. cbn [bind fst]. unfold locate_undefined. destruct (Order_ok b C F) as [od [Eo [[_ Io] _]]]. rewrite Eo. cbn [bind].
    destruct (pass_down_total b t2 [] [] (diff od (claim t2)) K2) as [t3 [E3 K3]]; [intros x Hx; apply diff_In in Hx; apply Io; tauto|]. rewrite E3. cbn [bind].
    destruct (samplers_total b t3 C K3) as [t4 E4]. rewrite E4. cbn [bind]. destruct (sort_fixed_ok b t4 C F) as [s [E5 _]]. eauto.
  Qed.

  Lemma inject_iff : forall (b : bn w) t, coherent b -> fresh b -> ((exists s, inject b t = Ok s) <-> valid_request b t).
  Proof.
    intros b t C F. split; [|apply inject_total; auto]. intros [s E] nm fx fl A.
    destruct (inject_split _ _ _ E) as (t1 & t2 & was & hs & t3 & t4 & E0 & _).
    destruct (validate_true b t C E0 _ _ _ A) as [V1 V2]. split; auto. intros x [H|H]; auto.
    apply asks_requests in A. destruct (Forall2_in_l _ _ _ _ _ _ (inject_settled b t s C F E) A) as [a [_ Sa]].
    destruct Sa as (_ & _ & S3 & _). apply S3; auto.
  Qed.

  (** ** Groups *)
  Lemma groups_from_spec : forall t (d : dict group) k g, dget (groups_from t d) k = Some g ->
    dget d k = Some g \/ exists a sh ks, In a (allocs t) /\ g = group_from (STree a sh ks).
  Proof.
    induction t as [a sh ks IH] using stree_ind'. intros d k g H. rewrite groups_from_eq in H. rewrite allocs_eq.
    assert (G : forall l e, Forall (fun t => forall (d : dict group) k g, dget (groups_from t d) k = Some g -> dget d k = Some g \/ exists a sh ks, In a (allocs t) /\ g = group_from (STree a sh ks)) l ->
       dget (fold_left (fun d k => groups_from k d) l e) k = Some g -> dget e k = Some g \/ exists a sh ks, In a (flat_map allocs l) /\ g = group_from (STree a sh ks)).
    { induction l as [|x l IHl]; intros e Hl He; cbn [fold_left] in He; auto. inversion Hl; subst. cbn [flat_map].
      destruct (IHl _ H3 He) as [Q|(a0 & s0 & k0 & Q1 & Q2)].
      - apply H2 in Q. destruct Q as [Q|(a0 & s0 & k0 & Q1 & Q2)]; auto. right. exists a0, s0, k0. split; auto. apply in_or_app; auto.
      - right. exists a0, s0, k0. split; auto. apply in_or_app; auto. }
    destruct (G ks _ IH H) as [Q|(a0 & s0 & k0 & Q1 & Q2)].
    - rewrite dget_dset in Q. destruct (String.eqb _ _); auto. inversion Q; subst. right. exists a, sh, ks. split; [left|]; auto.
    - right. exists a0, s0, k0. split; [right|]; auto.
  Qed.

  (** ** Nodes taken from outside *)

  Lemma exo_fixed_mono : forall t (A B : name -> Prop), (forall x, A x -> B x) -> exo_fixed A t -> exo_fixed B t.
  Proof.
    induction t as [a sh ks IH] using stree_ind'. intros A B H E. inversion E; subst. rewrite Forall_forall in IH. constructor; auto.
    intros k Hk. apply (IH k Hk (fun x => A x \/ In x (a_fixed a))); auto. intros x [Hx|Hx]; auto.
  Qed.

  (** what [resolve_local] leaves for the next phase *)
  Inductive linked : stree -> Prop :=
  | lk : forall a sh ks,
      (forall k, In k ks -> forall x, In x (a_was (s_alloc k)) -> In x (a_fixed a) \/ In x (a_was a)) ->
      (forall k k', In k ks -> In k' ks -> a_was (s_alloc k) = a_was (s_alloc k')) ->
      (forall k, In k ks -> linked k) -> linked (STree a sh ks).

  Lemma resolve_was : forall (b : bn w) t r was t', resolve_local b r was t = Ok t' -> a_was (s_alloc t') = was.
  Proof.
    intros b [nm fx fl ks] r was t' E. rewrite resolve_local_eq in E. destruct (local_one b r nm was fx fl) as [[a al]|] eqn:E1; cbn [bind fst snd] in E; [|discriminate].
    destruct (mapM _ ks) as [ks'|]; cbn [bind] in E; [|discriminate]. inversion E; subst. apply local_one_ok in E1. cbn. tauto.
  Qed.
  Lemma resolve_linked : forall (b : bn w) t r was t', resolve_local b r was t = Ok t' -> linked t'.
  Proof.
    intros b. induction t as [nm fx fl ks IH] using nset_ind'. intros r was t' E. rewrite resolve_local_eq in E.
    destruct (local_one b r nm was fx fl) as [[a al]|] eqn:E1; cbn [bind fst snd] in E; [|discriminate].
    destruct (mapM _ ks) as [ks'|] eqn:Em; cbn [bind] in E; [|discriminate]. inversion E; subst. clear E. apply local_one_ok in E1.
    destruct E1 as (_ & N2 & _ & _ & _ & N6 & _). apply mapM_ok in Em.
    assert (W : forall k, In k ks' -> a_was (s_alloc k) = al).
    { intros k Hk. destruct (Forall2_in_r _ _ _ _ _ _ Em Hk) as [k0 [_ Q]]. eapply resolve_was; eauto. }
    constructor.
    - intros k Hk x Hx. rewrite (W k Hk) in Hx. apply N6 in Hx. rewrite N2. tauto.
    - intros k k' Hk Hk'. rewrite (W k Hk), (W k' Hk'). auto.
    - intros k Hk. destruct (Forall2_in_r _ _ _ _ _ _ Em Hk) as [k0 [K0 Q]]. rewrite Forall_forall in IH. eapply IH; eauto.
  Qed.
  Lemma raise_was : forall t, a_was (s_alloc (raise_up t)) = a_was (s_alloc t).
  Proof. intros [a sh ks]. rewrite raise_up_eq. auto. Qed.
  Lemma raise_linked : forall t, linked t -> linked (raise_up t).
  Proof.
    induction t as [a sh ks IH] using stree_ind'. intros L. inversion L; subst. rewrite raise_up_eq. rewrite Forall_forall in IH. constructor.
    - intros k Hk x Hx. apply in_map_iff in Hk. destruct Hk as [k0 [<- Hk]]. rewrite raise_was in Hx. cbn. eauto.
    - intros k k' Hk Hk'. apply in_map_iff in Hk, Hk'. destruct Hk as [k0 [<- Hk]]. destruct Hk' as [k1 [<- Hk']]. rewrite !raise_was. auto.
    - intros k Hk. apply in_map_iff in Hk. destruct Hk as [k0 [<- Hk]]. auto.
  Qed.

  (** among siblings only the last has children of its own *)
  Inductive slim : stree -> Prop :=
  | sl : forall a sh ks, (forall l1 k l2, ks = l1 ++ k :: l2 -> l2 <> [] -> s_kids k = []) -> (forall k, In k ks -> slim k) -> slim (STree a sh ks).

  Lemma relate_leaf : forall (b : bn w) r was a sh t' was' hs, relate b r was (STree a sh []) = Ok (t', was', hs) -> was' = was.
  Proof.
    intros b r was a sh t' was' hs E. rewrite relate_eq in E. destruct (relate_one b r was a) as [[a1 h1]|]; cbn [bind fst snd relate_kids] in E; [|discriminate].
    inversion E; auto.
  Qed.

  Lemma relate_exo : forall (b : bn w) t r t' was' hs (A : name -> Prop), linked t -> slim t ->
    (forall x, In x (a_was (s_alloc t)) -> A x) ->
    relate b r (a_was (s_alloc t)) t = Ok (t', was', hs) -> exo_fixed (fun x => A x \/ r = false /\ In x hs) t'.
  Proof.
    intros b. induction t as [a sh ks IH] using stree_ind'. intros r t' was' hs A L Sl HA E. cbn [s_alloc] in *. rewrite relate_eq in E.
    inversion L as [a_ sh_ ks_ L1 L2 L3]; subst. inversion Sl as [a_ sh_ ks_ Sl1 Sl2]; subst.
    destruct (relate_one b r (a_was a) a) as [[a1 h1]|] eqn:E1; cbn [bind fst snd] in E; [|discriminate].
    destruct (relate_one_ok _ _ _ _ _ _ E1) as (_ & N2 & _ & _ & _ & N6 & _ & _ & _).
    destruct (relate_kids b sh ks (a_fixed a1, a_was a) _) as [[[ks' [fx was2]] S]|] eqn:E2; cbn [bind] in E; [|discriminate].
    inversion E; subst. clear E. rewrite Forall_forall in IH.
    assert (G : forall l (s : list name * list name) S0 l' s' S',
        relate_kids b sh l s S0 = Ok (l', s', S') -> incl l ks -> (forall l1 k l2, l = l1 ++ k :: l2 -> l2 <> [] -> s_kids k = []) ->
        (forall k, In k l -> sh = true -> S0 = a_was (s_alloc k)) -> incl (a_fixed a1) (fst s) ->
        (forall x, In x (snd s) -> A x \/ In x (fst s)) ->
        incl (fst s) (fst s') /\ (forall x, In x (snd s') -> A x \/ In x (fst s'))
        /\ forall k', In k' l' -> exo_fixed (fun x => A x \/ In x (fst s')) k').
    { induction l as [|k l IHl]; intros s S0 l' s' S' Er Hi Hs Hw H1 H2; cbn [relate_kids] in Er.
      { inversion Er; subst. splits; auto using incl_refl. intros k []. }
      assert (Ew : (if sh then S0 else a_was (s_alloc k)) = a_was (s_alloc k)) by (destruct sh; auto; apply Hw; auto; left; auto).
      rewrite Ew in Er. destruct (relate b false (a_was (s_alloc k)) k) as [[[k' w1] h2]|] eqn:Ek; cbn [bind] in Er; [|discriminate].
      destruct (relate_kids b sh l (fold_left hoist h2 s) (if sh then w1 else S0)) as [[[l2 s2] S2]|] eqn:El; cbn [bind] in Er; [|discriminate].
      inversion Er; subst. clear Er. destruct (hoist_ok h2 s _ eq_refl) as (O1 & O2 & O3 & O4 & O5).
      assert (Kk : In k ks) by (apply Hi; left; auto).
      destruct (IHl _ _ _ _ _ El) as (J1 & J2 & J3).
      - intros x Hx. apply Hi. right; auto.
      - intros l1 k0 l2' Q Hne. apply (Hs (k :: l1) k0 l2'); [cbn; congruence|auto].
      - intros k0 Hk0 ->. destruct l as [|k1 l]; [destruct Hk0|].
        assert (Lk : s_kids k = []) by (apply (Hs [] k (k1 :: l)); auto; discriminate).
        destruct k as [ak sk kk]. cbn [s_kids] in Lk. subst kk. apply relate_leaf in Ek. rewrite Ek. apply L2; auto. apply Hi. right; auto.
      - eapply incl_tran; eauto.
      - intros x Hx. apply O5 in Hx. destruct Hx as [Hx|[Hx _]]; auto. apply H2 in Hx. destruct Hx; auto.
      - splits; auto; [eapply incl_tran; eauto|]. intros q [<-|Hq]; auto.
        assert (X : exo_fixed (fun x => (A x \/ In x (fst s')) \/ false = false /\ In x h2) k').
        { eapply (IH k Kk false k' w1 h2); auto. intros x Hx. destruct (L1 k Kk x Hx) as [Q|Q]; auto. right. apply J1, O1, H1, N2, Q. }
        assert (Y : exo_fixed (fun x => A x \/ In x (fst s')) k').
        { eapply exo_fixed_mono; [|exact X]. cbn. intros x [Hx|[_ Hx]]; auto. apply O3, O5 in Hx. destruct Hx as [Hx|[Hx _]]; auto.
          apply H2 in Hx. destruct Hx; auto. }
        destruct k' as [ak sk kk]. inversion Y; subst. cbn [s_alloc s_kids]. destruct sh; constructor; cbn; assumption. }
    destruct (G _ _ _ _ _ _ E2) as (G1 & G2 & G3); cbn [fst snd] in *; auto using incl_refl.
    { intros k Hk ->. destruct ks as [|k0 ks]; [destruct Hk|]. apply L2; auto. left; auto. }
    constructor; cbn.
    - intros x Hx. apply N6 in Hx. destruct Hx as [_ [Hx|[Hr Hx]]]; auto.
    - intros k Hk. eapply exo_fixed_mono; [|apply G3; auto]. cbn. intros x [Hx|Hx]; auto.
  Qed.

  (** the later phases: fixed nodes stay fixed, what is taken from outside does not change *)
  Inductive later : stree -> stree -> Prop :=
  | lt_ : forall a a' sh sh' ks ks', a_exo a' = a_exo a -> (forall x, In x (a_fixed a) -> In x (a_fixed a')) -> Forall2 later ks ks' ->
         later (STree a sh ks) (STree a' sh' ks').
  Lemma later_exo : forall t t' A, later t t' -> exo_fixed A t -> exo_fixed A t'.
  Proof.
    induction t as [a sh ks IH] using stree_ind'. intros t' A H E. inversion H; subst. inversion E; subst. rewrite Forall_forall in IH. constructor.
    - rewrite H3. auto.
    - intros k' Hk'. destruct (Forall2_in_r _ _ _ _ _ _ H6 Hk') as [k [K1 K2]].
      eapply exo_fixed_mono; [|eapply IH; eauto]. cbn. intros x [Hx|Hx]; auto.
  Qed.

  Lemma mapM_later : forall (f : stree -> res stree) ks ks', (forall k k', In k ks -> f k = Ok k' -> later k k') -> mapM f ks = Ok ks' -> Forall2 later ks ks'.
  Proof.
    intros f ks ks' H Em. apply mapM_ok in Em. revert H. induction Em as [|x y xs ys Ex Em IHm]; intros H; constructor.
    - apply H; auto. left; auto.
    - apply IHm. intros k k' Hk. apply H. right; auto.
  Qed.
  Lemma pass_down_later : forall (b : bn w) t fi fl ns t', pass_down b fi fl ns t = Ok t' -> later t t'.
  Proof.
    intros b. induction t as [a sh ks IH] using stree_ind'. intros fi fl ns t' E. pose proof (pass_down_grows b _ _ _ _ _ E) as G. rewrite pass_down_eq in E. cbv zeta in E.
    destruct (foldM _ ns _) as [[[fx flo] down]|e] eqn:Ef; cbn [bind] in E; [|discriminate].
    destruct (mapM _ ks) as [ks'|e] eqn:Em; cbn [bind] in E; [|discriminate]. inversion E; subst. clear E. rewrite !allocs_eq in G. inversion G; subst.
    destruct H2 as (_ & G2 & _). rewrite Forall_forall in IH. constructor; auto. eapply mapM_later; [|exact Em]. intros k k' Hk. apply IH; auto.
  Qed.
  Lemma samplers_later : forall (b : bn w) t t', define_samplers b t = Ok t' -> later t t'.
  Proof.
    intros b. induction t as [a sh ks IH] using stree_ind'. intros t' E. rewrite define_samplers_eq in E.
    destruct (samplers_one b a) as [a'|e] eqn:Ea; cbn [bind] in E; [|discriminate].
    destruct (mapM _ ks) as [ks'|e] eqn:Em; cbn [bind] in E; [|discriminate]. inversion E; subst. clear E.
    unfold samplers_one in Ea. cbv zeta in Ea. destruct (foldM _ _ _) as [q|]; cbn [bind] in Ea; [|discriminate]. inversion Ea; subst.
    rewrite Forall_forall in IH. constructor; auto. eapply mapM_later; [|exact Em]. auto.
  Qed.
  Lemma sort_later : forall (b : bn w) t t', coherent b -> fresh b -> Forall (known b) (allocs t) -> sort_fixed b t = Ok t' -> later t t'.
  Proof.
    intros b t t' C F. revert t'. induction t as [a sh ks IH] using stree_ind'. intros t' K E. rewrite sort_fixed_eq in E.
    destruct (bn_sort_ok b (a_fixed a) C F) as [fx [E1 [_ E2]]]. rewrite E1 in E. cbn [bind] in E.
    destruct (mapM _ ks) as [ks'|e] eqn:Em; cbn [bind] in E; [|discriminate]. inversion E; subst. clear E.
    rewrite allocs_eq in K. apply Forall_cons_iff' in K. destruct K as [Ka Kk]. apply Forall_flat_map in Kk.
    rewrite Forall_forall in IH, Kk. constructor; [reflexivity| |].
    - cbn. intros x Hx. apply E2. split; auto; apply Ka; tauto.
    - eapply mapM_later; [|exact Em]. auto.
  Qed.

  Lemma resolve_slim : forall (b : bn w) t r was t', slim_request t -> resolve_local b r was t = Ok t' -> slim t'.
  Proof.
    intros b. induction t as [nm fx fl ks IH] using nset_ind'. intros r was t' Sl E. rewrite resolve_local_eq in E. inversion Sl as [? ? ? ? H3 H5]; subst.
    destruct (local_one b r nm was fx fl) as [[a al]|]; cbn [bind fst snd] in E; [|discriminate].
    destruct (mapM _ ks) as [ks'|] eqn:Em; cbn [bind] in E; [|discriminate]. inversion E; subst. clear E. apply mapM_ok in Em. constructor.
    - clear - H3 Em. revert H3. induction Em as [|x y xs ys Ex Em IHm]; intros H3 l1 k l2 Q Hne; [destruct l1; discriminate|].
      destruct l1 as [|z l1]; inversion Q; subst.
      + destruct x as [n fx fl kk]. assert (kk = []).
        { apply (H3 [] n fx fl kk xs); auto. intros ->. inversion Em; subst. auto. }
        subst kk. rewrite resolve_local_eq in Ex. destruct (local_one b false n al fx fl) as [p|]; cbn [bind mapM] in Ex; [|discriminate]. inversion Ex; auto.
      + eapply IHm; eauto. intros l0 n x0 l k1 l3 Q2 Hn2. apply (H3 (x :: l0) n x0 l k1 l3); [cbn; congruence|auto].
    - intros k Hk. destruct (Forall2_in_r _ _ _ _ _ _ Em Hk) as [k0 [K0 Q]]. rewrite Forall_forall in IH. eapply IH; eauto.
  Qed.
  Lemma raise_kids : forall t, s_kids (raise_up t) = map raise_up (s_kids t).
  Proof. intros [a sh ks]. rewrite raise_up_eq. auto. Qed.
  Lemma raise_slim : forall t, slim t -> slim (raise_up t).
  Proof.
    induction t as [a sh ks IH] using stree_ind'. intros L. inversion L; subst. rewrite raise_up_eq. rewrite Forall_forall in IH. constructor.
    - intros l1 k l2 Q Hne. apply map_eq_app in Q. destruct Q as (m1 & m2 & -> & Q1 & Q2). destruct m2 as [|k0 m2]; [discriminate|].
      cbn [map] in Q2. inversion Q2; subst. rewrite raise_kids, (H1 m1 k0 m2); auto. intros ->. auto.
    - intros k Hk. apply in_map_iff in Hk. destruct Hk as [k0 [<- Hk]]. auto.
  Qed.

  Lemma relate_known : forall (b : bn w) t r was t' was' hs, coherent b -> Forall (known b) (allocs t) -> (forall x, In x was -> node b x) ->
    relate b r was t = Ok (t', was', hs) -> Forall (known b) (allocs t').
  Proof.
    intros b t r was t' was' hs C K Kw E. destruct (relate_total b t r was C K Kw) as (t2 & w2 & h2 & E2 & K2 & _). rewrite E in E2. inversion E2; subst; auto.
  Qed.
  Lemma samplers_known : forall (b : bn w) t t', coherent b -> Forall (known b) (allocs t) -> define_samplers b t = Ok t' -> Forall (known b) (allocs t').
  Proof.
    intros b t t' C K E. apply define_samplers_ok in E; auto. rewrite Forall_forall in *. intros a Ha.
    destruct (Forall2_in_r _ _ _ _ _ _ E Ha) as [a0 [A0 (l & s & -> & _)]]. apply K in A0. exact A0.
  Qed.

  (** all the phases up to the sorting, for a valid request *)
  Lemma inject_known : forall (b : bn w) t s, coherent b -> fresh b -> inject b t = Ok s ->
    exists t1 t2 was hs t3 t4, resolve_local b true [] t = Ok t1 /\ relate b true [] (raise_up t1) = Ok (t2, was, hs)
      /\ locate_undefined b t2 = Ok t3 /\ define_samplers b t3 = Ok t4 /\ sort_fixed b t4 = Ok s
      /\ Forall (known b) (allocs t1) /\ Forall (known b) (allocs t2) /\ Forall (known b) (allocs t3) /\ Forall (known b) (allocs t4).
  Proof.
    intros b t s C F E. assert (V : valid_request b t) by (apply inject_iff; eauto).
    destruct (inject_split _ _ _ E) as (t1 & t2 & was & hs & t3 & t4 & E0 & E1 & E2 & E3 & E4 & E5). exists t1, t2, was, hs, t3, t4.
    assert (K1 : Forall (known b) (allocs t1)).
    { destruct (resolve_total b t true [] C F) as [t1' [E1' K1]]; [intros x []|intros nm fx fl H; apply asks_requests in H; apply (V nm fx fl H)|].
      rewrite E1 in E1'. inversion E1'; subst; auto. }
    assert (K2 : Forall (known b) (allocs t2)) by (eapply relate_known; [|apply raise_known; exact K1| |exact E2]; auto; intros x []).
    assert (K3 : Forall (known b) (allocs t3)).
    { unfold locate_undefined in E3. destruct (Order_ok b C F) as [od [Eo [[_ Io] _]]]. rewrite Eo in E3. cbn [bind] in E3.
      destruct (pass_down_total b t2 [] [] (diff od (claim t2)) K2) as [t3' [E3' K3]]; [intros x Hx; apply diff_In in Hx; apply Io; tauto|].
      rewrite E3 in E3'. inversion E3'; subst; auto. }
    splits; auto. eapply samplers_known; eauto.
  Qed.

  Lemma inject_exo : forall (b : bn w) t s, coherent b -> fresh b -> slim_request t -> inject b t = Ok s -> exo_fixed (fun _ => False) s.
  Proof.
    intros b t s C F Sl E. destruct (inject_known b t s C F E) as (t1 & t2 & was & hs & t3 & t4 & E1 & E2 & E3 & E4 & E5 & K1 & K2 & K3 & K4).
    pose proof (resolve_was _ _ _ _ _ E1) as W.
    assert (X : exo_fixed (fun x => False \/ true = false /\ In x hs) t2).
    { apply (relate_exo b (raise_up t1) true t2 was hs (fun _ => False)).
      - apply raise_linked. eapply resolve_linked; eauto.
      - apply raise_slim. eapply resolve_slim; eauto.
      - rewrite raise_was, W. auto.
      - rewrite raise_was, W. auto. }
    assert (Y : exo_fixed (fun _ => False) t2) by (eapply exo_fixed_mono; [|exact X]; cbn; intros x [[]|[Q _]]; discriminate).
    unfold locate_undefined in E3. destruct (Order b) as [od|]; cbn [bind] in E3; [|discriminate].
    eapply later_exo; [eapply sort_later; eauto|]. eapply later_exo; [eapply samplers_later; eauto|]. eapply later_exo; [eapply pass_down_later; eauto|]. auto.
  Qed.

  (** the root takes nothing from outside *)
  Lemma inject_root_exo : forall (b : bn w) t s, coherent b -> fresh b -> inject b t = Ok s -> a_exo (s_alloc s) = [].
  Proof.
    intros b t s C F E. destruct (inject_known b t s C F E) as (t1 & t2 & was & hs & t3 & t4 & E1 & E2 & E3 & E4 & E5 & K1 & K2 & K3 & K4).
    assert (X : a_exo (s_alloc t2) = []).
    { destruct (raise_up t1) as [a sh ks]. rewrite relate_eq in E2. destruct (relate_one b true [] a) as [[a1 h1]|] eqn:Er; cbn [bind fst snd] in E2; [|discriminate].
      destruct (relate_kids _ _ _ _ _) as [[[? [? ?]] ?]|]; cbn [bind] in E2; [|discriminate]. inversion E2; subst. cbn.
      apply relate_one_ok in Er. destruct Er as (_ & _ & _ & _ & _ & N6 & _). destruct (a_exo a1) as [|z zs] eqn:Ex; auto.
      destruct (N6 z) as [_ [[]|[Q _]]]; [left; auto|discriminate]. }
    unfold locate_undefined in E3. destruct (Order b) as [od|]; cbn [bind] in E3; [|discriminate].
    apply pass_down_later in E3. apply samplers_later in E4. apply (sort_later b _ _ C F K4) in E5.
    inversion E3; subst. inversion E4; subst. inversion E5; subst. cbn in *. congruence.
  Qed.
End Main.
