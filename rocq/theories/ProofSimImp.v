(** * What an intervention does to values and frozen actors *)

Require Import Verif.Base Verif.World Verif.ModelGraph Verif.ModelExpr Verif.ModelLoci Verif.ModelBN Verif.ModelSample
        Verif.ModelSim Verif.Spec Verif.SpecBN Verif.SpecExpr Verif.SpecSample Verif.SpecSim
        Verif.ProofBase Verif.ProofGraph Verif.ProofExpr Verif.ProofBN Verif.ProofSample Verif.ProofSim Verif.ProofSimResp.
Notation lookup := ModelSim.lookup.

Section ProofSimImp.
  Context {w : world}.
  Implicit Types (h : cores w) (sc : simcore w) (imp : dict (V w)).

  Lemma reached_chain : forall h i c j m, forest h -> at_ h i c -> reached h i j -> above h j m ->
    reached h i m \/ (above h i m /\ m < i).
  Proof.
    intros h i c j m F Hi R. revert c Hi. induction R as [i|i c k a j H K R IH]; intros c0 Hi A.
    - destruct (Nat.eq_dec m i) as [->|N]; [left; constructor|]. right. split; auto. apply above_le in A; auto. lia.
    - destruct (fo_child _ F _ _ _ _ H K) as [ca [Ha [Pa _]]]. destruct (IH ca Ha A) as [L|[L1 L2]].
      + left. exact (re_step _ _ _ _ _ _ H K L).
      + inversion L1 as [? c' H1|? c' p' ? H1 P1 K1]; subst; [lia|].
        assert (c' = ca) by (unfold at_ in *; congruence). subst. assert (p' = i) by congruence. subst.
        destruct (Nat.eq_dec m i) as [->|N]; [left; constructor|]. right. split; auto. apply above_le in K1; auto. lia.
  Qed.
  Lemma reached_ge : forall h i c j, forest h -> at_ h i c -> reached h i j -> i <= j.
  Proof. intros h i c j F H R. pose proof (reached_above _ _ _ _ F H R) as A. apply above_le in A; auto. Qed.

  Definition closed (b : bn w) (imp : dict (V w)) (sh : list name) : Prop :=
    forall p n, edge (dag b) p n -> In p (dkeys imp) \/ In p sh -> In n (dkeys imp) \/ In n sh.

  Lemma ran_visible : forall sc imp sh h h' j c g c', forest h -> same_shape h h' -> ran sc imp sh h h' j ->
    at_ h j c -> dget (sc_groups sc) (k_group c) = Some g -> at_ h' j c' ->
    exists hs rs prior he re ce, same_shape h hs /\ forest hs /\ at_ hs j c /\ at_ he j ce /\ k_locus c' = k_locus ce
      /\ resp_fixed (sc_bn sc) imp (filter (fun s => dmem s (k_locus c)) sh) j (g_fixed g) (lp_zero w) hs rs = (Ok prior, he, re)
      /\ (forall x, lookup he j x = lookup h' j x).
  Proof.
    intros sc imp sh h h' j c g c' F S [c0 [g0 [c0' [A [B [C [hs [rs [prior [he [re [ha [ra [ca [D1 [D2 [D3 [D4 [D5 [D6 [D7 _]]]]]]]]]]]]]]]]]]]]] Hc Hg Hc'.
    assert (c0 = c) by (unfold at_ in *; congruence). assert (c0' = c') by (unfold at_ in *; congruence). subst.
    assert (g0 = g) by congruence. subst.
    destruct (resp_fixed_frame _ _ _ _ _ _ _ _ _ _ _ D4) as [O K]. destruct (K c D2) as [ce [Hce Kce]].
    destruct (resp_actors_frame _ _ _ _ _ _ _ (shocked_places_core c j sh) D5) as [O2 K2].
    destruct (K2 _ (kupd_same he j (fun c => set_prior c prior) ce Hce)) as [ca' [Hca' [_ [Q _]]]].
    assert (ca' = ca) by (unfold at_ in *; congruence). subst. cbn [k_locus set_prior] in Q.
    assert (Fs : forest hs) by (eapply shape_forest; eauto).
    pose proof (resp_fixed_shape _ _ _ _ _ _ _ _ _ _ _ D4) as Se.
    exists hs, rs, prior, he, re, ce. splits; auto; [congruence|].
    intros x. apply lookup_ext.
    - eapply shape_forest; eauto.
    - eapply shape_trans; [apply shape_sym; exact Se|]. eapply shape_trans; [apply shape_sym; exact D1|auto].
    - intros m d d' Am Hd Hd'. destruct (Nat.eq_dec m j) as [->|N].
      + assert (d = ce) by (unfold at_ in *; congruence). assert (d' = c') by (unfold at_ in *; congruence). subst. congruence.
      + assert (Hs : at_ hs m d) by (unfold at_ in *; rewrite <- O; auto).
        rewrite (D3 m d d'); auto. eapply above_shape; [apply shape_sym; eapply shape_trans; [exact D1|exact Se]|auto].
  Qed.

  (** ** values *)

  Section Values.
    Context (sc : simcore w) (imp : dict (V w)) (sh : list name) (i : nat) (h h' : cores w) (ci : core w).
    Context (C : coherent (sc_bn sc)).
    Context (G : groups_sorted sc).
    Context (F : forest h).
    Context (S : same_shape h h').
    Context (Hi : at_ h i ci).
    Context (Out : forall j, ~ reached h i j -> nth_error h' j = nth_error h j).
    Context (Ran : forall j, reached h i j -> ran sc imp sh h h' j).

    Lemma own_kept : forall j c c' x, reached h i j -> at_ h j c -> at_ h' j c' ->
      ~ In x (dkeys imp) -> ~ In x sh -> dget (k_locus c') x = dget (k_locus c) x.
    Proof.
      intros j c c' x R Hc Hc' N1 N2. pose proof (Ran j R) as K. pose proof K as [c0 [g [c0' [A [B [A' _]]]]]].
      assert (c0 = c) by (unfold at_ in *; congruence). subst.
      destruct (ran_visible _ _ _ _ _ _ _ _ _ F S K Hc B Hc') as [hs [rs [prior [he [re [ce [D1 [D2 [D3 [D4 [D5 [D6 D7]]]]]]]]]]]].
      destruct (resp_fixed_values _ _ _ _ C _ _ _ _ _ _ _ _ _ D2 D3 D4 (proj1 (G _ _ B)) D6) as [I1 _].
      rewrite D5. apply I1. intros [_ [Q|Q]]; auto. apply filter_In in Q. tauto.
    Qed.

    Lemma seen_kept : forall j x, reached h i j -> ~ In x (dkeys imp) -> ~ In x sh -> lookup h' j x = lookup h j x.
    Proof.
      intros j x R N1 N2. symmetry. apply lookup_ext; auto. intros m c c' A Hc Hc'.
      destruct (reached_chain _ _ _ _ _ F Hi R A) as [Rm|[_ L]].
      - symmetry. eapply own_kept; eauto.
      - assert (E : nth_error h' m = nth_error h m).
        { apply Out. intros Rm. pose proof (reached_ge _ _ _ _ F Hi Rm). lia. }
        unfold at_ in *. assert (c = c') by congruence. subst. auto.
    Qed.

    Lemma own_assigned : forall j c g c' x v, reached h i j -> at_ h j c -> dget (sc_groups sc) (k_group c) = Some g -> at_ h' j c' ->
      In x (g_fixed g) -> dget imp x = Some v -> dget (k_locus c') x = Some v.
    Proof.
      intros j c g c' x v R Hc B Hc' Hx Hv. pose proof (Ran j R) as K.
      destruct (ran_visible _ _ _ _ _ _ _ _ _ F S K Hc B Hc') as [hs [rs [prior [he [re [ce [D1 [D2 [D3 [D4 [D5 [D6 D7]]]]]]]]]]]].
      destruct (resp_fixed_values _ _ _ _ C _ _ _ _ _ _ _ _ _ D2 D3 D4 (proj1 (G _ _ B)) D6) as [_ I2].
      rewrite D5. auto.
    Qed.

    (** entries that are not fixed in the group, or not held before and not assigned, keep their state *)
    Lemma own_other : forall j c g c' x, reached h i j -> at_ h j c -> dget (sc_groups sc) (k_group c) = Some g -> at_ h' j c' ->
      ~ In x (g_fixed g) \/ (~ In x (dkeys imp) /\ ~ In x (dkeys (k_locus c))) -> dget (k_locus c') x = dget (k_locus c) x.
    Proof.
      intros j c g c' x R Hc B Hc' Hx. pose proof (Ran j R) as K.
      destruct (ran_visible _ _ _ _ _ _ _ _ _ F S K Hc B Hc') as [hs [rs [prior [he [re [ce [D1 [D2 [D3 [D4 [D5 [D6 D7]]]]]]]]]]]].
      destruct (resp_fixed_values _ _ _ _ C _ _ _ _ _ _ _ _ _ D2 D3 D4 (proj1 (G _ _ B)) D6) as [I1 _].
      rewrite D5. apply I1. intros [Q1 [Q|Q]]; [tauto|]. apply filter_In in Q. destruct Q as [_ Q]. apply dmem_In in Q. tauto.
    Qed.

    Lemma own_recomputed : forall j c g c' n, reached h i j -> at_ h j c -> dget (sc_groups sc) (k_group c) = Some g -> at_ h' j c' ->
      In n (g_fixed g) -> In n (dkeys (k_locus c)) -> In n sh -> dget imp n = None ->
      exists l rho r1 v r2, holds (sc_bn sc) n l /\ (forall p, In p (loci_parents l) -> rho p = lookup h' j p)
        /\ render l rho r1 = Ok (v, r2) /\ dget (k_locus c') n = Some v.
    Proof.
      intros j c g c' n R Hc B Hc' Hn Hk Hs Hi'. pose proof (Ran j R) as K.
      destruct (ran_visible _ _ _ _ _ _ _ _ _ F S K Hc B Hc') as [hs [rs [prior [he [re [ce [D1 [D2 [D3 [D4 [D5 [D6 D7]]]]]]]]]]]].
      destruct (G _ _ B) as [G1 [G2 G3]].
      assert (Hf : In n (filter (fun s => dmem s (k_locus c)) sh)) by (apply filter_In; split; auto; apply dmem_In; auto).
      destruct (resp_fixed_recomputed _ _ _ _ C _ _ _ _ _ _ _ _ _ D2 D3 D4 G1 G3 D6 n Hn Hi' Hf) as [l [rho [r1 [v [r2 [E1 [E2 [E3 E4]]]]]]]].
      exists l, rho, r1, v, r2. splits; auto; [|congruence]. intros p Hp. rewrite <- D7. auto.
    Qed.

    Lemma consistent_after : closed (sc_bn sc) imp sh ->
      forall j c g n, reached h i j -> at_ h j c -> dget (sc_groups sc) (k_group c) = Some g ->
      In n (g_fixed g) -> In n (dkeys (k_locus c)) -> ~ In n (dkeys imp) ->
      consistent (sc_bn sc) (lookup h j) n \/ In n sh -> consistent (sc_bn sc) (lookup h' j) n.
    Proof.
      intros Cl j c g n R Hc B Hn Hk Hi' Hor e ps Hl.
      destruct (shape_at _ _ _ _ S Hc) as [c' [Hc' _]].
      destruct (In_dec_name n sh) as [Hs|Hs].
      - assert (Im : dget imp n = None) by (apply dget_None; auto).
        destruct (own_recomputed j c g c' n R Hc B Hc' Hn Hk Hs Im) as [l [rho [r1 [v [r2 [E1 [E2 [E3 E4]]]]]]]].
        rewrite (holds_fun _ _ _ _ E1 Hl) in *. simpl in E2, E3.
        assert (Hp : forall p, In p ps -> rho p <> None).
        { intros p Hp E. rewrite (proj1 (restrict_err rho ps)) in E3; [discriminate|eauto]. }
        split; [intros p Hp'; rewrite <- E2; auto|]. exists v. split.
        + destruct (restrict_ok rho ps Hp) as [dd [Ed Hd]]. rewrite Ed in E3.
          assert (Ee : execute e (fun x => if mem x ps then lookup h' j x else None) = execute e (dget dd)).
          { apply eval_agree. intros x _. rewrite Hd. destruct (mem x ps) eqn:M; auto. apply mem_In in M. symmetry. auto. }
          rewrite Ee. destruct (execute e (dget dd)) as [v'|[]]; inversion E3; subst; auto.
        + rewrite (lookup_eq h' j c'); auto; [rewrite E4; auto|]. eapply shape_forest; eauto.
      - destruct Hor as [Hor|]; [|tauto]. destruct (Hor e ps Hl) as [Q1 [v [Q2 Q3]]].
        assert (Hp : forall p, In p ps -> lookup h' j p = lookup h j p).
        { intros p Hp. assert (He : edge (dag (sc_bn sc)) p n) by (apply (co_parents _ C _ _ Hl); auto).
          apply seen_kept; auto; intros A; destruct (Cl p n He); auto. }
        split; [intros p Hp'; rewrite Hp; auto|]. exists v. split; [|rewrite seen_kept; auto].
        rewrite <- Q2. apply eval_agree. intros x _. destruct (mem x ps) eqn:M; auto. apply mem_In in M. auto.
    Qed.
  End Values.

  (** ** interventions *)

  (** the assigned and the shocked nodes of a dict *)
  Definition imp_of (imp : dict (V w)) : dict (V w) := filter (fun p => negb (w_is_none w (snd p))) imp.
  Definition redraw_of (imp : dict (V w)) : list name := map fst (filter (fun p => w_is_none w (snd p)) imp).

  Lemma imp_of_keys : forall imp k, In k (dkeys (imp_of imp)) -> In k (dkeys imp).
  Proof.
    intros imp k H. unfold imp_of in H. apply in_map_iff in H. destruct H as [p [<- H]]. apply filter_In in H. apply in_map. tauto.
  Qed.
  Lemma redraw_keys : forall imp k, In k (redraw_of imp) -> In k (dkeys imp).
  Proof.
    intros imp k H. unfold redraw_of in H. apply in_map_iff in H. destruct H as [p [<- H]]. apply filter_In in H. apply in_map. tauto.
  Qed.
  Lemma keys_split : forall imp k, In k (dkeys imp) -> In k (dkeys (imp_of imp)) \/ In k (redraw_of imp).
  Proof.
    intros imp k H. apply in_map_iff in H. destruct H as [[k' v] [<- H]]. unfold imp_of, redraw_of.
    destruct (w_is_none w v) eqn:E; [right|left]; apply in_map_iff; exists (k', v); (split; [auto|]); apply filter_In; simpl; rewrite E; auto.
  Qed.
  Lemma imp_of_get : forall imp k v, NoDup (dkeys imp) ->
    dget (imp_of imp) k = Some v <-> dget imp k = Some v /\ w_is_none w v = false.
  Proof.
    intros imp k v ND. unfold imp_of. split.
    - intros H. apply dget_in_pair in H. apply filter_In in H. destruct H as [H1 H2]. simpl in H2. apply negb_true_iff in H2.
      split; auto. apply in_pair_dget; auto.
    - intros [H1 H2]. apply in_pair_dget.
      + clear H1. unfold dkeys in *. induction imp as [|p imp IH]; simpl; auto. simpl in ND. inversion ND as [|? ? N1 N2]; subst.
        destruct (negb (w_is_none w (snd p))); simpl; auto. constructor; auto. intros A. apply N1.
        apply in_map_iff in A. destruct A as [q [Eq A]]. apply filter_In in A. rewrite <- Eq. apply in_map. tauto.
      + apply filter_In. split; [apply dget_in_pair; auto|simpl; rewrite H2; auto].
  Qed.
  Lemma redraw_of_In : forall imp k, NoDup (dkeys imp) ->
    In k (redraw_of imp) <-> exists v, dget imp k = Some v /\ w_is_none w v = true.
  Proof.
    intros imp k ND. unfold redraw_of. rewrite in_map_iff. split.
    - intros [[k' v] [E H]]. simpl in E. subst. apply filter_In in H. destruct H as [H1 H2]. exists v. split; auto. apply in_pair_dget; auto.
    - intros [v [H1 H2]]. exists (k, v). split; auto. apply filter_In. split; auto. apply dget_in_pair; auto.
  Qed.

  Lemma downstream_known : forall g ns l, wf g -> acyclic g -> downstream g ns = Ok l ->
    forall x, In x l <-> exists n, In n ns /\ path g n x.
  Proof.
    intros g ns l W A H.
    assert (K : incl ns (gnodes g) /\ ns <> []).
    { split.
      - intros n Hn. destruct (In_dec_name n (gnodes g)) as [|N]; auto. rewrite (downstream_missing g ns n) in H; auto. discriminate.
      - intros ->. discriminate. }
    destruct K as [K1 K2]. destruct (downstream_spec g ns W K1 K2) as [l' [E [_ L]]]. rewrite E in H. inversion H; subst.
    intros x. rewrite L. split; intros [n [B1 B2]]; exists n; [tauto|]. splits; auto. intros ->. apply (A n B2).
  Qed.

  (** the nodes an intervention shocks *)
  Definition shocks (b : bn w) (imp : dict (V w)) (x : name) : Prop :=
    In x (redraw_of imp) \/ (~ In x (dkeys (imp_of imp)) /\ exists k, In k (dkeys imp) /\ path (dag b) k x).

  Lemma impulse_core_respond : forall sc imp i h r h' r', coherent (sc_bn sc) ->
    impulse_core sc imp i h r = (Ok tt, h', r') ->
    exists sh, respond (S (length h)) sc (imp_of imp) sh i h r = (Ok tt, h', r')
      /\ (forall x, In x sh <-> shocks (sc_bn sc) imp x) /\ closed (sc_bn sc) (imp_of imp) sh.
  Proof.
    intros sc imp i h r h' r' C H. unfold impulse_core in H.
    destruct (downstream (dag (sc_bn sc)) (dkeys imp)) as [ds|e] eqn:D; [|discriminate].
    pose proof (downstream_known _ _ _ (co_wf _ C) (co_acyclic _ C) D) as K.
    fold (imp_of imp) in H. fold (redraw_of imp) in H.
    assert (Q : forall x, In x (union (diff ds (dkeys (imp_of imp))) (redraw_of imp)) <-> shocks (sc_bn sc) imp x).
    { intros x. rewrite union_In, diff_In, K. unfold shocks. tauto. }
    eexists. split; [exact H|]. split; auto.
    intros p n E A. destruct (In_dec_name n (dkeys (imp_of imp))) as [|N]; auto. right. apply Q. right. split; auto.
    destruct A as [A|A].
    - exists p. split; [apply imp_of_keys; auto|constructor; auto].
    - apply Q in A. destruct A as [A|[_ [k [A1 A2]]]].
      + exists p. split; [apply redraw_keys; auto|constructor; auto].
      + exists k. split; auto. eapply path_trans; [exact A2|constructor; auto].
  Qed.
  Lemma impulse_list_respond : forall sc ns i h r h' r', coherent (sc_bn sc) ->
    impulse_list sc ns i h r = (Ok tt, h', r') ->
    exists sh, respond (S (length h)) sc [] sh i h r = (Ok tt, h', r')
      /\ (forall x, In x sh <-> In x ns \/ exists k, In k ns /\ path (dag (sc_bn sc)) k x) /\ closed (sc_bn sc) [] sh.
  Proof.
    intros sc ns i h r h' r' C H. unfold impulse_list in H.
    destruct (downstream (dag (sc_bn sc)) ns) as [ds|e] eqn:D; [|discriminate].
    pose proof (downstream_known _ _ _ (co_wf _ C) (co_acyclic _ C) D) as K.
    assert (Q : forall x, In x (union ds ns) <-> In x ns \/ exists k, In k ns /\ path (dag (sc_bn sc)) k x).
    { intros x. rewrite union_In, K. tauto. }
    eexists. split; [exact H|]. split; auto.
    intros p n E [[]|A]. right. apply Q. right. apply Q in A. destruct A as [A|[k [A1 A2]]].
    - exists p. split; [auto|constructor; auto].
    - exists k. split; auto. eapply path_trans; [exact A2|constructor; auto].
  Qed.

  Lemma intervened_respond : forall sc h i r h' r' A T, coherent (sc_bn sc) -> intervened sc h i r h' r' A T ->
    exists imp sh, respond (S (length h)) sc imp sh i h r = (Ok tt, h', r')
      /\ (forall k v, A k v <-> dget imp k = Some v) /\ (forall x, T x <-> In x sh) /\ closed (sc_bn sc) imp sh.
  Proof.
    intros sc h i r h' r' A T C H. destruct H as [imp ND H|ns H].
    - destruct (impulse_core_respond _ _ _ _ _ _ _ C H) as [sh [H1 [H2 H3]]]. exists (imp_of imp), sh. splits; auto.
      + intros k v. rewrite (imp_of_get imp k v ND). unfold assigns. tauto.
      + intros x. rewrite H2. unfold shocks, renews. rewrite (redraw_of_In imp x ND).
        assert (Q : ~ In x (dkeys (imp_of imp)) <-> forall v, ~ assigns imp x v).
        { split.
          - intros N v [A1 A2]. apply N, dget_In. exists v. apply imp_of_get; auto.
          - intros N A1. apply dget_In in A1. destruct A1 as [v A1]. apply imp_of_get in A1; auto. apply (N v A1). }
        rewrite Q. tauto.
    - destruct (impulse_list_respond _ _ _ _ _ _ _ C H) as [sh [H1 [H2 H3]]]. exists [], sh. splits; auto.
      + intros k v. simpl. split; [tauto|discriminate].
      + intros x. rewrite H2. tauto.
  Qed.

  (** ** enough fuel *)

  Lemma each_child_ext : forall (f g : nat -> cores w -> RNG w -> res unit * cores w * RNG w) js h0,
    (forall j h r, In j js -> same_shape h0 h -> f j h r = g j h r) ->
    (forall j h r o h' r', f j h r = (o, h', r') -> same_shape h h') ->
    forall h r, same_shape h0 h -> each_child f js h r = each_child g js h r.
  Proof.
    intros f g js h0 E S. induction js as [|j js IH]; intros h r Sh; simpl; auto.
    rewrite <- E by (simpl; auto). destruct (f j h r) as [[[[]|e] h1] r1] eqn:Q; auto.
    apply IH; [intros; apply E; simpl; auto|]. eapply shape_trans; [exact Sh|eapply S; eauto].
  Qed.
  Lemma respond_enough : forall f f' sc imp sh i h r, forest h -> length h <= f + i -> length h <= f' + i ->
    respond f sc imp sh i h r = respond f' sc imp sh i h r.
  Proof.
    induction f as [|f IH]; intros f' sc imp sh i h r F L L'.
    - destruct f' as [|f']; auto. cbn [respond]. assert (E : nth_error h i = None) by (apply nth_error_None; lia). rewrite E. auto.
    - destruct f' as [|f'].
      + cbn [respond]. assert (E : nth_error h i = None) by (apply nth_error_None; lia). rewrite E. auto.
      + cbn [respond]. destruct (nth_error h i) as [c|] eqn:Ei; auto. destruct (group_of sc h i) as [g|]; auto.
        destruct (resp_fixed _ _ _ _ _ _ _ _) as [[[prior|e] h1] r1] eqn:E1; auto.
        destruct (resp_actors _ _ _ _) as [[[[]|e] h2] r2] eqn:E2; auto.
        assert (S2 : same_shape h h2).
        { eapply shape_trans; [eapply resp_fixed_shape; eauto|]. eapply shape_trans; [|eapply resp_actors_shape; eauto].
          apply shape_kupd. intros []; auto. }
        rewrite (each_child_ext (respond f sc imp sh) (respond f' sc imp sh) _ h); auto.
        * intros j hj rj Hj Sj. pose proof (shape_length _ _ Sj). apply in_map_iff in Hj. destruct Hj as [[k j'] [Ej Hj]]. simpl in Ej. subst.
          assert (Hk : dget (k_children c) k = Some j) by (apply in_pair_dget; auto; exact (fo_keys _ F _ _ Ei)).
          destruct (fo_child _ F _ _ _ _ Ei Hk) as [cj [J1 [J2 _]]].
          pose proof (fo_parent _ F _ _ _ J1 J2). apply IH; [eapply shape_forest; eauto|lia|lia].
        * intros j hj rj o hj' rj' Hj. eapply respond_shape; eauto.
  Qed.

  (** ** actors *)

  Lemma read_upstream_get : forall rd (pas : env w) x, dget (read_upstream rd pas) x = if mem x rd then pas x else None.
  Proof.
    intros rd pas x. unfold read_upstream.
    assert (G : forall rd up, dget (fold_left (fun up p => match pas p with Some v => dset up p v | None => up end) rd up) x
      = if mem x rd then match pas x with Some v => Some v | None => dget up x end else dget up x).
    { induction rd0 as [|p rd0 IH]; intros up; [reflexivity|]. cbn [fold_left mem existsb]. rewrite IH.
      change (existsb (String.eqb x) rd0) with (mem x rd0). destruct (String.eqb_spec x p) as [->|N].
      - cbn [orb]. destruct (mem p rd0) eqn:M.
        + destruct (pas p) as [v|] eqn:P; auto.
        + destruct (pas p) as [v|] eqn:P; auto. rewrite dget_dset, String.eqb_refl. auto.
      - cbn [orb]. destruct (pas p) as [v|]; auto. rewrite dget_dset, (proj2 (String.eqb_neq _ _) N). auto. }
    rewrite G. simpl. destruct (mem x rd); auto. destruct (pas x); auto.
  Qed.

  Lemma up_to_date_agree : forall (e e' : env w) f l rd s, (forall x, In x rd -> e x = e' x) ->
    up_to_date e (AFrozen f l rd s) -> up_to_date e' (AFrozen f l rd s).
  Proof.
    intros e e' f l rd s A H. cbn [up_to_date] in *.
    assert (Q : forall x, (if mem x rd then e x else None) = (if mem x rd then e' x else None)).
    { intros x. destruct (mem x rd) eqn:M; auto. apply A. apply mem_In; auto. }
    destruct l as [n v|n|n fn ps|n ex ps|n ps];
      try (destruct H as [v0 [H1 H2]]; exists v0; split; auto; intros r; rewrite <- H1; apply render_agree; intros x _; symmetry; apply Q).
    destruct H as [d [H1 H2]]. exists d. split; auto. rewrite <- H1. apply get_distribution_agree. intros c x _ _. symmetry. apply Q.
  Qed.

  Lemma render_rng : forall (l : loci w) pas r v r', is_rv_l l = false -> render l pas r = Ok (v, r') -> forall r0, render l pas r0 = Ok (v, r0).
  Proof.
    intros l pas r v r' N H r0. destruct l as [n v0|n|n f ps|n e ps|n ps]; simpl in *; try discriminate.
    - inversion H; auto.
    - destruct (pas n); inversion H; auto.
    - destruct (restrict pas ps) as [d|e0]; [|discriminate]. destruct (execute e (dget d)) as [v1|[]]; inversion H; auto.
  Qed.

  Lemma a_update_current : forall (a a' : actor w) e r r', a_update a e r = (Ok a', r') ->
    up_to_date e a' /\ exists f l rd s s', a = AFrozen f l rd s /\ a' = AFrozen f l rd s'.
  Proof.
    intros a a' e r r' H. destruct a as [f l rd s|f l rd|f l rd fl]; cbn [a_update] in H; try discriminate.
    destruct (is_rv_l l) eqn:R.
    - destruct l as [n v|n|n fn ps|n ex ps|n ps]; try discriminate.
      destruct (get_distribution fn (dget (read_upstream rd e))) as [d|x] eqn:D; [|discriminate]. inversion H; subst.
      split; [|repeat eexists]. cbn [up_to_date]. exists d. split; auto. rewrite <- D. apply get_distribution_agree.
      intros c x _ _. rewrite read_upstream_get. auto.
    - assert (Q : match render l (dget (read_upstream rd e)) r with Ok (v, r') => (Ok (AFrozen f l rd (SVal v)), r') | Err x => (Err x, r) end
        = (Ok a', r')) by (destruct l; auto; discriminate).
      destruct (render l (dget (read_upstream rd e)) r) as [[v r1]|x] eqn:D; [|discriminate]. inversion Q; subst.
      split; [|repeat eexists]. cbn [up_to_date].
      assert (U : exists v0, (forall r, render l (fun x => if mem x rd then e x else None) r = Ok (v0, r)) /\ SVal v = SVal v0).
      { exists v. split; auto. intros r0. rewrite <- (render_rng _ _ _ _ _ R D r0). apply render_agree. intros x _. rewrite read_upstream_get. auto. }
      destruct l; auto. discriminate.
  Qed.

  Lemma place_eq_dec : forall p q : place, {p = q} + {p <> q}.
  Proof. decide equality; (apply Nat.eq_dec || apply String.string_dec). Qed.

  Lemma actor_at_put : forall h p a a0 q, actor_at h p = Some a0 ->
    actor_at (put_actor h p a) q = if place_eq_dec q p then Some a else actor_at h q.
  Proof.
    intros h p a a0 q E0. destruct (place_eq_dec q p) as [->|N].
    - destruct p as [i k|i g k]; cbn [actor_at put_actor] in *; rewrite kupd_nth, Nat.eqb_refl; destruct (nth_error h i) as [c|]; cbn [option_map]; try discriminate.
      + destruct (k_actors c) as [d|] eqn:A; [|discriminate]. cbn [k_actors set_actors]. rewrite dget_dset, String.eqb_refl. auto.
      + destruct (k_chactors c) as [d|] eqn:A; [|discriminate]. destruct (dget d g) as [e|] eqn:B; [|discriminate].
        cbn [k_chactors set_chactors]. rewrite dget_dset, String.eqb_refl, dget_dset, String.eqb_refl. auto.
    - destruct p as [i k|i g k]; destruct q as [j m|j g' m]; cbn [actor_at put_actor]; rewrite kupd_nth;
        destruct (Nat.eqb_spec j i) as [->|Nj]; auto; destruct (nth_error h i) as [c|]; cbn [option_map]; auto.
      + destruct (k_actors c) as [d|] eqn:A; [|rewrite A; auto]. cbn [k_actors set_actors].
        assert (m <> k) by congruence. rewrite dget_dset, (proj2 (String.eqb_neq _ _) H). auto.
      + destruct (k_actors c); auto.
      + destruct (k_chactors c) as [d|]; auto. destruct (dget d g); auto.
      + destruct (k_chactors c) as [d|] eqn:A; [|rewrite A; auto]. destruct (dget d g) as [e|] eqn:B; [|rewrite A; auto].
        cbn [k_chactors set_chactors]. rewrite dget_dset. destruct (String.eqb_spec g' g) as [->|Ng]; auto. rewrite B.
        assert (m <> k) by congruence. rewrite dget_dset, (proj2 (String.eqb_neq _ _) H). auto.
  Qed.

  Lemma quiet_lookup : forall h h' i, forest h -> same_shape h h' -> (forall j, j <> i -> nth_error h' j = nth_error h j) ->
    (forall c, at_ h i c -> exists c', at_ h' i c' /\ quiet_change c c') -> forall x, lookup h' i x = lookup h i x.
  Proof.
    intros h h' i F S O K x. destruct (nth_error h i) as [c|] eqn:E.
    - destruct (K c E) as [c' [C1 [_ [C2 _]]]]. symmetry. apply (lookup_local h h' i c c'); auto. congruence.
    - pose proof (S i) as Si. rewrite E in Si. destruct (nth_error h' i) eqn:E'; [discriminate|].
      unfold ModelSim.lookup. simpl. rewrite E, E'. auto.
  Qed.

  Lemma resp_actors_effect : forall i ps h r h' r', forest h -> (forall p, In p ps -> place_owner p = i) ->
    resp_actors i ps h r = (Ok tt, h', r') ->
    forall q, (In q ps -> exists a', actor_at h' q = Some a' /\ is_frozen a' = true /\ up_to_date (lookup h' i) a')
      /\ (~ In q ps -> actor_at h' q = actor_at h q).
  Proof.
    intros i. induction ps as [|p ps IH]; intros h r h' r' F P H q; simpl in H.
    - inversion H; subst. split; [intros []|auto].
    - pose proof (resp_actors_shape i (p :: ps) h r (Ok tt) h' r' H) as S0.
      pose proof (resp_actors_frame i (p :: ps) h r (Ok tt) h' r' P H) as [O0 K0].
      unfold update_at in H. destruct (actor_at h p) as [a|] eqn:A; [|discriminate].
      destruct (a_update a (lookup h i) r) as [[a'|e] r1] eqn:U; [|discriminate].
      pose proof (put_actor_shape h p a') as S1.
      destruct (IH _ _ _ _ (shape_forest _ _ S1 F) (fun q Hq => P q (or_intror Hq)) H q) as [I1 I2].
      apply a_update_current in U. destruct U as [U [f [l [rd [s [s' [Ea Ea']]]]]]].
      split.
      + intros Hq. destruct (in_dec place_eq_dec q ps) as [Hi|Hi]; auto. destruct Hq as [<-|]; [|tauto].
        exists a'. split; [rewrite I2, (actor_at_put h p a' a p A) by auto; destruct (place_eq_dec p p); tauto|].
        subst a'. split; auto. eapply up_to_date_agree; [|exact U]. intros x _. symmetry. apply quiet_lookup; auto.
      + intros Hq. simpl in Hq. rewrite I2, (actor_at_put h p a' a q A) by tauto. destruct (place_eq_dec q p); auto. subst. tauto.
  Qed.

  Definition actor_ok (b : bn w) (k : name) (a : actor w) : Prop :=
    match a with
    | AFrozen f l rd _ => holds b k l /\ (forall x, In x rd -> edge (dag b) x k)
    | _ => True
    end.

  (** frozen actors after a response *)
  Lemma actor_after : forall sc imp sh i h h' ci q a, coherent (sc_bn sc) -> groups_sorted sc -> forest h -> same_shape h h' ->
    at_ h i ci -> (forall j, ~ reached h i j -> nth_error h' j = nth_error h j) ->
    (forall j, reached h i j -> ran sc imp sh h h' j) -> closed (sc_bn sc) imp sh ->
    reached h i (place_owner q) -> actor_at h q = Some a -> is_frozen a = true -> actor_ok (sc_bn sc) (place_key q) a ->
    ~ In (place_key q) (dkeys imp) ->
    (up_to_date (lookup h (place_owner q)) a \/ In (place_key q) sh) ->
    exists a', actor_at h' q = Some a' /\ is_frozen a' = true /\ up_to_date (lookup h' (place_owner q)) a'.
  Proof.
    intros sc imp sh i h h' ci q a C G F S Hi Out Ran Cl R A Fr Ok_ Ni Up. remember (place_owner q) as j eqn:Ej.
    destruct (Ran j R) as [c [g [c' [B1 [B2 [B3 [hs [rs [prior [he [re [ha [ra [ca [D1 [D2 [D3 [D4 [D5 [D6 [D7 [D8 [D9 _]]]]]]]]]]]]]]]]]]]]]]].
    destruct (resp_fixed_frame _ _ _ _ _ _ _ _ _ _ _ D4) as [O K]. destruct (K c D2) as [ce [Hce [Kce1 [Kce2 Kce3]]]].
    pose proof (resp_fixed_shape _ _ _ _ _ _ _ _ _ _ _ D4) as Se.
    assert (Fe : forest he) by (eapply shape_forest; [|exact F]; eapply shape_trans; eauto).
    set (hp := kupd he j (fun c => set_prior c prior)) in *.
    assert (Sp : same_shape he hp) by (apply shape_kupd; intros []; auto).
    assert (Fp : forest hp) by (eapply shape_forest; eauto).
    pose proof (resp_actors_shape _ _ _ _ _ _ _ D5) as Sa.
    (* the actor before the actor loop, and at the end *)
    assert (Ep : actor_at hp q = actor_at h q).
    { assert (Hp : at_ hp j (set_prior ce prior)) by exact (kupd_same he j (fun c => set_prior c prior) ce Hce).
      unfold at_ in Hp, B1. destruct q as [x k|x gn k]; cbn [actor_at place_owner] in *; subst j; rewrite Hp, B1; simpl; rewrite ?Kce2, ?Kce3; auto. }
    assert (Ea : actor_at h' q = actor_at ha q).
    { unfold at_ in D6, B3. destruct q as [x k|x gn k]; cbn [actor_at place_owner] in *; subst j; rewrite D6, B3, ?D8, ?D9; auto. }
    destruct (resp_actors_effect _ _ _ _ _ _ Fp (shocked_places_core c j sh) D5 q) as [E1 E2].
    (* lookups in ha and in h' agree *)
    assert (La : forall x, lookup ha j x = lookup h' j x).
    { intros x. apply lookup_ext.
      - eapply shape_forest; eauto.
      - eapply shape_trans; [apply shape_sym; exact Sa|]. eapply shape_trans; [apply shape_sym; exact Sp|].
        eapply shape_trans; [apply shape_sym; exact Se|]. eapply shape_trans; [apply shape_sym; exact D1|exact S].
      - intros m d d' Am Hd Hd'. destruct (Nat.eq_dec m j) as [->|N].
        + assert (d = ca) by (unfold at_ in *; congruence). assert (d' = c') by (unfold at_ in *; congruence). subst. congruence.
        + destruct (resp_actors_frame _ _ _ _ _ _ _ (shocked_places_core c j sh) D5) as [O2 _].
          assert (Hs : at_ hs m d) by (unfold at_ in *; rewrite <- O by auto; rewrite <- (kupd_other he j (fun c => set_prior c prior) m N); fold hp; rewrite <- O2; auto).
          rewrite (D3 m d d'); auto. eapply above_shape; [|exact Am].
          eapply shape_trans; [apply shape_sym; exact Sa|]. eapply shape_trans; [apply shape_sym; exact Sp|].
          eapply shape_trans; [apply shape_sym; exact Se|]. apply shape_sym; exact D1. }
    destruct (In_dec_name (place_key q) sh) as [Hs|Hs].
    - (* shocked: updated *)
      assert (Hq : In q (shocked_places c j sh)).
      { unfold shocked_places. apply in_app_iff. unfold at_ in B1. destruct q as [x k|x gn k]; cbn [actor_at place_owner place_key] in *; subst j; rewrite B1 in A.
        - left. destruct (k_actors c) as [d|]; [|discriminate]. apply in_map. apply in_map_iff. exists (k, a). split; auto.
          apply filter_In. split; [apply dget_in_pair; auto|]. simpl. rewrite Fr, (proj2 (mem_In _ _) Hs). auto.
        - right. destruct (k_chactors c) as [d|]; [|discriminate]. destruct (dget d gn) as [e|] eqn:Eg; [|discriminate].
          apply in_flat_map. exists (gn, e). split; [apply dget_in_pair; auto|]. simpl. apply in_map. apply in_map_iff. exists (k, a). split; auto.
          apply filter_In. split; [apply dget_in_pair; auto|]. simpl. rewrite Fr, (proj2 (mem_In _ _) Hs). auto. }
      destruct (E1 Hq) as [a' [U1 [U0 U2]]]. exists a'. split; [congruence|]. split; auto.
      destruct a' as [f l rd s|f l rd|f l rd fl]; auto. eapply up_to_date_agree; [|exact U2]. intros x _. apply La.
    - (* not shocked: the parents did not change *)
      destruct Up as [Up|]; [|tauto].
      assert (Hq : ~ In q (shocked_places c j sh)).
      { intros Hq. apply Hs. unfold shocked_places in Hq. apply in_app_iff in Hq. destruct Hq as [Hq|Hq].
        - destruct (k_actors c) as [d|]; [|destruct Hq]. apply in_map_iff in Hq. destruct Hq as [k [<- Hq]]. cbn [place_key].
          apply in_map_iff in Hq. destruct Hq as [ka [<- Hq]]. apply filter_In in Hq. destruct Hq as [_ Hq]. apply andb_true_iff in Hq. apply mem_In. tauto.
        - destruct (k_chactors c) as [d|]; [|destruct Hq]. apply in_flat_map in Hq. destruct Hq as [ge [_ Hq]].
          apply in_map_iff in Hq. destruct Hq as [k [<- Hq]]. cbn [place_key].
          apply in_map_iff in Hq. destruct Hq as [ka [<- Hq]]. apply filter_In in Hq. destruct Hq as [_ Hq]. apply andb_true_iff in Hq. apply mem_In. tauto. }
      exists a. split; [rewrite Ea, (E2 Hq), Ep; auto|]. split; auto.
      destruct a as [f l rd s|f l rd|f l rd fl]; try discriminate. destruct Ok_ as [_ Ok2].
      eapply up_to_date_agree; [|exact Up]. intros x Hx. symmetry.
      apply (seen_kept sc imp sh i h h' ci C G F S Hi Out Ran); auto; intros Q; destruct (Cl x (place_key q) (Ok2 x Hx)); auto.
  Qed.
End ProofSimImp.
