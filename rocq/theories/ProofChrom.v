(** * Lemmas on chromosomes (bayesnet/chromosome.py) *)

Require Import Verif.Base Verif.World Verif.ModelGraph Verif.ModelExpr Verif.ModelLoci Verif.ModelBN Verif.ModelSample
        Verif.Spec Verif.SpecBN Verif.SpecExpr Verif.SpecSample Verif.SpecChrom
        Verif.ProofBase Verif.ProofGraph Verif.ProofExpr Verif.ProofBN Verif.ProofBNViews Verif.ProofSample.

Section ProofChrom.
  Context {w : world}.
  Implicit Types (b : bn w) (c : chrom w).

  Lemma dget_filter_snd : forall (f : V w -> bool) (d : dict (V w)) k, NoDup (dkeys d) ->
    dget (filter (fun p => f (snd p)) d) k = match dget d k with Some v => if f v then Some v else None | None => None end.
  Proof.
    intros f d k. induction d as [|[k' v'] d IH]; intros Hn; simpl; auto.
    inversion Hn as [|? ? Hx Hl]; subst. destruct (f v') eqn:Ef; simpl.
    - destruct (String.eqb k k'); auto. rewrite Ef. auto.
    - rewrite (IH Hl). destruct (String.eqb k k') eqn:E; auto. apply String.eqb_eq in E. subst.
      apply dget_None in Hx. rewrite Hx, Ef. auto.
  Qed.
  Lemma NoDup_filter_snd : forall (f : name * V w -> bool) (d : dict (V w)), NoDup (dkeys d) -> NoDup (dkeys (filter f d)).
  Proof.
    intros f d. induction d as [|[k' v'] d IH]; intros Hn; simpl; auto.
    inversion Hn as [|? ? Hx Hl]; subst. destruct (f (k', v')); simpl; auto. constructor; auto.
    intros Hi. apply Hx. apply in_map_iff in Hi. destruct Hi as [p [<- Hp]]. apply filter_In in Hp. apply in_map. tauto.
  Qed.

  (** ** rerun *)

  Lemma rerun_keys : forall b ns d r d2 r2, rerun b ns d r d2 r2 -> dkeys d2 = dkeys d.
  Proof.
    intros b ns d r d2 r2 H. induction H as [|n l ns d r v r1 d2 r2 H1 H2 H3 H4 IH]; auto.
    rewrite IH, dkeys_dset. unfold sadd. rewrite (proj2 (mem_In _ _) H2). auto.
  Qed.
  Lemma rerun_other : forall b ns d r d2 r2, rerun b ns d r d2 r2 -> forall x, ~ In x ns -> dget d2 x = dget d x.
  Proof.
    intros b ns d r d2 r2 H. induction H as [|n l ns d r v r1 d2 r2 H1 H2 H3 H4 IH]; intros x Hx; auto.
    simpl in Hx. rewrite IH by tauto. rewrite dget_dset. destruct (String.eqb x n) eqn:E; auto.
    apply String.eqb_eq in E. subst. tauto.
  Qed.
  (** A recomputed value comes from the definition, rendered where all parents have their
      final values. *)
  Lemma rerun_value : forall b ns d r d2 r2, coherent b -> rerun b ns d r d2 r2 -> NoDup ns ->
    (forall x y, edge (dag b) x y -> In x ns -> In y ns -> before ns x y) ->
    forall n, In n ns -> exists l rho r1 v r3, holds b n l /\ (forall p, In p (loci_parents l) -> rho p = dget d2 p)
      /\ render l rho r1 = Ok (v, r3) /\ dget d2 n = Some v.
  Proof.
    intros b ns d r d2 r2 C H. induction H as [|n l ns d r v r1 d2 r2 H1 H2 H3 H4 IH]; intros Hn Hb m Hm; [destruct Hm|].
    inversion Hn as [|? ? Hx Hl]; subst. destruct Hm as [<-|Hm].
    - exists l, (dget d), r, v, r1. splits; auto.
      + intros p Hp. assert (He : edge (dag b) p n) by (apply (co_parents _ C _ _ H1); auto).
        assert (Hpn : p <> n). { intros ->. apply (co_acyclic _ C n). constructor. auto. }
        assert (Hpo : ~ In p ns).
        { intros Hi. assert (K : before (n :: ns) p n) by (apply Hb; simpl; auto). apply before_cons in K.
          destruct K as [[-> _]|K]; auto. apply before_In in K. tauto. }
        rewrite (rerun_other _ _ _ _ _ _ H4 p Hpo), dget_dset. rewrite (proj2 (String.eqb_neq _ _) Hpn). auto.
      + rewrite (rerun_other _ _ _ _ _ _ H4 n Hx), dget_dset, String.eqb_refl. auto.
    - apply IH; auto. intros x y He H5 H6. assert (K : before (n :: ns) x y) by (apply Hb; simpl; auto).
      apply before_cons in K. destruct K as [[-> K]|K]; auto. tauto.
  Qed.

  Lemma impulse_loop_rerun : forall b sh od c r, (forall n, In n od -> node b n) ->
    (forall n, In n sh -> In n (dkeys (ch_locus c))) ->
    match impulse_loop b sh od c r with
    | (Ok _, c2, r2) => rerun b (filter (fun n => mem n sh) od) (ch_locus c) r (ch_locus c2) r2
        /\ ch_lp c2 = match filter (fun n => mem n sh) od with [] => ch_lp c | _ => lp_nan w end
    | (Err e, c1, r1) => exists ns n l rest, filter (fun n => mem n sh) od = ns ++ n :: rest
        /\ rerun b ns (ch_locus c) r (ch_locus c1) r1 /\ holds b n l /\ render l (dget (ch_locus c1)) r1 = Err e
        /\ ch_lp c1 = match ns with [] => ch_lp c | _ => lp_nan w end
    end.
  Proof.
    intros b sh. induction od as [|n od IH]; intros c r Hn Hk; cbn [impulse_loop filter].
    - split; [constructor|auto].
    - destruct (mem n sh) eqn:E.
      + assert (Hnn : node b n) by (apply Hn; simpl; auto). destruct (node_holds _ _ Hnn) as [l Hl].
        unfold node_render. rewrite (proj2 (bget_holds b n l) Hl). cbn [bind].
        assert (Hin : In n (dkeys (ch_locus c))) by (apply Hk; apply mem_In; auto).
        destruct (render l (dget (ch_locus c)) r) as [[v r1]|e] eqn:Er.
        * assert (IH' := IH (ch_set c n v) r1). cbn [ch_set ch_locus ch_lp] in IH'.
          assert (P1 : forall m, In m od -> node b m) by (intros m Hm; apply Hn; simpl; auto).
          assert (P2 : forall m, In m sh -> In m (dkeys (dset (ch_locus c) n v))).
          { intros m Hm. rewrite dkeys_dset, sadd_In. auto. }
          specialize (IH' P1 P2). unfold ch_set in *.
          destruct (impulse_loop b sh od (mkChrom (dset (ch_locus c) n v) (lp_nan w)) r1) as [[[[]|e] c2] r2].
          -- destruct IH' as [I1 I2]. split; [econstructor; eauto|].
             rewrite I2. destruct (filter (fun n0 => mem n0 sh) od); auto.
          -- destruct IH' as [ns [m [l' [rest [I1 [I2 [I3 [I4 I5]]]]]]]]. exists (n :: ns), m, l', rest. splits; auto.
             ++ rewrite I1. auto.
             ++ econstructor; eauto.
             ++ rewrite I5. destruct ns; auto.
        * exists [], n, l. eexists. splits; eauto; try reflexivity. constructor.
      + apply IH; auto. intros m Hm. apply Hn. simpl. auto.
  Qed.

  (** ** impulse *)

  Definition imp_all c (new : dict (V w)) := dfilter (fun k => dmem k (ch_locus c)) new.
  Definition imp_set c (new : dict (V w)) := filter (fun p => negb (w_is_none w (snd p))) (imp_all c new).

  Lemma imp_all_get : forall c new k, dget (imp_all c new) k = if dmem k (ch_locus c) then dget new k else None.
  Proof. intros. unfold imp_all. apply dget_dfilter. Qed.
  Lemma imp_all_keys : forall c new k, In k (dkeys (imp_all c new)) <-> hit (dkeys (ch_locus c)) new k.
  Proof. intros c new k. unfold imp_all, hit. rewrite dkeys_dfilter, filter_In, dmem_In. tauto. Qed.
  Lemma imp_all_NoDup : forall c new, NoDup (dkeys new) -> NoDup (dkeys (imp_all c new)).
  Proof. intros c new H. unfold imp_all. rewrite dkeys_dfilter. apply NoDup_filter; auto. Qed.
  Lemma imp_set_get : forall c new k v, NoDup (dkeys new) ->
    (dget (imp_set c new) k = Some v <-> assigned (dkeys (ch_locus c)) new k v).
  Proof.
    intros c new k v H. unfold imp_set, assigned.
    rewrite (dget_filter_snd (fun v => negb (w_is_none w v))) by (apply imp_all_NoDup; auto).
    rewrite imp_all_get. destruct (dmem k (ch_locus c)) eqn:E.
    - apply dmem_In in E. destruct (dget new k) as [u|]; [|split; [discriminate|intros [_ [K _]]; discriminate]].
      destruct (w_is_none w u) eqn:En; simpl; split.
      + discriminate.
      + intros [_ [K1 K2]]. congruence.
      + intros K. inversion K; subst. auto.
      + intros [_ [K1 K2]]. auto.
    - apply dmem_false in E. split; [discriminate|tauto].
  Qed.
  Lemma imp_set_keys : forall c new k, NoDup (dkeys new) ->
    (In k (dkeys (imp_set c new)) <-> exists v, assigned (dkeys (ch_locus c)) new k v).
  Proof.
    intros c new k H. rewrite <- dget_In. split; intros [v K]; exists v; apply imp_set_get; auto.
  Qed.
  Lemma non_imp_In : forall c new k, NoDup (dkeys new) ->
    (In k (map fst (filter (fun p => w_is_none w (snd p)) (imp_all c new))) <-> redrawn (dkeys (ch_locus c)) new k).
  Proof.
    intros c new k H. change (map fst (filter (fun p => w_is_none w (snd p)) (imp_all c new)))
      with (dkeys (filter (fun p => w_is_none w (snd p)) (imp_all c new))).
    rewrite <- dget_In. unfold redrawn.
    rewrite (dget_filter_snd (w_is_none w)) by (apply imp_all_NoDup; auto).
    rewrite imp_all_get. destruct (dmem k (ch_locus c)) eqn:E.
    - apply dmem_In in E. destruct (dget new k) as [u|].
      + destruct (w_is_none w u) eqn:En; split.
        * intros _. split; auto. eauto.
        * eauto.
        * intros [v K]. discriminate.
        * intros [_ [v [K1 K2]]]. congruence.
      + split; [intros [v K]; discriminate|intros [_ [v [K _]]]; discriminate].
    - apply dmem_false in E. split; [intros [v K]; discriminate|tauto].
  Qed.
  Lemma hit_cases : forall keys (new : dict (V w)) k, hit keys new k <-> (exists v, assigned keys new k v) \/ redrawn keys new k.
  Proof.
    intros keys new k. unfold hit, assigned, redrawn. split.
    - intros [H1 H2]. apply dget_In in H2. destruct H2 as [v Hv]. destruct (w_is_none w v) eqn:E; [right|left]; eauto.
    - intros [[v [H1 [H2 _]]]|[H1 [v [H2 _]]]]; (split; [auto|apply dget_In; eauto]).
  Qed.

  Definition shocked_set b c (new : dict (V w)) (sh : list name) : list name :=
    inter (union (diff sh (dkeys (imp_set c new)))
                 (map fst (filter (fun p => w_is_none w (snd p)) (imp_all c new)))) (dkeys (ch_locus c)).

  Lemma desc_all_ok : forall b c new ls sh, coherent b ->
    mapM (descendants (dag b)) (dkeys (imp_all c new)) = Ok ls -> set_union_star ls = Ok sh ->
    (forall k, hit (dkeys (ch_locus c)) new k -> node b k) /\ (exists k, hit (dkeys (ch_locus c)) new k)
    /\ forall x, In x sh <-> exists k, hit (dkeys (ch_locus c)) new k /\ path (dag b) k x.
  Proof.
    intros b c new ls sh C H1 H2. apply set_union_star_ok in H2. destruct H2 as [U1 [U2 U3]].
    apply mapM_ok in H1.
    assert (Hn : forall k, hit (dkeys (ch_locus c)) new k -> node b k).
    { intros k Hk. apply imp_all_keys in Hk. destruct (In_dec_name k (dkeys (b_attrs b))) as [|Hm]; auto. exfalso.
      clear U1 U2 U3. induction H1 as [|x y l l' Hx Hl IH]; [destruct Hk|]. destruct Hk as [->|Hk]; auto.
      rewrite (descendants_missing (dag b) k Hm) in Hx. discriminate. }
    splits; auto.
    - destruct (imp_all c new) as [|[k v] d] eqn:Ei; [inversion H1; subst; congruence|].
      exists k. apply imp_all_keys. rewrite Ei. simpl. auto.
    - intros x. rewrite U3. split.
      + intros [s [Hs Hx]]. clear U1 U2 U3.
        assert (K : exists k, In k (dkeys (imp_all c new)) /\ descendants (dag b) k = Ok s).
        { clear Hn Hx. induction H1 as [|a y l l' Ha Hl IH]; [destruct Hs|]. destruct Hs as [->|Hs]; [exists a; simpl; auto|].
          destruct IH as [k [K1 K2]]; auto. exists k. simpl. auto. }
        destruct K as [k [K1 K2]]. apply imp_all_keys in K1. exists k. split; auto.
        destruct (descendants_spec (dag b) k (co_wf _ C) (Hn k K1)) as [l [L1 [L2 L3]]]. rewrite K2 in L1. inversion L1; subst.
        apply L3 in Hx. tauto.
      + intros [k [K1 K2]]. destruct (descendants_spec (dag b) k (co_wf _ C) (Hn k K1)) as [l [L1 [L2 L3]]].
        exists l. split.
        * apply imp_all_keys in K1. clear - H1 K1 L1. induction H1 as [|a y l0 l' Ha Hl IH]; [destruct K1|].
          destruct K1 as [->|K1]; [left; congruence|right; auto].
        * apply L3. split; auto. intros ->. apply (co_acyclic _ C k). auto.
  Qed.

  Lemma shocked_In : forall b c new sh x, NoDup (dkeys new) ->
    (forall x, In x sh <-> exists k, hit (dkeys (ch_locus c)) new k /\ path (dag b) k x) ->
    (In x (shocked_set b c new sh) <-> affected b (dkeys (ch_locus c)) new x).
  Proof.
    intros b c new sh x Hn Hs. unfold shocked_set, affected.
    rewrite inter_In, union_In, diff_In, non_imp_In, imp_set_keys, Hs by auto. split.
    - intros [[[H1 H2]|H1] H3]; splits; auto.
      + intros v Hv. apply H2. eauto.
      + intros v [_ [Hv Hv2]]. destruct H1 as [_ [u [Hu1 Hu2]]]. congruence.
    - intros [H1 [H2 [H3|H3]]]; split; auto. left. split; auto. intros [v Hv]. apply (H2 v Hv).
  Qed.

  (** the value of every entry after the assignments and before recomputation *)
  Definition with_assigned c (new : dict (V w)) : dict (V w) := dupdate (ch_locus c) (imp_set c new).
  Lemma with_assigned_get : forall c new k, NoDup (dkeys new) ->
    dget (with_assigned c new) k = match dget (imp_set c new) k with Some v => Some v | None => dget (ch_locus c) k end.
  Proof.
    intros c new k H. unfold with_assigned. apply dget_dupdate_NoDup. apply NoDup_filter_snd. apply imp_all_NoDup. auto.
  Qed.
  Lemma union_incl : forall m a : list name, incl m a -> union a m = a.
  Proof.
    induction m as [|y m IH]; intros a H; [reflexivity|]. unfold union in *. cbn [fold_left].
    replace (sadd y a) with a; [apply IH; intros x Hx; apply H; simpl; auto|].
    unfold sadd. rewrite (proj2 (mem_In y a)); auto. apply H. simpl. auto.
  Qed.
  Lemma with_assigned_keys : forall c new, dkeys (with_assigned c new) = dkeys (ch_locus c).
  Proof.
    intros c new. unfold with_assigned. rewrite dkeys_dupdate. apply union_incl. intros x Hx.
    unfold imp_set in Hx. apply in_map_iff in Hx. destruct Hx as [p [<- Hp]]. apply filter_In in Hp. destruct Hp as [Hp _].
    assert (K : In (fst p) (dkeys (imp_all c new))) by (apply in_map; auto). apply imp_all_keys in K. apply K.
  Qed.

  Lemma impulse_spec : forall b c new r, coherent b -> fresh b -> NoDup (dkeys new) ->
    (exists k, hit (dkeys (ch_locus c)) new k) -> (forall k, hit (dkeys (ch_locus c)) new k -> node b k) ->
    exists ns, topo (dag b) ns (affected b (dkeys (ch_locus c)) new) /\
    match impulse c new b r with
    | (Ok _, c', r') => rerun b ns (with_assigned c new) r (ch_locus c') r' /\ ch_lp c' = lp_nan w
    | (Err e, c', r') => exists ns1 n l rest, ns = ns1 ++ n :: rest
        /\ rerun b ns1 (with_assigned c new) r (ch_locus c') r' /\ holds b n l
        /\ render l (dget (ch_locus c')) r' = Err e
        /\ ch_lp c' = match ns1 with [] => ch_lp c | _ => lp_nan w end
    end.
  Proof.
    intros b c new r C F Hnd Hex Hno. unfold impulse. fold (imp_all c new).
    assert (Hm : exists ls, mapM (descendants (dag b)) (dkeys (imp_all c new)) = Ok ls).
    { apply mapM_all_ok. intros k Hk. apply imp_all_keys in Hk.
      destruct (descendants_spec (dag b) k (co_wf _ C) (Hno k Hk)) as [l [L _]]. eauto. }
    destruct Hm as [ls Hm]. rewrite Hm. cbn [bind].
    assert (Hu : exists sh, set_union_star ls = Ok sh).
    { destruct ls as [|a ls]; [|simpl; eauto]. destruct Hex as [k Hk]. apply imp_all_keys in Hk.
      apply mapM_ok in Hm. inversion Hm as [E|]. rewrite <- E in Hk. destruct Hk. }
    destruct Hu as [sh Hu]. rewrite Hu.
    destruct (desc_all_ok b c new ls sh C Hm Hu) as [_ [_ Hs]].
    cbv zeta. fold (imp_set c new). fold (shocked_set b c new sh). fold (with_assigned c new).
    destruct (fresh_views b F) as [-> _].
    destruct (order_total (dag b) (co_wf _ C) (co_acyclic _ C)) as [od Ho]. rewrite Ho.
    destruct (order_topo (dag b) od (co_wf _ C) Ho) as [[T1 T2] T3].
    exists (filter (fun n => mem n (shocked_set b c new sh)) od).
    assert (Aff : forall x, In x (filter (fun n => mem n (shocked_set b c new sh)) od) <-> affected b (dkeys (ch_locus c)) new x).
    { intros x. rewrite filter_In, mem_In, (shocked_In b c new sh x Hnd Hs), T2. split; [tauto|]. intros K. split; auto.
      destruct K as [_ [_ [K|[k [K1 K2]]]]].
      - apply Hno. apply hit_cases. auto.
      - eapply path_dst; eauto. apply C. }
    split.
    - split; [split; [apply NoDup_filter; auto|exact Aff]|].
      intros x y He Hx Hy. apply filter_In in Hx. apply filter_In in Hy. apply before_filter. splits; try tauto. apply T3; tauto.
    - pose proof (impulse_loop_rerun b (shocked_set b c new sh) od (mkChrom (with_assigned c new) (ch_lp c)) r) as L.
      cbn [ch_locus ch_lp] in L.
      assert (P1 : forall n, In n od -> node b n) by (intros n Hn; apply T2; auto).
      assert (P2 : forall n, In n (shocked_set b c new sh) -> In n (dkeys (with_assigned c new))).
      { intros n Hn. rewrite with_assigned_keys. apply (shocked_In b c new sh n Hnd Hs) in Hn. apply Hn. }
      specialize (L P1 P2).
      destruct (impulse_loop b (shocked_set b c new sh) od (mkChrom (with_assigned c new) (ch_lp c)) r) as [[[[]|e] c2] r2].
      + destruct L as [L1 L2]. destruct (imp_set c new) as [|p l] eqn:Ei.
        * split; auto. rewrite L2.
          destruct (filter (fun n => mem n (shocked_set b c new sh)) od) as [|y ys] eqn:Ef; auto. exfalso.
          destruct Hex as [k Hk].
          assert (K : affected b (dkeys (ch_locus c)) new k).
          { split; [apply Hk|]. split.
            - intros v Hv. apply imp_set_get in Hv; auto. rewrite Ei in Hv. discriminate.
            - left. apply hit_cases in Hk. destruct Hk as [[v Hv]|Hk]; auto. apply imp_set_get in Hv; auto.
              rewrite Ei in Hv. discriminate. }
          apply Aff in K. destruct K.
        * split; auto.
      + destruct L as [ns [n [l [rest L]]]]. exists ns, n, l, rest. tauto.
  Qed.

  Lemma impulse_unknown : forall b c new r k, coherent b -> hit (dkeys (ch_locus c)) new k -> ~ node b k ->
    impulse c new b r = (Err NetworkXError, c, r).
  Proof.
    intros b c new r k C Hk Hn. unfold impulse. fold (imp_all c new).
    assert (E : mapM (descendants (dag b)) (dkeys (imp_all c new)) = Err NetworkXError).
    { apply imp_all_keys in Hk. clear - Hk Hn C. induction (dkeys (imp_all c new)) as [|a l IH]; [destruct Hk|]. simpl.
      destruct (In_dec_name a (dkeys (b_attrs b))) as [Ha|Ha].
      - destruct (descendants_spec (dag b) a (co_wf _ C) Ha) as [s [-> _]]. simpl.
        destruct Hk as [->|Hk]; [tauto|]. rewrite IH; auto.
      - rewrite (descendants_missing (dag b) a Ha). auto. }
    rewrite E. auto.
  Qed.
  Lemma impulse_none : forall b c new r, (forall k, ~ hit (dkeys (ch_locus c)) new k) -> impulse c new b r = (Err TypeError, c, r).
  Proof.
    intros b c new r H. unfold impulse. fold (imp_all c new).
    destruct (imp_all c new) as [|[k v] d] eqn:E; [reflexivity|]. exfalso. apply (H k). apply imp_all_keys. rewrite E. simpl. auto.
  Qed.

  Lemma impulse_cases : forall b c (new : dict (V w)), coherent b ->
    (forall k, ~ hit (dkeys (ch_locus c)) new k) \/ (exists k, hit (dkeys (ch_locus c)) new k /\ ~ node b k)
    \/ ((exists k, hit (dkeys (ch_locus c)) new k) /\ forall k, hit (dkeys (ch_locus c)) new k -> node b k).
  Proof.
    intros b c new C. destruct (imp_all c new) as [|[k v] d] eqn:E.
    - left. intros k Hk. apply imp_all_keys in Hk. rewrite E in Hk. destruct Hk.
    - right. destruct (forallb (fun k => mem k (dkeys (b_attrs b))) (dkeys (imp_all c new))) eqn:A.
      + right. split.
        * exists k. apply imp_all_keys. rewrite E. simpl. auto.
        * intros m Hm. apply imp_all_keys in Hm. rewrite forallb_forall in A. apply A in Hm. apply mem_In. auto.
      + left. apply not_true_iff_false in A. rewrite forallb_forall in A.
        assert (X : exists m, In m (dkeys (imp_all c new)) /\ mem m (dkeys (b_attrs b)) = false).
        { clear - A. induction (dkeys (imp_all c new)) as [|a l IH]; [exfalso; apply A; intros x []|].
          destruct (mem a (dkeys (b_attrs b))) eqn:Ea.
          - destruct IH as [m [M1 M2]]; [|exists m; simpl; auto]. intros H. apply A. intros x [<-|Hx]; auto.
          - exists a. simpl. auto. }
        destruct X as [m [M1 M2]]. exists m. split; [apply imp_all_keys; auto|apply mem_false; auto].
  Qed.

  (** what a successful intervention tells *)
  Lemma impulse_success : forall b c new r c' r', coherent b -> fresh b -> NoDup (dkeys new) ->
    impulse c new b r = (Ok tt, c', r') ->
    (exists k, hit (dkeys (ch_locus c)) new k) /\ (forall k, hit (dkeys (ch_locus c)) new k -> node b k)
    /\ exists ns, topo (dag b) ns (affected b (dkeys (ch_locus c)) new)
       /\ rerun b ns (with_assigned c new) r (ch_locus c') r' /\ ch_lp c' = lp_nan w.
  Proof.
    intros b c new r c' r' C F Hn H. destruct (impulse_cases b c new C) as [K|[[k [K1 K2]]|[K1 K2]]].
    - rewrite impulse_none in H; auto. discriminate.
    - rewrite (impulse_unknown b c new r k) in H; auto. discriminate.
    - splits; auto. destruct (impulse_spec b c new r C F Hn K1 K2) as [ns [T R]]. rewrite H in R. exists ns. tauto.
  Qed.

  Lemma impulse_values : forall b c new r c' r', coherent b -> fresh b -> NoDup (dkeys new) ->
    impulse c new b r = (Ok tt, c', r') ->
    dkeys (ch_locus c') = dkeys (ch_locus c)
    /\ (forall k v, assigned (dkeys (ch_locus c)) new k v -> dget (ch_locus c') k = Some v)
    /\ (forall k, ~ hit (dkeys (ch_locus c)) new k -> ~ affected b (dkeys (ch_locus c)) new k ->
          dget (ch_locus c') k = dget (ch_locus c) k)
    /\ (forall n, affected b (dkeys (ch_locus c)) new n -> exists l rho r1 v r3, holds b n l
          /\ (forall p, In p (loci_parents l) -> rho p = dget (ch_locus c') p)
          /\ render l rho r1 = Ok (v, r3) /\ dget (ch_locus c') n = Some v).
  Proof.
    intros b c new r c' r' C F Hn H. destruct (impulse_success b c new r c' r' C F Hn H) as [K1 [K2 [ns [[[T1 T2] T3] [R L]]]]].
    splits.
    - rewrite (rerun_keys _ _ _ _ _ _ R), with_assigned_keys. auto.
    - intros k v Hk. rewrite (rerun_other _ _ _ _ _ _ R).
      + rewrite with_assigned_get; auto. rewrite (proj2 (imp_set_get c new k v Hn) Hk). auto.
      + rewrite T2. intros [_ [A _]]. apply (A v Hk).
    - intros k Hk Ha. rewrite (rerun_other _ _ _ _ _ _ R) by (rewrite T2; auto).
      rewrite with_assigned_get; auto. destruct (dget (imp_set c new) k) as [v|] eqn:E; auto.
      apply imp_set_get in E; auto. exfalso. apply Hk. apply hit_cases. eauto.
    - intros n Ha. apply T2 in Ha. apply (rerun_value _ _ _ _ _ _ C R T1 T3 n Ha).
  Qed.

  Lemma impulse_consistent : forall b c new r c' r', coherent b -> fresh b -> NoDup (dkeys new) ->
    impulse c new b r = (Ok tt, c', r') ->
    forall n, In n (dkeys (ch_locus c)) -> (forall v, ~ assigned (dkeys (ch_locus c)) new n v) ->
      consistent b (dget (ch_locus c)) n \/ affected b (dkeys (ch_locus c)) new n -> consistent b (dget (ch_locus c')) n.
  Proof.
    intros b c new r c' r' C F Hn H n Hk Hna Hc e ps Hl.
    destruct (impulse_values b c new r c' r' C F Hn H) as [V1 [V2 [V3 V4]]].
    assert (D : affected b (dkeys (ch_locus c)) new n \/ ~ affected b (dkeys (ch_locus c)) new n).
    { destruct (impulse_success b c new r c' r' C F Hn H) as [_ [_ [ns [[[T1 T2] T3] _]]]]. rewrite <- T2. apply In_dec_name. }
    destruct D as [Ha|Ha].
    - destruct (V4 n Ha) as [l [rho [r1 [v [r3 [K1 [K2 [K3 K4]]]]]]]]. rewrite (holds_fun _ _ _ _ K1 Hl) in *.
      simpl in K2, K3.
      assert (Hp : forall p, In p ps -> rho p <> None).
      { intros p Hp E. rewrite (proj1 (restrict_err rho ps)) in K3; [discriminate|eauto]. }
      split; [intros p Hi; rewrite <- K2; auto|]. exists v. split; auto.
      destruct (restrict_ok rho ps Hp) as [dd [Ed Hd]]. rewrite Ed in K3.
      assert (Ee : execute e (fun x => if mem x ps then dget (ch_locus c') x else None) = execute e (dget dd)).
      { apply eval_agree. intros x _. rewrite Hd. destruct (mem x ps) eqn:E; auto. apply mem_In in E. symmetry. auto. }
      rewrite Ee. destruct (execute e (dget dd)) as [v'|[]]; inversion K3; subst; auto.
    - destruct Hc as [Hc|]; [|tauto]. destruct (Hc e ps Hl) as [Q1 [v [Q2 Q3]]].
      assert (Hnh : ~ hit (dkeys (ch_locus c)) new n).
      { intros Hh. apply hit_cases in Hh. destruct Hh as [[u Hu]|Hh]; [apply (Hna u Hu)|]. apply Ha. split; auto. }
      assert (Hpar : forall p, In p ps -> dget (ch_locus c') p = dget (ch_locus c) p).
      { intros p Hp. assert (He : edge (dag b) p n) by (apply (co_parents _ C _ _ Hl); auto).
        apply V3.
        - intros Hh. apply Ha. split; auto. split; auto. right. exists p. split; auto. constructor; auto.
        - intros [_ [_ [A|[k [A1 A2]]]]]; apply Ha; (split; [auto|split; [auto|right]]).
          + exists p. split; [apply hit_cases; auto|constructor; auto].
          + exists k. split; auto. eapply path_trans; [exact A2|constructor; auto]. }
      split. { intros p Hp. rewrite Hpar; auto. }
      exists v. rewrite (V3 n Hnh Ha). split; auto. rewrite <- Q2. apply eval_agree. intros x _.
      destruct (mem x ps) eqn:E; auto. apply mem_In in E. auto.
  Qed.
End ProofChrom.
