(** * Lemmas on interventions in a tree of parameter cores *)

Require Import Verif.Base Verif.World Verif.ModelGraph Verif.ModelExpr Verif.ModelLoci Verif.ModelBN Verif.ModelSample
        Verif.ModelSim Verif.Spec Verif.SpecBN Verif.SpecExpr Verif.SpecSample Verif.SpecSim
        Verif.ProofBase Verif.ProofGraph Verif.ProofExpr Verif.ProofBN Verif.ProofSample Verif.ProofSim.
(* both ModelExpr and ModelSim have a [lookup]; from here on it is the one of cores *)
Notation lookup := ModelSim.lookup.

Section ProofSimResp.
  Context {w : world}.
  Implicit Types (h : cores w) (sc : simcore w) (imp : dict (V w)).

  (** ** above and reached *)

  Lemma above_at : forall h i j, above h i j -> exists c, at_ h i c.
  Proof. intros h i j H. inversion H; eauto. Qed.
  Lemma above_at2 : forall h i j, above h i j -> exists c, at_ h j c.
  Proof. intros h i j H. induction H; eauto. Qed.
  Lemma above_le : forall h i j, forest h -> above h i j -> j <= i.
  Proof.
    intros h i j F H. induction H as [i c H|i c p j H P A IH]; auto. pose proof (fo_parent _ F _ _ _ H P). lia.
  Qed.
  Lemma above_trans : forall h i j m, above h i j -> above h j m -> above h i m.
  Proof. intros h i j m H. revert m. induction H as [i c H|i c p j H P A IH]; intros m K; auto. eapply above_up; eauto. Qed.
  Lemma above_linear : forall h j a b, above h j a -> above h j b -> above h a b \/ above h b a.
  Proof.
    intros h j a b H. revert b. induction H as [i c H|i c p a H P A IH]; intros b K; auto.
    inversion K as [? c' H1|? c' p' ? H1 P1 K1]; subst.
    - right. exact (above_up _ _ _ _ _ H P A).
    - assert (c' = c) by (unfold at_ in *; congruence). subst. assert (p' = p) by congruence. subst. auto.
  Qed.
  Lemma siblings_disjoint : forall h i a ca b cb j, forest h -> at_ h a ca -> at_ h b cb -> k_parent ca = Some i -> k_parent cb = Some i ->
    a <> b -> above h j a -> above h j b -> False.
  Proof.
    assert (G : forall h i a ca b cb, forest h -> at_ h a ca -> at_ h b cb -> k_parent ca = Some i -> k_parent cb = Some i ->
      a <> b -> above h a b -> False).
    { intros h i a ca b cb F Ha Hb Pa Pb N H. inversion H as [? c' H1|? c' p' ? H1 P1 K1]; subst; auto.
      assert (c' = ca) by (unfold at_ in *; congruence). subst. assert (p' = i) by congruence. subst.
      apply above_le in K1; auto. pose proof (fo_parent _ F _ _ _ Hb Pb). lia. }
    intros h i a ca b cb j F Ha Hb Pa Pb N A B. destruct (above_linear _ _ _ _ A B) as [K|K]; [eapply (G h i a ca b cb)|eapply (G h i b cb a ca)]; eauto.
  Qed.
  Lemma reached_above : forall h i c j, forest h -> at_ h i c -> reached h i j -> above h j i.
  Proof.
    intros h i c j F H R. revert c H. induction R as [i|i c k m j H K R IH]; intros c0 H0; [eapply above_self; eauto|].
    destruct (fo_child _ F _ _ _ _ H K) as [cm [A [B _]]]. eapply above_trans; [eapply IH; eauto|].
    eapply above_up; eauto. eapply above_self; eauto.
  Qed.
  Lemma reached_at : forall h i c j, forest h -> at_ h i c -> reached h i j -> exists cj, at_ h j cj.
  Proof. intros h i c j F H R. eapply above_at. eapply reached_above; eauto. Qed.
  Lemma reached_shape : forall h h' i j, same_shape h h' -> reached h i j -> reached h' i j.
  Proof.
    intros h h' i j S R. induction R as [i|i c k m j H K R IH]; [constructor|].
    destruct (shape_at _ _ _ _ S H) as [c' [H' E]]. apply shape_fields in E. destruct E as [_ [_ [_ E]]].
    apply re_step with (c := c') (k := k) (m := m); auto. congruence.
  Qed.
  Lemma above_shape : forall h h' i j, same_shape h h' -> above h i j -> above h' i j.
  Proof.
    intros h h' i j S R. induction R as [i c H|i c p j H P A IH].
    - destruct (shape_at _ _ _ _ S H) as [c' [H' E]]. eapply above_self; eauto.
    - destruct (shape_at _ _ _ _ S H) as [c' [H' E]]. apply shape_fields in E. destruct E as [_ [_ [E _]]].
      apply above_up with (c := c') (p := p); auto. congruence.
  Qed.

  (** ** the loop over the fixed nodes *)

  Definition keeps (c c' : core w) : Prop :=
    shape_of c' = shape_of c /\ k_actors c' = k_actors c /\ k_chactors c' = k_chactors c.

  Lemma kupd_frame : forall h i f, (forall c, keeps c (f c)) ->
    (forall j, j <> i -> nth_error (kupd h i f) j = nth_error h j)
    /\ (forall c, at_ h i c -> exists c', at_ (kupd h i f) i c' /\ keeps c c').
  Proof.
    intros h i f K. split; [intros; apply kupd_other; auto|]. intros c H. exists (f c). split; auto. apply kupd_same; auto.
  Qed.

  Lemma resp_fixed_frame : forall b imp sh i ds prior h r o h' r', resp_fixed b imp sh i ds prior h r = (o, h', r') ->
    (forall j, j <> i -> nth_error h' j = nth_error h j)
    /\ (forall c, at_ h i c -> exists c', at_ h' i c' /\ keeps c c').
  Proof.
    assert (Refl : forall h i, (forall j : nat, j <> i -> nth_error h j = nth_error h j)
       /\ (forall c, at_ h i c -> exists c', at_ h i c' /\ keeps c c'))
      by (intros h i; split; auto; intros c H; exists c; repeat split; auto).
    assert (Tr : forall h1 h2 h3 i, (forall j, j <> i -> nth_error h2 j = nth_error h1 j)
       /\ (forall c, at_ h1 i c -> exists c', at_ h2 i c' /\ keeps c c') ->
       (forall j, j <> i -> nth_error h3 j = nth_error h2 j)
       /\ (forall c, at_ h2 i c -> exists c', at_ h3 i c' /\ keeps c c') ->
       (forall j, j <> i -> nth_error h3 j = nth_error h1 j)
       /\ (forall c, at_ h1 i c -> exists c', at_ h3 i c' /\ keeps c c')).
    { intros h1 h2 h3 i [A1 A2] [B1 B2]. split; [intros; rewrite B1; auto|]. intros c H. destruct (A2 c H) as [c2 [C1 C2]].
      destruct (B2 c2 C1) as [c3 [D1 D2]]. exists c3. split; auto. destruct C2 as [? [? ?]], D2 as [? [? ?]]. repeat split; congruence. }
    intros b imp sh i. induction ds as [|d ds IH]; intros prior h r o h' r' H; cbn [resp_fixed] in H; [inversion H; subst; auto|].
    destruct (bget b d) as [l|e]; [|inversion H; subst; auto].
    destruct (dget imp d) as [v|].
    - set (h1 := kupd h i _) in *.
      assert (K := kupd_frame h i (fun c => set_locus c (dset (k_locus c) d v))). fold h1 in K.
      assert (K' : forall c, keeps c (set_locus c (dset (k_locus c) d v))) by (intros []; repeat split; auto).
      specialize (K K'). destruct (evaluate l (lookup h1 i)); [apply (Tr h h1 h'); eauto|inversion H; subst; auto].
    - destruct (mem d sh).
      + destruct (render l (lookup h i) r) as [[v r1]|e]; [|inversion H; subst; auto].
        assert (K := kupd_frame h i (fun c => set_lp (set_locus c (dset (k_locus c) (loci_name l) v)) (lp_nan w))).
        fold (kset h i (loci_name l) v) in K.
        assert (K' : forall c, keeps c (set_lp (set_locus c (dset (k_locus c) (loci_name l) v)) (lp_nan w))) by (intros []; repeat split; auto).
        specialize (K K'). destruct (evaluate l (lookup (kset h i (loci_name l) v) i)); [eapply Tr; eauto|inversion H; subst; auto].
      + destruct (evaluate l (lookup h i)); [eauto|inversion H; subst; auto].
  Qed.

  Lemma lookup_local : forall h h' i c c' x, forest h -> same_shape h h' -> (forall j, j <> i -> nth_error h' j = nth_error h j) ->
    at_ h i c -> at_ h' i c' -> dget (k_locus c) x = dget (k_locus c') x -> lookup h i x = lookup h' i x.
  Proof.
    intros h h' i c c' x F S O H H' E. apply lookup_ext; auto. intros j d d' A D D'. destruct (Nat.eq_dec j i) as [->|N].
    - assert (d = c) by (unfold at_ in *; congruence). assert (d' = c') by (unfold at_ in *; congruence). subst. auto.
    - specialize (O j N). unfold at_ in *. assert (d = d') by congruence. subst. auto.
  Qed.

  (** what happens to each entry *)
  Lemma resp_fixed_values : forall b imp sh i, coherent b -> forall ds prior h r p' h' r' c c',
    forest h -> at_ h i c -> at_ h' i c' -> NoDup ds -> resp_fixed b imp sh i ds prior h r = (Ok p', h', r') ->
    (forall x, ~ (In x ds /\ (In x (dkeys imp) \/ In x sh)) -> dget (k_locus c') x = dget (k_locus c) x)
    /\ (forall x v, In x ds -> dget imp x = Some v -> dget (k_locus c') x = Some v).
  Proof.
    intros b imp sh i C. induction ds as [|d ds IH]; intros prior h r p' h' r' c c' F Hi Hi' ND H; cbn [resp_fixed] in H.
    - inversion H; subst. assert (c' = c) by (unfold at_ in *; congruence). subst. split; [auto|intros x v []].
    - inversion ND as [|? ? Nd ND']; subst. destruct (bget b d) as [l|e] eqn:B; [|discriminate].
      apply bget_holds in B. pose proof (co_name _ C _ _ B) as Nm.
      destruct (dget imp d) as [v|] eqn:E.
      + set (h1 := kupd h i _) in *. assert (S : same_shape h h1) by (apply shape_kupd; intros []; auto).
        destruct (evaluate l (lookup h1 i)) as [q|e]; [|discriminate].
        assert (Hc : at_ h1 i (set_locus c (dset (k_locus c) d v)))
          by exact (kupd_same h i (fun c => set_locus c (dset (k_locus c) d v)) c Hi).
        destruct (IH _ _ _ _ _ _ _ _ (shape_forest _ _ S F) Hc Hi' ND' H) as [I1 I2]. cbn [k_locus set_locus] in I1. split.
        * intros x Hx. assert (Nx : x <> d) by (intros ->; apply Hx; split; [left; auto|left; apply dget_In; eauto]).
          rewrite I1 by (intros [A1 A2]; apply Hx; split; [right; auto|auto]).
          rewrite dget_dset, (proj2 (String.eqb_neq _ _) Nx). auto.
        * intros x u [<-|Hx] Hu; auto. rewrite I1 by tauto. rewrite dget_dset, String.eqb_refl. congruence.
      + destruct (mem d sh) eqn:M.
        * destruct (render l (lookup h i) r) as [[v r1]|e]; [|discriminate]. rewrite Nm in H.
          pose proof (kset_shape h i d v) as S.
          destruct (evaluate l (lookup (kset h i d v) i)) as [q|e]; [|discriminate].
          assert (Hc : at_ (kset h i d v) i (set_lp (set_locus c (dset (k_locus c) d v)) (lp_nan w)))
            by exact (kupd_same h i (fun c => set_lp (set_locus c (dset (k_locus c) d v)) (lp_nan w)) c Hi).
          destruct (IH _ _ _ _ _ _ _ _ (shape_forest _ _ S F) Hc Hi' ND' H) as [I1 I2]. cbn [k_locus set_locus set_lp] in I1. split.
          -- intros x Hx. assert (Nx : x <> d) by (intros ->; apply Hx; split; [left; auto|right; apply mem_In; auto]).
             rewrite I1 by (intros [A1 A2]; apply Hx; split; [right; auto|auto]).
             rewrite dget_dset, (proj2 (String.eqb_neq _ _) Nx). auto.
          -- intros x u [<-|Hx] Hu; auto. congruence.
        * destruct (evaluate l (lookup h i)) as [q|e]; [|discriminate].
          destruct (IH _ _ _ _ _ _ _ _ F Hi Hi' ND' H) as [I1 I2]. split.
          -- intros x Hx. apply I1. intros [A1 A2]. apply Hx. split; [right; auto|auto].
          -- intros x u [<-|Hx] Hu; auto. congruence.
  Qed.

  (** a recomputed value comes from the definition, rendered where the parents have their final
      values *)
  Lemma resp_fixed_recomputed : forall b imp sh i, coherent b -> forall ds prior h r p' h' r' c c',
    forest h -> at_ h i c -> at_ h' i c' -> NoDup ds ->
    (forall x y, edge (dag b) x y -> In x ds -> In y ds -> before ds x y) ->
    resp_fixed b imp sh i ds prior h r = (Ok p', h', r') ->
    forall n, In n ds -> dget imp n = None -> In n sh ->
    exists l rho r1 v r2, holds b n l /\ (forall p, In p (loci_parents l) -> rho p = lookup h' i p)
      /\ render l rho r1 = Ok (v, r2) /\ dget (k_locus c') n = Some v.
  Proof.
    intros b imp sh i C. induction ds as [|d ds IH]; intros prior h r p' h' r' c c' F Hi Hi' ND So H n In_n Im Sh; [destruct In_n|].
    cbn [resp_fixed] in H. inversion ND as [|? ? Nd ND']; subst.
    assert (So' : forall x y, edge (dag b) x y -> In x ds -> In y ds -> before ds x y).
    { intros x y E A B. assert (K : before (d :: ds) x y) by (apply So; simpl; auto). apply before_cons in K.
      destruct K as [[-> _]|K]; auto. tauto. }
    destruct (bget b d) as [l|e] eqn:B; [|discriminate]. apply bget_holds in B. pose proof (co_name _ C _ _ B) as Nm.
    destruct In_n as [<-|In_n].
    - rewrite Im in H. rewrite (proj2 (mem_In _ _) Sh) in H.
      destruct (render l (lookup h i) r) as [[v r1]|e] eqn:R; [|discriminate]. rewrite Nm in H.
      pose proof (kset_shape h i d v) as S.
      destruct (evaluate l (lookup (kset h i d v) i)) as [q|e]; [|discriminate].
      assert (Hc : at_ (kset h i d v) i (set_lp (set_locus c (dset (k_locus c) d v)) (lp_nan w)))
        by exact (kupd_same h i (fun c => set_lp (set_locus c (dset (k_locus c) d v)) (lp_nan w)) c Hi).
      destruct (resp_fixed_values b imp sh i C _ _ _ _ _ _ _ _ _ (shape_forest _ _ S F) Hc Hi' ND' H) as [I1 _].
      cbn [k_locus set_locus set_lp] in I1.
      exists l, (lookup h i), r, v, r1. splits; auto.
      + intros p Hp. assert (He : edge (dag b) p d) by (apply (co_parents _ C _ _ B); auto).
        assert (Np : p <> d) by (intros ->; apply (co_acyclic _ C d); constructor; auto).
        assert (Po : ~ In p ds).
        { intros Hi2. assert (K : before (d :: ds) p d) by (apply So; simpl; auto). apply before_cons in K.
          destruct K as [[-> _]|K]; auto. apply before_In in K. tauto. }
        apply (lookup_local h h' i c c'); auto.
        * eapply shape_trans; [exact S|]. eapply resp_fixed_shape; eauto.
        * intros j Nj. destruct (resp_fixed_frame _ _ _ _ _ _ _ _ _ _ _ H) as [O _]. rewrite O by auto. apply kupd_other; auto.
        * rewrite I1 by tauto. rewrite dget_dset, (proj2 (String.eqb_neq _ _) Np). auto.
      + rewrite I1 by tauto. rewrite dget_dset, String.eqb_refl. auto.
    - destruct (dget imp d) as [v|] eqn:E.
      + set (h1 := kupd h i _) in *. assert (S : same_shape h h1) by (apply shape_kupd; intros []; auto).
        destruct (evaluate l (lookup h1 i)) as [q|e]; [|discriminate].
        assert (Hc : at_ h1 i (set_locus c (dset (k_locus c) d v)))
          by exact (kupd_same h i (fun c => set_locus c (dset (k_locus c) d v)) c Hi).
        exact (IH _ _ _ _ _ _ _ _ (shape_forest _ _ S F) Hc Hi' ND' So' H n In_n Im Sh).
      + destruct (mem d sh) eqn:M.
        * destruct (render l (lookup h i) r) as [[v r1]|e]; [|discriminate]. rewrite Nm in H.
          pose proof (kset_shape h i d v) as S.
          destruct (evaluate l (lookup (kset h i d v) i)) as [q|e]; [|discriminate].
          assert (Hc : at_ (kset h i d v) i (set_lp (set_locus c (dset (k_locus c) d v)) (lp_nan w)))
            by exact (kupd_same h i (fun c => set_lp (set_locus c (dset (k_locus c) d v)) (lp_nan w)) c Hi).
          exact (IH _ _ _ _ _ _ _ _ (shape_forest _ _ S F) Hc Hi' ND' So' H n In_n Im Sh).
        * destruct (evaluate l (lookup h i)) as [q|e]; [|discriminate]. exact (IH _ _ _ _ _ _ _ _ F Hi Hi' ND' So' H n In_n Im Sh).
  Qed.

  (** ** the loop over the actors *)

  Definition quiet_change (c c' : core w) : Prop :=
    shape_of c' = shape_of c /\ k_locus c' = k_locus c /\ k_lp c' = k_lp c /\ k_prior c' = k_prior c.

  Lemma put_actor_frame : forall h p a,
    (forall j, j <> place_owner p -> nth_error (put_actor h p a) j = nth_error h j)
    /\ (forall c, at_ h (place_owner p) c -> exists c', at_ (put_actor h p a) (place_owner p) c' /\ quiet_change c c').
  Proof.
    intros h p a. destruct p as [i k|i g k]; simpl.
    - split; [intros; apply kupd_other; auto|]. intros c H. eexists. split; [apply kupd_same; eauto|].
      destruct (k_actors c); repeat split; auto.
    - split; [intros; apply kupd_other; auto|]. intros c H. eexists. split; [apply kupd_same; eauto|].
      destruct (k_chactors c) as [d|]; [destruct (dget d g)|]; repeat split; auto.
  Qed.
  Lemma quiet_refl : forall c, quiet_change c c.
  Proof. repeat split. Qed.
  Lemma quiet_trans : forall a b c, quiet_change a b -> quiet_change b c -> quiet_change a c.
  Proof. intros a b c [A1 [A2 [A3 A4]]] [B1 [B2 [B3 B4]]]. repeat split; congruence. Qed.

  Lemma resp_actors_frame : forall i ps h r o h' r', (forall p, In p ps -> place_owner p = i) ->
    resp_actors i ps h r = (o, h', r') ->
    (forall j, j <> i -> nth_error h' j = nth_error h j)
    /\ (forall c, at_ h i c -> exists c', at_ h' i c' /\ quiet_change c c').
  Proof.
    intros i. induction ps as [|p ps IH]; intros h r o h' r' P H; simpl in H.
    - inversion H; subst. split; auto. intros c Hc. exists c. split; auto. apply quiet_refl.
    - unfold update_at in H. destruct (actor_at h p) as [a|] eqn:A.
      + destruct (a_update a (lookup h i) r) as [[a'|e] r1].
        * assert (Q := P p (or_introl eq_refl)). destruct (put_actor_frame h p a') as [F1 F2]. rewrite Q in *.
          destruct (IH _ _ _ _ _ (fun q Hq => P q (or_intror Hq)) H) as [I1 I2]. split.
          -- intros j N. rewrite I1, F1; auto.
          -- intros c Hc. destruct (F2 c Hc) as [c1 [C1 C2]]. destruct (I2 c1 C1) as [c2 [D1 D2]]. exists c2. split; auto.
             eapply quiet_trans; eauto.
        * inversion H; subst. split; auto. intros c Hc. exists c. split; auto. apply quiet_refl.
      + inversion H; subst. split; auto. intros c Hc. exists c. split; auto. apply quiet_refl.
  Qed.
  Lemma shocked_places_core : forall (c : core w) i sh p, In p (shocked_places c i sh) -> place_owner p = i.
  Proof.
    intros c i sh p H. unfold shocked_places in H. apply in_app_iff in H. destruct H as [H|H].
    - destruct (k_actors c); [|destruct H]. apply in_map_iff in H. destruct H as [x [<- _]]. auto.
    - destruct (k_chactors c); [|destruct H]. apply in_flat_map in H. destruct H as [ge [_ H]]. apply in_map_iff in H.
      destruct H as [x [<- _]]. auto.
  Qed.

  (** ** every reached core is run once, after the cores above it *)

  Definition ran sc imp (sh : list name) h h' (j : nat) : Prop :=
    exists c g c', at_ h j c /\ dget (sc_groups sc) (k_group c) = Some g /\ at_ h' j c' /\
    exists hs rs prior he re ha ra ca,
      same_shape h hs /\ at_ hs j c
      /\ (forall m d d', m <> j -> above h j m -> at_ hs m d -> at_ h' m d' -> k_locus d = k_locus d')
      /\ resp_fixed (sc_bn sc) imp (filter (fun s => dmem s (k_locus c)) sh) j (g_fixed g) (lp_zero w) hs rs = (Ok prior, he, re)
      /\ resp_actors j (shocked_places c j sh) (kupd he j (fun c => set_prior c prior)) re = (Ok tt, ha, ra)
      /\ at_ ha j ca /\ k_locus c' = k_locus ca /\ k_actors c' = k_actors ca /\ k_chactors c' = k_chactors ca /\ k_prior c' = k_prior ca
      /\ k_lp c' = match filter (fun s => dmem s (k_locus c)) sh with [] => k_lp ca | _ => lp_nan w end.

  Lemma ran_start : forall sc imp sh h0 h1 h2 j, same_shape h0 h1 -> nth_error h1 j = nth_error h0 j ->
    ran sc imp sh h1 h2 j -> ran sc imp sh h0 h2 j.
  Proof.
    intros sc imp sh h0 h1 h2 j S E [c [g [c' [A [B [C [hs [rs [prior [he [re [ha [ra [ca [D1 [D2 [D3 D4]]]]]]]]]]]]]]]]].
    exists c, g, c'. splits; auto; [unfold at_ in *; congruence|]. exists hs, rs, prior, he, re, ha, ra, ca.
    split; [eapply shape_trans; eauto|]. split; auto. split; auto.
    intros m d d' N K. apply D3; auto. eapply above_shape; eauto.
  Qed.
  Lemma ran_end : forall sc imp sh h1 h2 h3 j, same_shape h2 h3 -> nth_error h3 j = nth_error h2 j ->
    (forall m d d', m <> j -> above h1 j m -> at_ h2 m d -> at_ h3 m d' -> k_locus d = k_locus d') ->
    ran sc imp sh h1 h2 j -> ran sc imp sh h1 h3 j.
  Proof.
    intros sc imp sh h1 h2 h3 j S E L [c [g [c' [A [B [C [hs [rs [prior [he [re [ha [ra [ca [D1 [D2 [D3 D4]]]]]]]]]]]]]]]]].
    exists c, g, c'. splits; auto; [unfold at_ in *; congruence|]. exists hs, rs, prior, he, re, ha, ra, ca.
    split; auto. split; auto. split; auto.
    intros m d d' N K Hd Hd'. apply shape_sym in S. destruct (shape_at _ _ _ _ S Hd') as [d2 [H2 _]].
    rewrite (D3 m d d2 N K Hd H2). exact (L m d2 d' N K H2 Hd').
  Qed.

  Lemma each_child_ran : forall sc imp sh f i,
    (forall a h r h' r', forest h -> respond f sc imp sh a h r = (Ok tt, h', r') ->
       (forall j, ~ reached h a j -> nth_error h' j = nth_error h j) /\ (forall j, reached h a j -> ran sc imp sh h h' j)) ->
    forall js h r h' r', forest h -> NoDup js -> (forall a, In a js -> exists ca, at_ h a ca /\ k_parent ca = Some i) ->
    each_child (respond f sc imp sh) js h r = (Ok tt, h', r') ->
    (forall j, (forall a, In a js -> ~ reached h a j) -> nth_error h' j = nth_error h j)
    /\ (forall a j, In a js -> reached h a j -> ran sc imp sh h h' j).
  Proof.
    intros sc imp sh f i IHf. induction js as [|a js IH]; intros h r h' r' F ND Pa H; simpl in H.
    - inversion H; subst. split; [auto|intros a j []].
    - inversion ND as [|? ? Na ND']; subst.
      destruct (respond f sc imp sh a h r) as [[[[]|e] h1] r1] eqn:E; [|discriminate].
      pose proof (respond_shape _ _ _ _ _ _ _ _ _ _ E) as S.
      destruct (IHf _ _ _ _ _ F E) as [E1 E2].
      assert (F1 : forest h1) by (eapply shape_forest; eauto).
      assert (Pa1 : forall a, In a js -> exists ca, at_ h1 a ca /\ k_parent ca = Some i).
      { intros a0 Ha0. destruct (Pa a0 (or_intror Ha0)) as [ca [C1 C2]]. destruct (shape_at _ _ _ _ S C1) as [c' [C3 C4]].
        apply shape_fields in C4. exists c'. split; auto. destruct C4 as [_ [_ [C4 _]]]. congruence. }
      pose proof (each_child_shape _ js (fun j ha ra oa hb rb Hj => respond_shape f sc imp sh j ha ra oa hb rb Hj) _ _ _ _ _ H) as S1.
      destruct (IH _ _ _ _ F1 ND' Pa1 H) as [I1 I2].
      destruct (Pa a (or_introl eq_refl)) as [ca [Ca1 Ca2]].
      (* the subtree of a is not reached from the other children *)
      assert (Dis : forall x b0, In b0 js -> above h x a -> reached h1 b0 x -> False).
      { intros x b0 Hb0 Ax Rx. destruct (Pa b0 (or_intror Hb0)) as [cb [Cb1 Cb2]].
        apply (siblings_disjoint h i a ca b0 cb x); auto; [intros ->; auto|].
        apply (reached_above h b0 cb x); auto. eapply reached_shape; [apply shape_sym; exact S|auto]. }
      split.
      + intros j Hj. rewrite I1.
        * apply E1. apply Hj. left; auto.
        * intros b0 Hb0 R. apply (Hj b0 (or_intror Hb0)). eapply reached_shape; [apply shape_sym; exact S|auto].
      + intros a0 j [<-|Ha0] R.
        * pose proof (reached_above h a ca j F Ca1 R) as Aj.
          apply ran_end with (h2 := h1); auto.
          -- apply I1. intros b0 Hb0 Rb. apply (Dis j b0); auto.
          -- intros m d d' N K Hd Hd'. assert (Q : nth_error h' m = nth_error h1 m).
             { apply I1. intros b0 Hb0 Rb. destruct (Pa b0 (or_intror Hb0)) as [cb [Cb1 Cb2]].
               apply (siblings_disjoint h i a ca b0 cb j); auto; [intros ->; auto|].
               eapply above_trans; [exact K|]. apply (reached_above h b0 cb m); auto.
               eapply reached_shape; [apply shape_sym; exact S|auto]. }
             unfold at_ in *. congruence.
        * apply ran_start with (h1 := h1); auto.
          -- apply E1. intros Ra. pose proof (reached_above h a ca j F Ca1 Ra) as Aj. apply (Dis j a0); auto.
             eapply reached_shape; eauto.
          -- apply (I2 a0); auto. eapply reached_shape; eauto.
  Qed.

  Lemma children_NoDup : forall (d : dict nat), NoDup (dkeys d) ->
    (forall k k' j, dget d k = Some j -> dget d k' = Some j -> k = k') -> NoDup (map snd d).
  Proof.
    intros d ND I. assert (I' : forall k k' j, In (k, j) d -> In (k', j) d -> k = k')
      by (intros; eapply I; eapply in_pair_dget; eauto).
    clear I. induction d as [|[k j] d IH]; simpl; constructor.
    - intros Hi. apply in_map_iff in Hi. destruct Hi as [[k' j'] [E Hi]]. simpl in E. subst.
      inversion ND as [|? ? N _]; subst. apply N. rewrite (I' k k' j (or_introl eq_refl) (or_intror Hi)).
      apply (in_map fst) in Hi. auto.
    - inversion ND; subst. apply IH; auto. intros. eapply I'; simpl; eauto.
  Qed.

  Lemma respond_ran : forall f sc imp sh i h r h' r', forest h -> respond f sc imp sh i h r = (Ok tt, h', r') ->
    (forall j, ~ reached h i j -> nth_error h' j = nth_error h j) /\ (forall j, reached h i j -> ran sc imp sh h h' j).
  Proof.
    induction f as [|f IH]; intros sc imp sh i h r h' r' F H; cbn [respond] in H; [discriminate|].
    destruct (nth_error h i) as [c|] eqn:Ei; [|discriminate].
    unfold group_of in H. rewrite Ei in H. destruct (dget (sc_groups sc) (k_group c)) as [g|] eqn:Eg; [|discriminate].
    destruct (resp_fixed _ _ _ _ _ _ _ _) as [[[prior|e] h1] r1] eqn:E1; [|discriminate].
    destruct (resp_actors _ _ _ _) as [[[[]|e] h2] r2] eqn:E2; [|discriminate].
    destruct (each_child _ _ _ _) as [[[[]|e] h3] r3] eqn:E3; [|discriminate].
    pose proof (resp_fixed_shape _ _ _ _ _ _ _ _ _ _ _ E1) as S1.
    destruct (resp_fixed_frame _ _ _ _ _ _ _ _ _ _ _ E1) as [O1 K1]. destruct (K1 c Ei) as [c1 [C1 C1k]].
    assert (S1p : same_shape h1 (kupd h1 i (fun c => set_prior c prior))) by (apply shape_kupd; intros []; auto).
    pose proof (kupd_same h1 i (fun c => set_prior c prior) c1 C1) as C1p.
    pose proof (resp_actors_shape _ _ _ _ _ _ _ E2) as S2.
    destruct (resp_actors_frame _ _ _ _ _ _ _ (shocked_places_core c i sh) E2) as [O2 K2].
    destruct (K2 _ C1p) as [c2 [C2 C2q]].
    assert (S02 : same_shape h h2) by (eapply shape_trans; [exact S1|eapply shape_trans; eauto]).
    assert (F2 : forest h2) by (eapply shape_forest; eauto).
    assert (O02 : forall j, j <> i -> nth_error h2 j = nth_error h j)
      by (intros j N; rewrite O2 by auto; rewrite kupd_other by auto; auto).
    assert (Ch : forall a, In a (map snd (k_children c)) -> exists k, dget (k_children c) k = Some a).
    { intros a Ha. apply in_map_iff in Ha. destruct Ha as [[k a'] [E Ha]]. simpl in E. subst. exists k. apply in_pair_dget; auto.
      eapply (fo_keys _ F); eauto. }
    assert (NDc : NoDup (map snd (k_children c))).
    { apply children_NoDup; [eapply (fo_keys _ F); eauto|]. intros k k' j A B.
      destruct (fo_child _ F _ _ _ _ Ei A) as [cj [A1 [_ A2]]]. destruct (fo_child _ F _ _ _ _ Ei B) as [cj' [B1 [_ B2]]].
      unfold at_ in *. congruence. }
    assert (Pa : forall a, In a (map snd (k_children c)) -> exists ca, at_ h2 a ca /\ k_parent ca = Some i).
    { intros a Ha. destruct (Ch a Ha) as [k Hk]. destruct (fo_child _ F _ _ _ _ Ei Hk) as [ca [A1 [A2 _]]].
      destruct (shape_at _ _ _ _ S02 A1) as [c' [A3 A4]]. apply shape_fields in A4. destruct A4 as [_ [_ [A4 _]]]. exists c'. split; auto. congruence. }
    pose proof (each_child_shape _ (map snd (k_children c)) (fun j ha ra oa hb rb Hj => respond_shape f sc imp sh j ha ra oa hb rb Hj) _ _ _ _ _ E3) as S3.
    destruct (each_child_ran sc imp sh f i (fun a h r h' r' => IH sc imp sh a h r h' r') _ _ _ _ _ F2 NDc Pa E3) as [O3 R3].
    set (sl := filter (fun s => dmem s (k_locus c)) sh) in *.
    assert (Eh' : exists fn, h' = match sl with [] => h3 | _ => kupd h3 i fn end /\ fn = (fun c => set_lp c (lp_nan w))).
    { eexists. split; [|reflexivity]. inversion H; subst. destruct sl; auto. }
    destruct Eh' as [fn [Eh' Efn]].
    assert (S3' : same_shape h3 h') by (rewrite Eh'; destruct sl; [apply shape_refl|subst fn; apply shape_kupd; intros []; auto]).
    assert (O3' : forall j, j <> i -> nth_error h' j = nth_error h3 j) by (intros j N; rewrite Eh'; destruct sl; auto; apply kupd_other; auto).
    (* addresses up to i are not touched by the children *)
    assert (Up : forall m, m <= i -> nth_error h3 m = nth_error h2 m).
    { intros m Lm. apply O3. intros a Ha R. destruct (Pa a Ha) as [ca [A1 A2]]. pose proof (reached_above _ _ _ _ F2 A1 R) as A3.
      apply above_le in A3; auto. pose proof (fo_parent _ F2 _ _ _ A1 A2). lia. }
    assert (C3 : at_ h3 i c2) by (unfold at_ in *; rewrite Up; auto).
    assert (C3' : exists c', at_ h' i c' /\ k_locus c' = k_locus c2 /\ k_actors c' = k_actors c2 /\ k_chactors c' = k_chactors c2
        /\ k_prior c' = k_prior c2 /\ k_lp c' = match sl with [] => k_lp c2 | _ => lp_nan w end).
    { rewrite Eh'. destruct sl; [exists c2; splits; auto|]. exists (fn c2). split; [apply kupd_same; auto|]. subst fn. splits; auto. }
    destruct C3' as [c' [C' [L1 [L2 [L3 [L4 L5]]]]]].
    split.
    - intros j N. assert (Nj : j <> i) by (intros ->; apply N; constructor). rewrite O3' by auto.
      rewrite O3; [apply O02; auto|]. intros a Ha R. apply N. destruct (Ch a Ha) as [k Hk]. eapply re_step; eauto.
      eapply reached_shape; [apply shape_sym; exact S02|auto].
    - intros j R. inversion R as [|? ci k m ? Hci Hk R']; subst i0.
      + subst j. exists c, g, c'. splits; auto. exists h, r, prior, h1, r1, h2, r2, c2. splits; auto; [apply shape_refl|].
        intros m d d' N A Hd Hd'. apply above_le in A; auto.
        assert (nth_error h' m = nth_error h m) by (rewrite O3' by auto; rewrite Up by auto; apply O02; auto).
        unfold at_ in *. congruence.
      + assert (ci = c) by (unfold at_ in *; congruence). subst ci.
        assert (Hm : In m (map snd (k_children c))) by (apply in_map_iff; exists (k, m); split; auto; apply dget_in_pair; auto).
        assert (Rm : reached h2 m j) by (eapply reached_shape; eauto).
        destruct (Pa m Hm) as [cm [M1 M2]].
        assert (Gt : i < j). { pose proof (reached_above _ _ _ _ F2 M1 Rm) as A3. apply above_le in A3; auto.
          pose proof (fo_parent _ F2 _ _ _ M1 M2). lia. }
        apply ran_start with (h1 := h2); [auto|apply O02; lia|].
        apply ran_end with (h2 := h3); [auto|apply O3'; lia| |apply (R3 m); auto].
        intros x d d' N A Hd Hd'. destruct (Nat.eq_dec x i) as [->|Nx].
        * assert (d = c2) by (unfold at_ in *; congruence). assert (d' = c') by (unfold at_ in *; congruence). subst. auto.
        * specialize (O3' x Nx). unfold at_ in *. congruence.
  Qed.
End ProofSimResp.
