(** * How a new parameter core gets its values, and compound actors *)

Require Import Coq.micromega.Lia.
Require Import Verif.Base Verif.World Verif.ModelGraph Verif.ModelExpr Verif.ModelLoci Verif.ModelBN Verif.ModelSample Verif.ModelSim
        Verif.Spec Verif.SpecBN Verif.SpecExpr Verif.SpecSample Verif.SpecSim
        Verif.ProofBase Verif.ProofGraph Verif.ProofExpr Verif.ProofBN Verif.ProofSample Verif.ProofSim Verif.ProofSimResp Verif.ProofSimImp.

Section ProofSimGen.
  Context {w : world}.
  Notation lookup := ModelSim.lookup.

  (** only exogenous and function nodes raise KeyError, and they read nothing but parents *)
  Lemma render_keyerror : forall (l : loci w) e e' r r', render l e r = Err KeyError ->
    e (loci_name l) = e' (loci_name l) -> (forall p, In p (loci_parents l) -> e p = e' p) -> render l e' r' = Err KeyError.
  Proof.
    intros l e e' r r' H N P. destruct l as [n v|n|n f ps|n ex ps|n ps]; simpl in *; try discriminate.
    - rewrite <- N. destruct (e n); congruence.
    - unfold get_distribution in H. destruct (parse_distribution f e) as [d|[]]; simpl in H; discriminate.
    - rewrite <- (restrict_agree e e' ps) by auto. destruct (restrict e ps) as [d|x]; [|congruence].
      destruct (execute ex (dget d)) as [v|[]]; congruence.
  Qed.

  Lemma gen_exo_ok : forall (b : bn w) (h : cores w) par ds vs r vs' r',
    (forall d, In d ds -> In d (dkeys vs) \/ exists p v, par = Some p /\ lookup h p d = Some v) ->
    gen_exo b h par ds vs r = (Ok vs', r') ->
    forall x, dget vs' x = match dget vs x with
                           | Some v => Some v
                           | None => if mem x ds then match par with Some p => lookup h p x | None => None end else None
                           end.
  Proof.
    intros b h par. induction ds as [|d ds IH]; intros vs r vs' r' F H x; cbn [gen_exo] in H.
    - inversion H; subst. destruct (dget vs' x); auto.
    - destruct (dmem d vs) eqn:D.
      + rewrite (IH _ _ _ _ (fun y Hy => F y (or_intror Hy)) H x). destruct (dget vs x) eqn:E; auto.
        cbn [mem existsb]. destruct (String.eqb_spec x d) as [->|N]; auto. apply dmem_In in D. apply dget_None in E. tauto.
      + apply dmem_false in D. destruct (F d (or_introl eq_refl)) as [|[p [v [-> L]]]]; [tauto|]. rewrite L in H.
        assert (F' : forall y, In y ds -> In y (dkeys (dset vs d v)) \/ (exists p0 v0, Some p = Some p0 /\ lookup h p0 y = Some v0)).
        { intros y Hy. destruct (F y (or_intror Hy)) as [Q|Q]; auto. left. apply dmem_In. unfold dmem. rewrite dget_dset.
          destruct (String.eqb y d); auto. apply dmem_In in Q. unfold dmem in Q. auto. }
        rewrite (IH _ _ _ _ F' H x). rewrite dget_dset. cbn [mem existsb]. destruct (String.eqb_spec x d) as [->|N]; auto.
        apply dget_None in D. rewrite D. simpl. auto.
  Qed.

  Lemma gen_fixed_ok : forall b : bn w, coherent b -> forall ds vs prior r vs' prior' r', NoDup ds ->
    (forall p n, edge (dag b) p n -> In p ds -> In n ds -> before ds p n) ->
    gen_fixed b ds vs prior r = (Ok (vs', prior'), r') ->
    (forall x v, dget vs x = Some v -> dget vs' x = Some v)
    /\ (forall x, ~ In x (dkeys vs) -> ~ In x ds -> dget vs' x = None)
    /\ forall n, In n ds -> ~ In n (dkeys vs) ->
         match dget vs' n with
         | Some v => made b (dget vs') n v
         | None => exists l, holds b n l /\ forall r, render l (dget vs') r = Err KeyError
         end.
  Proof.
    intros b C. induction ds as [|d ds IH]; intros vs prior r vs' prior' r' ND Od H; cbn [gen_fixed] in H.
    { inversion H; subst. splits; auto; [intros x Hx _; apply dget_None; auto|intros n []]. }
    inversion ND as [|? ? Nd ND']; subst.
    assert (Od' : forall p n, edge (dag b) p n -> In p ds -> In n ds -> before ds p n).
    { intros p n E Hp Hn. pose proof (Od p n E (or_intror Hp) (or_intror Hn)) as B. apply before_cons in B.
      destruct B as [[-> _]|B]; auto. tauto. }
    assert (Pd : forall p, edge (dag b) p d -> p <> d /\ ~ In p ds).
    { intros p E. assert (N : p <> d) by (intros ->; apply (co_acyclic _ C d); constructor; auto).
      split; auto. intros Hp. pose proof (Od p d E (or_intror Hp) (or_introl eq_refl)) as B. apply before_cons in B.
      destruct B as [[-> _]|B]; [tauto|]. apply before_In in B. tauto. }
    destruct (bget b d) as [l|e] eqn:L; [|discriminate]. apply bget_holds in L.
    assert (Nl := co_name _ C _ _ L).
    destruct (dmem d vs) eqn:D.
    - (* given or inherited *)
      apply dmem_In in D. assert (D' : dmem d vs = true) by (apply dmem_In; auto). rewrite D' in H.
      destruct (evaluate l (dget vs)) as [p|e]; [|discriminate].
      destruct (IH _ _ _ _ _ _ ND' Od' H) as [I1 [I2 I3]]. splits; auto.
      + intros x Hx Hn. apply I2; auto. intros Q. apply Hn. right. auto.
      + intros n [->|Hn] Hk; [tauto|exact (I3 n Hn Hk)].
    - pose proof (proj1 (dmem_false vs d) D) as Dn.
      destruct (fill l vs r) as [[vs1 r1]|e] eqn:Fl.
      + unfold fill in Fl. destruct (render l (dget vs) r) as [[v r2]|] eqn:R; simpl in Fl; [|discriminate].
        inversion Fl; subst vs1 r1. clear Fl. rewrite Nl in H.
        assert (D1 : dmem d (dset vs d v) = true) by (unfold dmem; rewrite dget_dset, String.eqb_refl; auto).
        rewrite D1 in H. destruct (evaluate l (dget (dset vs d v))) as [p|e]; [|discriminate].
        destruct (IH _ _ _ _ _ _ ND' Od' H) as [I1 [I2 I3]].
        assert (K : forall x u, dget vs x = Some u -> dget vs' x = Some u).
        { intros x u Hx. apply I1. apply below_dset; auto. }
        assert (Z : forall x, ~ In x (dkeys vs) -> x <> d -> ~ In x ds -> dget vs' x = None).
        { intros x Hx Nx Hd. apply I2; auto. rewrite dkeys_dset, sadd_In. tauto. }
        splits; auto.
        * intros x Hx Hn. apply Z; auto; intros Q; apply Hn; [left; auto|right; auto].
        * intros n Hn Hk. destruct (String.string_dec n d) as [->|N].
          -- assert (E : dget vs' d = Some v) by (apply I1; rewrite dget_dset, String.eqb_refl; auto). rewrite E.
             exists l, (dget vs), r, r2. splits; auto; [|apply dget_None; auto].
             intros p' Hp. apply (co_parents _ C _ _ L) in Hp. destruct (Pd p' Hp) as [Q1 Q2].
             destruct (dget vs p') as [u|] eqn:U; [rewrite (K _ _ U); auto|]. apply dget_None in U. symmetry. auto.
          -- destruct Hn as [|Hn]; [congruence|]. apply I3; auto. rewrite dkeys_dset, sadd_In. tauto.
      + destruct e; try discriminate. rewrite D in H.
        destruct (IH _ _ _ _ _ _ ND' Od' H) as [I1 [I2 I3]].
        assert (Ed : dget vs' d = None) by (apply I2; auto).
        splits; auto.
        * intros x Hx Hn. apply I2; auto. intros Q. apply Hn. right. auto.
        * intros n [->|Hn] Hk; [|exact (I3 n Hn Hk)]. rewrite Ed. exists l. split; auto. intros r0.
          unfold fill in Fl. destruct (render l (dget vs) r) as [[v r2]|e] eqn:R; simpl in Fl; [discriminate|]. inversion Fl; subst e.
          apply (render_keyerror l (dget vs) (dget vs') r r0 R).
          -- rewrite Nl, Ed. apply dget_None. auto.
          -- intros p' Hp. apply (co_parents _ C _ _ L) in Hp. destruct (Pd p' Hp) as [Q1 Q2].
             destruct (dget vs p') as [u|] eqn:U; [rewrite (I1 _ _ U); auto|]. apply dget_None in U. symmetry. auto.
  Qed.

  (** ** LogPrior after an intervention *)

  Lemma resp_fixed_prior : forall (b : bn w) imp sh i, coherent b -> forall ds prior h r p' h' r' c c',
    forest h -> at_ h i c -> at_ h' i c' -> NoDup ds ->
    (forall x y, edge (dag b) x y -> In x ds -> In y ds -> before ds x y) ->
    resp_fixed b imp sh i ds prior h r = (Ok p', h', r') ->
    exists qs, Forall2 (fun d q => exists l rho, holds b d l /\ (forall p, In p (loci_parents l) \/ p = d -> rho p = lookup h' i p)
                                   /\ evaluate l rho = Ok q) ds qs
      /\ p' = fold_left (lp_add w) qs prior.
  Proof.
    intros b imp sh i C. induction ds as [|d ds IH]; intros prior h r p' h' r' c c' F Hi Hi' ND So H.
    { inversion H; subst. exists []. split; auto. }
    cbn [resp_fixed] in H. inversion ND as [|? ? Nd ND']; subst.
    assert (So' : forall x y, edge (dag b) x y -> In x ds -> In y ds -> before ds x y).
    { intros x y E A B. assert (K : before (d :: ds) x y) by (apply So; simpl; auto). apply before_cons in K.
      destruct K as [[-> _]|K]; auto. tauto. }
    destruct (bget b d) as [l|e] eqn:B; [|discriminate]. apply bget_holds in B. pose proof (co_name _ C _ _ B) as Nm.
    assert (Step : forall h1 r1 c1 q, forest h1 -> at_ h1 i c1 -> evaluate l (lookup h1 i) = Ok q ->
      resp_fixed b imp sh i ds (lp_add w prior q) h1 r1 = (Ok p', h', r') ->
      exists qs, Forall2 (fun d q => exists l rho, holds b d l /\ (forall p, In p (loci_parents l) \/ p = d -> rho p = lookup h' i p)
                                     /\ evaluate l rho = Ok q) (d :: ds) qs
        /\ p' = fold_left (lp_add w) qs prior).
    { intros h1 r1 c1 q F1 H1 E Q. destruct (IH _ _ _ _ _ _ _ _ F1 H1 Hi' ND' So' Q) as [qs [I1 I2]].
      destruct (resp_fixed_values b imp sh i C _ _ _ _ _ _ _ _ _ F1 H1 Hi' ND' Q) as [V1 _].
      exists (q :: qs). split; [constructor; auto|auto]. exists l, (lookup h1 i). splits; auto. intros p Hp.
      assert (Po : ~ In p ds).
      { destruct Hp as [Hp| ->]; auto. intros Hi2. assert (He : edge (dag b) p d) by (apply (co_parents _ C _ _ B); auto).
        assert (K : before (d :: ds) p d) by (apply So; simpl; auto). apply before_cons in K.
        destruct K as [[-> _]|K]; auto. apply before_In in K. tauto. }
      apply (lookup_local h1 h' i c1 c'); auto.
      - eapply resp_fixed_shape; eauto.
      - intros j Nj. destruct (resp_fixed_frame _ _ _ _ _ _ _ _ _ _ _ Q) as [O _]. auto.
      - rewrite V1 by tauto. auto. }
    destruct (dget imp d) as [v|] eqn:E.
    - set (h1 := kupd h i _) in *. assert (S : same_shape h h1) by (apply shape_kupd; intros []; auto).
      destruct (evaluate l (lookup h1 i)) as [q|e] eqn:Ev; [|discriminate].
      apply (Step h1 r (set_locus c (dset (k_locus c) d v)) q); auto; [eapply shape_forest; eauto|].
      exact (kupd_same h i (fun c => set_locus c (dset (k_locus c) d v)) c Hi).
    - destruct (mem d sh).
      + destruct (render l (lookup h i) r) as [[v r1]|e]; [|discriminate].
        destruct (evaluate l (lookup (kset h i (loci_name l) v) i)) as [q|e] eqn:Ev; [|discriminate].
        eapply (Step (kset h i (loci_name l) v) r1 _ q); eauto; [eapply shape_forest; [apply kset_shape|auto]|].
        exact (kupd_same h i (fun c => set_lp (set_locus c (dset (k_locus c) (loci_name l) v)) (lp_nan w)) c Hi).
      + destruct (evaluate l (lookup h i)) as [q|e] eqn:Ev; [|discriminate]. eapply Step; eauto.
  Qed.

  (** DeepLogPrior: children are younger, so the fuel suffices *)
  Lemma deep_prior_defined : forall f (h : cores w) i c, forest h -> at_ h i c -> length h <= f + i ->
    match deep_prior f h i with
    | Ok _ => forall j cj, reached h i j -> at_ h j cj -> k_prior cj <> None
    | Err e => e = AttributeError /\ exists j cj, reached h i j /\ at_ h j cj /\ k_prior cj = None
    end.
  Proof.
    induction f as [|f IH]; intros h i c F Hc L; [apply at_length in Hc; lia|].
    cbn [deep_prior]. pose proof Hc as Hc'. unfold at_ in Hc. rewrite Hc.
    destruct (k_prior c) as [q|] eqn:Q; [|split; auto; exists i, c; splits; auto; constructor].
    assert (Ch : forall k m, In (k, m) (k_children c) -> exists cm, at_ h m cm /\ length h <= f + m /\ (forall j, reached h m j -> reached h i j)).
    { intros k j Hk. apply in_pair_dget in Hk; [|apply (fo_keys _ F i); auto].
      destruct (fo_child _ F _ _ _ _ Hc' Hk) as [cj [A [B _]]]. exists cj. splits; auto.
      - pose proof (fo_parent _ F _ _ _ A B). lia.
      - intros j' R. apply re_step with (c := c) (k := k) (m := j); auto. }
    destruct (mapM (fun kj => deep_prior f h (snd kj)) (k_children c)) as [ps|e] eqn:M; simpl.
    - intros j cj R Hj. inversion R as [? E|? c0 k m ? K1 K2 K3]; subst.
      + assert (cj = c) by (unfold at_ in *; congruence). congruence.
      + assert (c0 = c) by (unfold at_ in *; congruence). subst.
        assert (Hk : In (k, m) (k_children c)) by (apply dget_in_pair; auto).
        destruct (Ch _ _ Hk) as [cm [C1 [C2 C3]]]. specialize (IH h m cm F C1 C2).
        destruct (deep_prior f h m) as [pm|e] eqn:D; [apply (IH j); auto|]. exfalso.
        apply mapM_ok in M. clear - M Hk D. induction M as [|a y l ys H M IH]; [destruct Hk|]. destruct Hk as [->|Hk]; auto. simpl in H. congruence.
    - apply mapM_err in M. destruct M as [[k m] [Hk M]]. simpl in M. destruct (Ch _ _ Hk) as [cm [C1 [C2 C3]]].
      specialize (IH h m cm F C1 C2). rewrite M in IH. destruct IH as [-> [j [cj [I1 I2]]]]. split; auto. exists j, cj. auto.
  Qed.

  (** ** compound actors *)

  Lemma run_flow_ok : forall flow pas out r pas' out' r', run_flow flow pas out r = (Ok (pas', out'), r') ->
    NoDup (map (@loci_name w) flow) -> (forall l, In l flow -> dget pas (loci_name l) = None) ->
    (forall x, ~ In x (map (@loci_name w) flow) -> dget pas' x = dget pas x /\ dget out' x = dget out x)
    /\ (forall l, In l flow -> exists rho r1 v r2, below rho (dget pas') /\ rho (loci_name l) = None /\ render l rho r1 = Ok (v, r2)
         /\ dget pas' (loci_name l) = Some v /\ dget out' (loci_name l) = Some v
         /\ forall p, (In p (map (@loci_name w) flow) -> before (map (@loci_name w) flow) p (loci_name l)) -> rho p = dget pas' p)
    /\ below (dget pas) (dget pas').
  Proof.
    induction flow as [|l flow IH]; intros pas out r pas' out' r' H ND F; cbn [run_flow] in H.
    - inversion H; subst. splits; auto; [intros l []|apply below_refl].
    - destruct (render l (dget pas) r) as [[v r1]|e] eqn:R; [|discriminate]. simpl in ND. inversion ND as [|? ? Nl ND']; subst.
      assert (Fl : ~ In (loci_name l) (dkeys pas)) by (apply dget_None; apply F; left; auto).
      assert (F' : forall m, In m flow -> dget (dset pas (loci_name l) v) (loci_name m) = None).
      { intros m Hm. rewrite dget_dset. destruct (String.eqb_spec (loci_name m) (loci_name l)) as [E|]; [|apply F; right; auto].
        destruct Nl. rewrite <- E. apply in_map. auto. }
      destruct (IH _ _ _ _ _ _ H ND' F') as [I1 [I2 I3]]. splits.
      + intros x Hx. simpl in Hx. destruct (I1 x) as [J1 J2]; [tauto|]. rewrite J1, J2, !dget_dset.
        destruct (String.eqb_spec x (loci_name l)); auto. subst. tauto.
      + intros m [<-|Hm].
        * exists (dget pas), r, v, r1.
          destruct (I1 (loci_name l) Nl) as [J1 J2]. rewrite !dget_dset, String.eqb_refl in *. splits; auto.
          -- eapply below_trans; [apply below_dset; exact Fl|exact I3].
          -- apply F. left. auto.
          -- intros p Hp. simpl in Hp. assert (Np : p <> loci_name l).
             { intros ->. eapply (before_neq _ _ _ _ ND); [apply Hp; auto|auto]. }
             assert (Np' : ~ In p (map (@loci_name w) flow)).
             { intros Q. specialize (Hp (or_intror Q)). apply before_cons in Hp. destruct Hp as [[E1 E2]|Hp]; [apply Nl; exact E2|].
               apply before_In in Hp. tauto. }
             destruct (I1 p Np') as [-> _]. rewrite dget_dset, (proj2 (String.eqb_neq _ _) Np). auto.
        * destruct (I2 m Hm) as [rho [r2 [u [r3 [A1 [A2 [A3 [A4 [A5 A6]]]]]]]]]. exists rho, r2, u, r3. splits; auto.
          intros p Hp. apply A6. intros Q. simpl in Hp. specialize (Hp (or_intror Q)). apply before_cons in Hp.
          destruct Hp as [[E1 _]|Hp]; auto. destruct Nl. rewrite E1. auto.
      + eapply below_trans; [apply below_dset; exact Fl|exact I3].
  Qed.
End ProofSimGen.
