(** * Properties C85 (find_free_parameters) and C86 (a core with everything fixed is a sample) *)

Require Import Coq.ZArith.ZArith Coq.micromega.Lia Coq.Sorting.Permutation.
Require Import Verif.Base Verif.World Verif.ModelGraph Verif.ModelExpr Verif.ModelLoci Verif.ModelBN Verif.ModelSample Verif.ModelSim
        Verif.ModelNodeSet Verif.Spec Verif.SpecBN Verif.SpecExpr Verif.SpecSample Verif.SpecSim Verif.SpecNodeSet
        Verif.ProofBase Verif.ProofGraph Verif.ProofExpr Verif.ProofBN Verif.ProofBNViews Verif.ProofBNHist Verif.ProofSample Verif.ProofSimGen
        Verif.ProofNodeSet Verif.ProofNodeSetInj Verif.ProofNodeSetMain Verif.ProofNodeSetOne
        Verif.ExWorld Verif.PropsBN Verif.PropsSample Verif.PropsSim Verif.PropsNodeSet.

(** ** C85 *)

(** a random node without random ancestors *)
Definition random_root {w} (b : bn w) (x : name) : Prop := random b x /\ forall a, path (dag b) a x -> ~ random b a.

Lemma find_free_split : forall w (sc : simcore w) exo h r l h' r', find_free sc exo h r = (Ok l, h', r') ->
  exists i, sc_generate sc "" exo h r = (Ok i, h', r')
    /\ exists rv, RVRoots (sc_bn sc) = Ok rv /\ l = filter (fun k => mem k rv) (match nth_error h' i with Some c => dkeys (k_locus c) | None => [] end).
Proof.
  intros w sc exo h r l h' r' H. unfold find_free in H. destruct (sc_generate sc "" exo h r) as [[[i|e] h1] r1]; [|discriminate].
  destruct (RVRoots (sc_bn sc)) as [rv|e]; cbn [bind] in H; [|discriminate]. inversion H; subst. eauto.
Qed.

Lemma nth_last : forall (A : Type) (h : list A) c, nth_error (h ++ [c]) (length h) = Some c.
Proof. intros A h c. rewrite nth_error_app2, Nat.sub_diag; auto. Qed.

(** With everything fixed it lists all random roots, whether or not their values were given. *)
Theorem C85_fixed : forall w (b : bn w) sc exo h r l h' r', built b -> all_fixed_sc b = Ok sc -> history sc h -> NoDup (dkeys exo) ->
  find_free sc exo h r = (Ok l, h', r') -> forall x, In x l <-> random_root b x.
Proof.
  intros w b sc exo h r l h' r' B E Hh Nd H x. destruct (find_free_split _ _ _ _ _ _ _ _ H) as (i & G & rv & Er & ->).
  destruct (all_fixed_group w b sc B E) as (od & g & Eb & _). rewrite Eb in Er.
  destruct (built_coherent _ B) as [C F]. destruct (C17_rv_roots w b C F) as [rv' [Er' [[_ Ir] _]]]. rewrite Er in Er'. inversion Er'; subst rv'. clear Er'.
  destruct (C48_generate w b sc "" exo h r i h' r' B E Hh Nd G) as (c & -> & -> & H3 & _ & H5). rewrite nth_last, filter_In, mem_In, Ir.
  split; [unfold random_root; tauto|]. intros R. split; auto. destruct (In_dec_name x (dkeys exo)) as [Hx|Hx].
  - apply dget_In in Hx. destruct Hx as [v Hx]. apply dget_In. eauto.
  - destruct R as [[l [Hl1 Hl2]] _]. specialize (H5 x (holds_node _ _ _ Hl1) Hx). destruct (dget (k_locus c) x) as [v|] eqn:Q; [apply dget_In; eauto|].
    exfalso. destruct H5 as (l' & K1 & K2). rewrite (holds_fun _ _ _ _ Hl1 K1) in *. specialize (K2 (dget (k_locus c)) r (fun _ => eq_refl)).
    destruct l'; try discriminate Hl2. simpl in K2. unfold get_distribution in K2. destruct (parse_distribution func (dget (k_locus c))) as [D|[]]; simpl in K2; discriminate.
Qed.
Print Assumptions C85_fixed.

(** With one group and nothing asked to be fixed it lists exactly the random roots whose values were given. *)
Theorem C85_floating : forall w (b : bn w) nm fl sc exo h r l h' r', built b -> as_simulation_core b (Some (NSet nm [] fl [])) = Ok sc ->
  find_free sc exo h r = (Ok l, h', r') -> forall x, In x l <-> random_root b x /\ In x (dkeys exo).
Proof.
  intros w b nm fl sc exo h r l h' r' B E H x. destruct (find_free_split _ _ _ _ _ _ _ _ H) as (i & G & rv & Er & ->).
  unfold as_simulation_core in E. destruct (inject b (NSet nm [] fl [])) as [s|] eqn:Ei; cbn [bind] in E; [|discriminate]. inversion E; subst sc. clear E.
  cbn [sc_bn] in Er. destruct (built_coherent _ B) as [C F]. destruct (C17_rv_roots w b C F) as [rv' [Er' [[_ Ir] _]]]. rewrite Er in Er'. inversion Er'; subst rv'. clear Er'.
  destruct (float_partition b nm fl s C F Ei) as (_ & _ & P3).
  assert (Rs : length (allocs s) = 1).
  { destruct (C49_requested w b _ s B Ei) as [Q _]. inversion Q as [|q a l1 l2 _ Q2 Eq]; subst. inversion Q2; subst. reflexivity. }
  assert (Ks : s_kids s = []).
  { destruct s as [a sh ks]. rewrite allocs_eq in Rs. cbn in Rs |- *. destruct ks as [|k ks]; auto. exfalso.
    destruct k as [a1 sh1 ks1]. cbn [flat_map] in Rs. rewrite allocs_eq in Rs. cbn in Rs. lia. }
  destruct s as [a sh ks]. cbn [s_kids s_alloc] in *. subst ks.
  unfold sc_generate in G. cbn in G. rewrite String.eqb_refl in G. unfold generate in G.
  destruct (gen_exo _ h None _ exo r) as [[vs|e] r1]; [|discriminate].
  destruct (gen_fixed _ _ vs (lp_zero w) r1) as [[[vs' prior]|e] r2]; [|discriminate]. inversion G; subst. clear G.
  rewrite nth_last, filter_In, mem_In, Ir. cbn [k_locus]. rewrite dkeys_dupdate_In, dkeys_dfilter, filter_In, mem_In. cbn.
  unfold random_root. split; [|tauto]. intros [[[_ Q]|Q] R]; [|tauto]. exfalso. apply (P3 x Q). tauto.
Qed.
Print Assumptions C85_floating.

Definition exfloat : simcore exw := match all_float_sc exnet with Ok sc => sc | Err _ => exsc end.
(** x is the random root: found free with everything fixed, also if given; with everything floating only if given *)
Example C85_example : built exnet /\ all_fixed_sc exnet = Ok exfix /\ all_float_sc exnet = Ok exfloat
  /\ fst (fst (find_free exfix [("a", PZ 1); ("s", PZ 2)] [] 3)) = Ok ["x"]
  /\ fst (fst (find_free exfix [("a", PZ 1); ("s", PZ 2); ("x", PZ 9)] [] 3)) = Ok ["x"]
  /\ fst (fst (find_free exfloat [("a", PZ 1); ("s", PZ 2)] [] 3)) = Ok []
  /\ fst (fst (find_free exfloat [("a", PZ 1); ("s", PZ 2); ("x", PZ 9)] [] 3)) = Ok ["x"].
Proof.
  split; [exact exnet_built|]. split; [exact (proj1 C48_example)|]. split.
  - unfold exfloat. assert (Q : match all_float_sc exnet with Ok _ => true | Err _ => false end = true) by (vm_compute; reflexivity).
    destruct (all_float_sc exnet); [reflexivity|discriminate Q].
  - splits; vm_compute; reflexivity.
Qed.

(** ** C86 *)

Section Fixed.
  Context {w : world}.

  Lemma gen_fixed_keys : forall (b : bn w) ds vs prior r vs' p' r', coherent b -> gen_fixed b ds vs prior r = (Ok (vs', p'), r') ->
    (forall x, In x (dkeys vs') -> In x (dkeys vs) \/ In x ds) /\ below (dget vs) (dget vs') /\ (NoDup (dkeys vs) -> NoDup (dkeys vs')).
  Proof.
    intros b ds. induction ds as [|d ds IH]; intros vs prior r vs' p' r' C H; cbn [gen_fixed] in H.
    { inversion H; subst. splits; auto. intros x v Hx; auto. }
    destruct (bget b d) as [l|e] eqn:L; [|discriminate]. assert (Nl := co_name _ C _ _ (proj1 (bget_holds _ _ _) L)).
    destruct (dmem d vs) eqn:D.
    - rewrite D in H. destruct (evaluate l (dget vs)) as [p|e]; [|discriminate]. destruct (IH _ _ _ _ _ _ C H) as (I1 & I2 & I3). splits; auto.
      intros x Hx. destruct (I1 x Hx); cbn; auto.
    - destruct (fill l vs r) as [[vs1 r1]|e] eqn:Fl.
      + unfold fill in Fl. destruct (render l (dget vs) r) as [[v r2]|] eqn:R; cbn [bind] in Fl; [|discriminate]. inversion Fl; subst vs1 r1. clear Fl. rewrite Nl in H.
        destruct (dmem d (dset vs d v)); [destruct (evaluate l (dget (dset vs d v))) as [p|e]; [|discriminate]|]; destruct (IH _ _ _ _ _ _ C H) as (I1 & I2 & I3); splits;
          try (intros x Hx; destruct (I1 x Hx) as [Q|Q]; [rewrite dkeys_dset, sadd_In in Q; cbn; intuition|cbn; auto]);
          try (intros x u Hx; apply I2; apply below_dset; auto; apply dmem_false; auto); intros N; apply I3, NoDup_dset; auto.
      + destruct e; try discriminate. rewrite D in H. destruct (IH _ _ _ _ _ _ C H) as (I1 & I2 & I3). splits; auto.
        intros x Hx. destruct (I1 x Hx); cbn; auto.
  Qed.

  (** the parents of what is left are known or come first *)
  Definition ready (b : bn w) (ds : list name) (vs : dict (V w)) : Prop :=
    forall p n, edge (dag b) p n -> In n ds -> In p (dkeys vs) \/ before ds p n.
  Lemma ready_step : forall b d ds vs vs1, ready b (d :: ds) vs -> (forall x, In x (dkeys vs) -> In x (dkeys vs1)) -> In d (dkeys vs1) -> ready b ds vs1.
  Proof.
    intros b d ds vs vs1 R K D p n E Hn. destruct (R p n E (or_intror Hn)) as [Q|Q]; auto. apply before_cons in Q. destruct Q as [[-> _]|Q]; auto.
  Qed.
  Lemma ready_parents : forall b d ds vs l, coherent b -> ~ In d ds -> ready b (d :: ds) vs -> holds b d l -> forall p, In p (loci_parents l) -> In p (dkeys vs).
  Proof.
    intros b d ds vs l C N R Hl p Hp. apply (co_parents _ C _ _ Hl) in Hp. destruct (R p d Hp (or_introl eq_refl)) as [Q|Q]; auto.
    apply before_cons in Q. destruct Q as [[_ Q]|Q]; [contradiction|]. apply before_In in Q. tauto.
  Qed.

  Lemma gen_fixed_sample : forall b : bn w, coherent b -> forall ds vs prior r vs' p' r', NoDup ds ->
    gen_fixed b ds vs prior r = (Ok (vs', p'), r') -> (forall n, In n ds -> In n (dkeys vs')) ->
    sample_loop b (fun _ => true) ds vs r = (Ok tt, vs', r').
  Proof.
    intros b C ds. induction ds as [|d ds IH]; intros vs prior r vs' p' r' N H K; cbn [gen_fixed sample_loop] in *.
    { inversion H; subst. auto. }
    inversion N as [|? ? Nd N']; subst. assert (K' : forall n, In n ds -> In n (dkeys vs')) by (intros n Hn; apply K; right; auto).
    unfold node_render. destruct (bget b d) as [l|e] eqn:L; [|discriminate]. assert (Nl := co_name _ C _ _ (proj1 (bget_holds _ _ _) L)).
    destruct (dmem d vs) eqn:D; cbn [andb negb bind].
    - rewrite D in H. destruct (evaluate l (dget vs)) as [p|e]; [|discriminate]. eapply IH; eauto.
    - destruct (fill l vs r) as [[vs1 r1]|e] eqn:Fl.
      + unfold fill in Fl. destruct (render l (dget vs) r) as [[v r2]|] eqn:R; cbn [bind] in Fl; [|discriminate]. inversion Fl; subst vs1 r1. clear Fl. rewrite Nl in H.
        assert (D1 : dmem d (dset vs d v) = true) by (unfold dmem; rewrite dget_dset, String.eqb_refl; auto). rewrite D1 in H.
        destruct (evaluate l (dget (dset vs d v))) as [p|e]; [|discriminate]. eapply IH; eauto.
      + destruct e; try discriminate. rewrite D in H. exfalso. destruct (gen_fixed_keys _ _ _ _ _ _ _ _ C H) as [I1 _].
        apply dmem_false in D. destruct (I1 d (K d (or_introl eq_refl))); contradiction.
  Qed.

  Lemma sample_below : forall (b : bn w) sel ds vs r d r', sample_loop b sel ds vs r = (Ok tt, d, r') -> below (dget vs) (dget d).
  Proof.
    intros b sel ds. induction ds as [|n ds IH]; intros vs r d r' H; cbn [sample_loop] in H; [inversion H; subst; intros x v; auto|].
    destruct (sel n && negb (dmem n vs)) eqn:S; [|eauto]. destruct (node_render b n (dget vs) r) as [[v r1]|e]; [|discriminate].
    intros x u Hx. eapply IH; eauto. apply below_dset; auto. apply andb_prop in S. destruct S as [_ S]. apply dmem_false. apply Bool.negb_true_iff; auto.
  Qed.

  Lemma sample_gen_fixed : forall b : bn w, coherent b -> forall ds vs prior r d r', NoDup ds -> ready b ds vs -> (forall n, In n ds -> node b n) ->
    sample_loop b (fun _ => true) ds vs r = (Ok tt, d, r') ->
    (forall n l rho, holds b n l -> below rho (dget d) -> rho n <> None -> (forall p, In p (loci_parents l) -> rho p <> None) -> exists p, evaluate l rho = Ok p) ->
    exists p', gen_fixed b ds vs prior r = (Ok (d, p'), r').
  Proof.
    intros b C ds. induction ds as [|n ds IH]; intros vs prior r d r' N R M H K; cbn [gen_fixed] in *.
    { cbn [sample_loop] in H. inversion H; subst. eauto. }
    pose proof (sample_below _ _ _ _ _ _ _ H) as Bl. cbn [sample_loop] in H.
    inversion N as [|? ? Nd N']; subst. destruct (node_holds _ _ (M n (or_introl eq_refl))) as [l Hl].
    assert (L := proj2 (bget_holds _ _ _) Hl). unfold node_render in H. rewrite L in *. assert (Nl := co_name _ C _ _ Hl).
    pose proof (ready_parents b n ds vs l C Nd R Hl) as Pa.
    destruct (dmem n vs) eqn:D; cbn [andb negb bind] in H.
    - rewrite D. pose proof D as D'. apply dmem_In in D'. destruct (K n l (dget vs) Hl Bl) as [p ->]; [apply in_keys_some; auto|intros q Hq; apply in_keys_some; auto|].
      eapply IH; eauto. eapply ready_step; eauto. intros q Hq; apply M; right; auto.
    - unfold fill. destruct (render l (dget vs) r) as [[v r1]|e] eqn:Er; cbn [bind]; [|discriminate]. rewrite Nl.
      assert (D1 : dmem n (dset vs n v) = true) by (unfold dmem; rewrite dget_dset, String.eqb_refl; auto). rewrite D1.
      assert (Ks : forall x, In x (dkeys vs) -> In x (dkeys (dset vs n v))) by (intros x Hx; rewrite dkeys_dset, sadd_In; auto).
      apply dmem_In in D1. destruct (K n l (dget (dset vs n v)) Hl (sample_below _ _ _ _ _ _ _ H)) as [p ->]; [apply in_keys_some; auto|intros q Hq; apply in_keys_some; auto|].
      eapply IH; eauto. eapply ready_step; eauto. intros q Hq; apply M; right; auto.
  Qed.

  Lemma gen_fixed_terms : forall b : bn w, coherent b -> forall ds vs prior r vs' p' r', NoDup ds -> ready b ds vs ->
    gen_fixed b ds vs prior r = (Ok (vs', p'), r') -> (forall n, In n ds -> In n (dkeys vs')) ->
    (forall n l rho, holds b n l -> below rho (dget vs') -> rho n <> None -> (forall p, In p (loci_parents l) -> rho p <> None) -> evaluate l rho = evaluate l (dget vs')) ->
    exists ps, mapM (fun n => do l <- bget b n; evaluate l (dget vs')) ds = Ok ps /\ p' = fold_left (lp_add w) ps prior.
  Proof.
    intros b C ds. induction ds as [|n ds IH]; intros vs prior r vs' p' r' N R H M K.
    { cbn [gen_fixed] in H. inversion H; subst. exists []. auto. }
    pose proof (gen_fixed_keys _ _ _ _ _ _ _ _ C H) as (_ & Bl & _). cbn [gen_fixed] in H.
    inversion N as [|? ? Nd N']; subst. cbn [mapM]. destruct (bget b n) as [l|e] eqn:L; [|discriminate]. cbn [bind]. pose proof (proj1 (bget_holds _ _ _) L) as Hl. assert (Nl := co_name _ C _ _ Hl).
    assert (M' : forall x, In x ds -> In x (dkeys vs')) by (intros x Hx; apply M; right; auto).
    pose proof (ready_parents b n ds vs l C Nd R Hl) as Pa.
    destruct (dmem n vs) eqn:D.
    - rewrite D in H. pose proof D as D'. apply dmem_In in D'. destruct (evaluate l (dget vs)) as [p|e] eqn:Ev; [|discriminate].
      rewrite (K n l (dget vs)) in Ev; auto; [|apply in_keys_some; auto|intros q Hq; apply in_keys_some; auto]. rewrite Ev. cbn [bind].
      destruct (IH _ _ _ _ _ _ N' (ready_step _ _ _ _ _ R (fun _ Q => Q) D') H M' K) as [ps [-> ->]]. exists (p :: ps). auto.
    - destruct (fill l vs r) as [[vs1 r1]|e] eqn:Fl.
      + unfold fill in Fl. destruct (render l (dget vs) r) as [[v r2]|] eqn:Er; cbn [bind] in Fl; [|discriminate]. inversion Fl; subst vs1 r1. clear Fl. rewrite Nl in H.
        assert (D1 : dmem n (dset vs n v) = true) by (unfold dmem; rewrite dget_dset, String.eqb_refl; auto). rewrite D1 in H. apply dmem_In in D1.
        destruct (evaluate l (dget (dset vs n v))) as [p|e] eqn:Ev; [|discriminate].
        assert (Ks : forall x, In x (dkeys vs) -> In x (dkeys (dset vs n v))) by (intros x Hx; rewrite dkeys_dset, sadd_In; auto).
        pose proof (gen_fixed_keys _ _ _ _ _ _ _ _ C H) as (_ & Bl1 & _).
        rewrite (K n l (dget (dset vs n v))) in Ev; auto; [|apply in_keys_some; auto|intros q Hq; apply in_keys_some; auto]. rewrite Ev. cbn [bind].
        destruct (IH _ _ _ _ _ _ N' (ready_step _ _ _ _ _ R Ks D1) H M' K) as [ps [-> ->]]. exists (p :: ps). auto.
      + destruct e; try discriminate. rewrite D in H. exfalso. destruct (gen_fixed_keys _ _ _ _ _ _ _ _ C H) as [I1 _].
        apply dmem_false in D. destruct (I1 n (M n (or_introl eq_refl))); contradiction.
  Qed.

  Lemma fold_perm : forall (f : LP w -> LP w -> LP w), (forall a b, f a b = f b a) -> (forall a b c, f a (f b c) = f (f a b) c) ->
    forall l m, Permutation l m -> forall a, fold_left f l a = fold_left f m a.
  Proof.
    intros f Cm As l m P. induction P as [|x l m P IH|x y l|l m k P1 IH1 P2 IH2]; intros a; cbn [fold_left]; auto.
    - rewrite <- !As, (Cm y x). auto.
    - rewrite IH1. auto.
  Qed.
  Lemma mapM_perm : forall (A B : Type) (f : A -> res B) l m, Permutation l m -> forall ps, mapM f l = Ok ps -> exists qs, mapM f m = Ok qs /\ Permutation ps qs.
  Proof.
    intros A B f l m P. induction P as [|x l m P IH|x y l|l m k P1 IH1 P2 IH2]; intros ps H; cbn [mapM] in *.
    - exists ps. auto.
    - destruct (f x) as [v|]; cbn [bind] in *; [|discriminate]. destruct (mapM f l) as [vs|]; cbn [bind] in *; [|discriminate]. inversion H; subst.
      destruct (IH vs eq_refl) as [qs [-> Q]]. exists (v :: qs). split; auto.
    - destruct (f y) as [u|]; cbn [bind] in *; [|discriminate]. destruct (f x) as [v|]; cbn [bind] in *; [|discriminate].
      destruct (mapM f l) as [vs|]; cbn [bind] in *; [|discriminate]. inversion H; subst. exists (v :: u :: vs). split; auto. constructor.
    - destruct (IH1 ps H) as [qs [H1 Q1]]. destruct (IH2 qs H1) as [ts [H2 Q2]]. exists ts. split; auto. eapply perm_trans; eauto.
  Qed.

  (** what sc_generate does for a core with everything fixed *)
  Lemma fixed_split : forall (b : bn w) sc, built b -> all_fixed_sc b = Ok sc ->
    exists od, Order b = Ok od /\ topo (dag b) od (node b) /\ forall nick exo h r,
      sc_generate sc nick exo h r =
        match gen_fixed b od exo (lp_zero w) r with
        | (Err e, r') => (Err e, h, r')
        | (Ok (vs', prior), r2) =>
            (Ok (length h), h ++ [mkCore (if String.eqb nick "" then b_name b else nick) "Root" (dupdate (dfilter (fun k => mem k od) vs') exo) prior None None [] None None], r2)
        end.
  Proof.
    intros b sc B E. destruct (built_coherent _ B) as [C F]. destruct (Order_ok b C F) as [od [Eo To]].
    destruct (all_fixed_inject b od C F Eo) as (s & Ei & A1 & A2 & A3 & A4 & A5 & A6 & A7).
    exists od. splits; try (apply To); auto. intros nick exo h r. unfold all_fixed_sc in E. rewrite Eo in E. cbn [bind] in E. unfold as_simulation_core in E. rewrite Ei in E.
    cbn [bind] in E. inversion E; subst sc. clear E. destruct s as [a sh ks]. cbn [s_alloc s_kids] in *. subst ks. unfold sc_generate. cbn. rewrite String.eqb_refl. unfold generate. cbn.
    rewrite A5. cbn [gen_exo]. rewrite A3. destruct (gen_fixed b od exo (lp_zero w) r) as [[[vs' prior]|e] r2]; auto. rewrite A2. auto.
  Qed.
  Lemma topo_ready : forall (b : bn w) od vs, coherent b -> topo (dag b) od (node b) -> ready b od vs.
  Proof.
    intros b od vs C [[D I] T] p n E Hn. right. apply T; auto. apply I. apply node_gnodes. eapply wf_src; [apply C|exact E].
  Qed.
  Lemma locus_get : forall od (vs' exo : dict (V w)), NoDup (dkeys exo) -> below (dget exo) (dget vs') -> (forall x, In x (dkeys vs') -> In x (dkeys exo) \/ In x od) ->
    forall x, dget (dupdate (dfilter (fun k => mem k od) vs') exo) x = dget vs' x.
  Proof.
    intros od vs' exo N Bl K x. rewrite dget_dupdate_NoDup, dget_dfilter; auto. destruct (dget exo x) as [v|] eqn:Ex; [rewrite (Bl _ _ Ex); auto|].
    destruct (mem x od) eqn:M; auto. destruct (dget vs' x) as [v|] eqn:Ev; auto. exfalso.
    assert (Hx : In x (dkeys vs')) by (apply dget_In; eauto). destruct (K x Hx) as [Q|Q]; [|apply mem_false in M; contradiction].
    apply dget_None in Ex. contradiction.
  Qed.
End Fixed.

(** A core that has a value for every node holds the very values that sample returns for the same
    generator, which both leave in the same state. *)
Theorem C86_sample : forall w (b : bn w) sc nick exo h r i h' r' c, built b -> all_fixed_sc b = Ok sc -> NoDup (dkeys exo) ->
  sc_generate sc nick exo h r = (Ok i, h', r') -> nth_error h' i = Some c ->
  (forall n, node b n -> In n (dkeys (k_locus c))) ->
  exists d, sample b exo r = (Ok d, r') /\ forall x, dget (k_locus c) x = dget d x.
Proof.
  intros w b sc nick exo h r i h' r' c B E Nd G Hc K. destruct (built_coherent _ B) as [C F].
  destruct (fixed_split b sc B E) as (od & Eo & To & Q). rewrite Q in G. clear Q. destruct (gen_fixed b od exo (lp_zero w) r) as [[[vs' prior]|e] r2] eqn:Ef; [|discriminate].
  inversion G; subst. clear G. rewrite nth_last in Hc. inversion Hc; subst c. clear Hc. cbn [k_locus] in *.
  destruct (gen_fixed_keys _ _ _ _ _ _ _ _ C Ef) as (I1 & I2 & _). pose proof (locus_get od vs' exo Nd I2 I1) as L.
  assert (K' : forall n, node b n -> In n (dkeys vs')).
  { intros n Hn. apply K in Hn. apply dget_In in Hn. destruct Hn as [v Hn]. rewrite L in Hn. apply dget_In. eauto. }
  destruct To as [[D I] T]. exists vs'. split; auto.
  assert (Hx : forall n, holds b n (LExo n) -> In n (dkeys exo)).
  { intros n Hn. destruct (In_dec_name n (dkeys exo)) as [|N]; auto. exfalso. destruct (gen_fixed_ok b C od exo (lp_zero w) r vs' prior r' D T Ef) as (_ & _ & J).
    specialize (J n (proj2 (I n) (holds_node _ _ _ Hn)) N). assert (Hk := K' n (holds_node _ _ _ Hn)). apply dget_In in Hk. destruct Hk as [v Hk]. rewrite Hk in J.
    destruct J as (l & rho & q & q' & J1 & _ & _ & J4 & J5). rewrite <- (holds_fun _ _ _ _ Hn J1) in J5. simpl in J5. rewrite J4 in J5. discriminate. }
  unfold sample. destruct (fresh_views b F) as (_ & _ & _ & _ & Ex).
  pose proof (gen_fixed_sample b C od exo (lp_zero w) r vs' prior r' D Ef (fun n Hn => K' n (proj1 (I n) Hn))) as S.
  rewrite Eo, S. destruct (C18_exo w b C F) as [ex [E1 E2]]. rewrite E1.
  replace (existsb (fun n => negb (dmem n exo)) ex) with false; auto. symmetry. apply Bool.not_true_is_false. intros Q. apply existsb_exists in Q.
  destruct Q as [n [Q1 Q2]]. apply Bool.negb_true_iff, dmem_false in Q2. apply Q2, Hx. apply E2; auto.
Qed.
Print Assumptions C86_sample.

(** Conversely a sample makes a core, if no log density of its values raises. *)
Theorem C86_generate : forall w (b : bn w) sc nick exo h r d r', built b -> all_fixed_sc b = Ok sc -> NoDup (dkeys exo) ->
  sample b exo r = (Ok d, r') ->
  (forall n l rho, holds b n l -> below rho (dget d) -> rho n <> None -> (forall p, In p (loci_parents l) -> rho p <> None) -> exists p, evaluate l rho = Ok p) ->
  exists c, sc_generate sc nick exo h r = (Ok (length h), h ++ [c], r') /\ forall x, dget (k_locus c) x = dget d x.
Proof.
  intros w b sc nick exo h r d r' B E Nd S K. destruct (built_coherent _ B) as [C F].
  destruct (fixed_split b sc B E) as (od & Eo & To & Q). rewrite Q. clear Q.
  unfold sample in S. destruct (Exo b) as [ex|]; [|discriminate]. destruct (existsb (fun n => negb (dmem n exo)) ex); [discriminate|]. rewrite Eo in S.
  destruct (sample_loop b (fun _ => true) od exo r) as [[[[]|e] d1] r1] eqn:L; inversion S; subst. clear S.
  destruct (sample_gen_fixed b C od exo (lp_zero w) r d r') as [p Ef]; auto; [apply To|apply topo_ready; auto|intros n Hn; apply To; auto|].
  rewrite Ef. eexists. split; [reflexivity|]. cbn [k_locus]. destruct (gen_fixed_keys _ _ _ _ _ _ _ _ C Ef) as (I1 & I2 & _). apply locus_get; auto.
Qed.
Print Assumptions C86_generate.

(** LogProb of such a core is the sum, in topological order, of the log densities of all nodes at the
    values held. evaluate_nodes adds up the same terms in another order, and returns -inf for nan. No
    value may have the name of a distribution called (as in C25_distributions). *)
Theorem C86_logprob : forall w (b : bn w) sc nick exo h r i h' r' c, built b -> all_fixed_sc b = Ok sc -> NoDup (dkeys exo) ->
  sc_generate sc nick exo h r = (Ok i, h', r') -> nth_error h' i = Some c ->
  (forall n, node b n -> In n (dkeys (k_locus c))) ->
  (forall n f ps e x, holds b n (LDist n f ps) -> @complete_def w f = Ok e -> mentions e x \/ calls e x -> In x ps \/ ~ In x (dkeys (k_locus c))) ->
  exists od ps qs, topo (dag b) od (node b)
    /\ Forall2 (fun n p => exists l, holds b n l /\ evaluate l (dget (k_locus c)) = Ok p) od ps
    /\ k_lp c = fold_left (lp_add w) ps (lp_zero w)
    /\ Permutation ps qs
    /\ (let s := fold_left (lp_add w) qs (lp_zero w) in evaluate_nodes b (k_locus c) = Ok (if lp_isnan w s then lp_ninf w else s))
    /\ ((forall x y, lp_add w x y = lp_add w y x) -> (forall x y z, lp_add w x (lp_add w y z) = lp_add w (lp_add w x y) z) ->
        evaluate_nodes b (k_locus c) = Ok (if lp_isnan w (k_lp c) then lp_ninf w else k_lp c)).
Proof.
  intros w b sc nick exo h r i h' r' c B E Nd G Hc K Cl. destruct (built_coherent _ B) as [C F].
  destruct (fixed_split b sc B E) as (od & Eo & To & Q). rewrite Q in G. clear Q. destruct (gen_fixed b od exo (lp_zero w) r) as [[[vs' prior]|e] r2] eqn:Ef; [|discriminate].
  inversion G; subst. clear G. rewrite nth_last in Hc. inversion Hc; subst c. clear Hc. cbn [k_locus k_lp] in *.
  destruct (gen_fixed_keys _ _ _ _ _ _ _ _ C Ef) as (I1 & I2 & I3). pose proof (locus_get od vs' exo Nd I2 I1) as L. set (loc := dupdate (dfilter (fun k => mem k od) vs') exo) in *.
  assert (Lk : forall x, In x (dkeys loc) <-> In x (dkeys vs')) by (intros x; rewrite <- !dget_In, L; tauto).
  destruct To as [[D I] T].
  assert (Ag : forall n l (rho d : env w), holds b n l -> below rho d -> (forall x, d x = dget vs' x) -> rho n <> None -> (forall p, In p (loci_parents l) -> rho p <> None) -> evaluate l rho = evaluate l d).
  { intros n l rho d Hl Bl Ed Hn Hp. pose proof (co_name _ C _ _ Hl) as Nl. destruct l as [m v|m|m f ps|m e ps|m ps]; auto. cbn in Nl, Hp. subst m. cbn [evaluate].
    assert (X : forall x, rho x <> None -> rho x = d x) by (intros x Hx; apply below_agree; auto).
    rewrite (get_distribution_agree f rho d); [rewrite (X n Hn); auto|].
    intros e x He Hx. destruct (Cl n f ps e x Hl He Hx) as [Q|Q]; [apply X; auto|]. rewrite Lk in Q. apply dget_None in Q. rewrite Ed, Q.
    destruct (rho x) as [v|] eqn:R; auto. apply Bl in R. rewrite Ed in R. congruence. }
  destruct (gen_fixed_terms b C od exo (lp_zero w) r vs' prior r' D) as [ps [Hp Hs]]; auto.
  { apply topo_ready; auto. split; auto. split; auto. }
  { intros n Hn. apply Lk, K, I. auto. }
  { intros n l rho H1 H2 H3 H4. eapply Ag; eauto. }
  assert (Hp' : mapM (fun n => do l <- bget b n; evaluate l (dget loc)) od = Ok ps).
  { rewrite <- Hp. apply mapM_ext_in. intros n Hn. destruct (bget b n) as [l|] eqn:El; cbn [bind]; auto. apply bget_holds in El.
    assert (P : forall x, node b x -> dget loc x <> None) by (intros x Hx; apply in_keys_some, K; auto).
    apply (Ag n l (dget loc) (dget vs')); auto.
    - intros x v Hx. rewrite <- L. auto.
    - apply P, I; auto.
    - intros p Hpp. apply P. apply (co_parents _ C _ _ El) in Hpp. apply node_gnodes. eapply wf_src; [apply C|exact Hpp]. }
  assert (Pm : Permutation od (filter (in_dag b) (dkeys loc))).
  { apply NoDup_Permutation; auto.
    - apply NoDup_filter. unfold loc. apply NoDup_dupdate. rewrite dkeys_dfilter. apply NoDup_filter; auto.
    - intros x. rewrite filter_In, in_dag_spec, I. split; [|tauto]. intros Hx. split; auto. }
  destruct (mapM_perm _ _ _ _ _ Pm ps Hp') as [qs [Hq Pq]].
  assert (Ev : evaluate_nodes b loc = Ok (let s := fold_left (lp_add w) qs (lp_zero w) in if lp_isnan w s then lp_ninf w else s)).
  { unfold evaluate_nodes. rewrite Hq. reflexivity. }
  exists od, ps, qs. split; [split; [split|]; auto|]. split; [|split; [auto|split; [auto|split]]].
  - apply mapM_ok in Hp'. revert Hp'. clear. generalize od as l0, ps as l1. intros l0 l1 Hp'. induction Hp' as [|n p l m Hn H IH]; constructor; auto. destruct (bget b n) as [l2|] eqn:El; cbn [bind] in Hn; [|discriminate].
    exists l2. split; auto. apply bget_holds; auto.
  - exact Ev.
  - intros Cm As. rewrite Ev, Hs. cbv zeta. rewrite (fold_perm _ Cm As _ _ Pq). reflexivity.
Qed.
Print Assumptions C86_logprob.

Lemma exfix_core : exists c, sc_generate exfix "r" [("a", PZ 1); ("s", PZ 2)] [] 3 = (Ok 0, [c], 4)
  /\ k_locus c = [("a", PZ 1); ("s", PZ 2); ("k", PZ 2); ("x", PZ 4); ("y", PZ 6); ("z", PZ 64)] /\ k_lp c = LZ (-3).
Proof.
  pose proof (proj2 C48_example) as Q. destruct (sc_generate exfix "r" [("a", PZ 1); ("s", PZ 2)] [] 3) as [[o h'] r'] eqn:G.
  assert (O : match sc_generate exfix "r" [("a", PZ 1); ("s", PZ 2)] [] 3 with (Ok i, _, _) => Some i | _ => None end = Some 0) by (vm_compute; reflexivity).
  rewrite G in O. unfold shows in Q. destruct o as [i|e]; [|discriminate O]. injection O as ->. injection Q as Q ->. destruct h' as [|c [|c2 h']]; try discriminate Q.
  injection Q as _ Q2 Q3 _ _. exists c. splits; auto.
Qed.
(** the same seed gives the same values, and the log density of the sample *)
Example C86_example : built exnet /\ all_fixed_sc exnet = Ok exfix
  /\ (exists c, sc_generate exfix "r" [("a", PZ 1); ("s", PZ 2)] [] 3 = (Ok 0, [c], 4)
      /\ (forall n, node exnet n -> In n (dkeys (k_locus c))) /\ k_lp c = LZ (-3)
      /\ (forall n f ps e x, holds exnet n (LDist n f ps) -> @complete_def exw f = Ok e -> mentions e x \/ calls e x -> In x ps \/ ~ In x (dkeys (k_locus c))))
  /\ sample exnet [("a", PZ 1); ("s", PZ 2)] 3 = (Ok [("a", PZ 1); ("s", PZ 2); ("k", PZ 2); ("x", PZ 4); ("y", PZ 6); ("z", PZ 64)], 4)
  /\ evaluate_nodes exnet [("a", PZ 1); ("s", PZ 2); ("k", PZ 2); ("x", PZ 4); ("y", PZ 6); ("z", PZ 64)] = Ok (LZ (-3)).
Proof.
  split; [exact exnet_built|]. split; [exact (proj1 C48_example)|]. split; [|split; vm_compute; reflexivity].
  destruct exfix_core as (c & G & Lc & Lp). exists c. split; [exact G|]. rewrite Lc. split; [|split; auto].
  - intros n Hn. apply node_gnodes in Hn. vm_compute in Hn. cbn. tauto.
  - intros n f ps e x Hl Hc Hx. apply bget_holds in Hl. unfold bget, exnet in Hl. cbn in Hl.
    repeat match type of Hl with context[String.eqb n ?y] => destruct (String.eqb_spec n y) as [->|?] end; inversion Hl; subst; clear Hl.
    inversion Hc; subst e. rewrite <- enames_spec in Hx. simpl in Hx.
    destruct Hx as [<-|[<-|[<-|[]]]]; simpl; auto; right; intuition discriminate.
Qed.
(** the hypothesis of C86_generate for this sample *)
Example C86_generate_example : let d : dict (V exw) := [("a", PZ 1); ("s", PZ 2); ("k", PZ 2); ("x", PZ 4); ("y", PZ 6); ("z", PZ 64)] in
  forall n (l : loci exw) (rho : env exw), holds exnet n l -> below rho (dget d) -> rho n <> None -> (forall p, In p (loci_parents l) -> rho p <> None) -> exists p, evaluate l rho = Ok p.
Proof.
  intros d. intros n l rho Hl Bl Hn Hp. apply bget_holds in Hl. unfold bget, exnet in Hl. cbn in Hl.
  repeat match type of Hl with context[String.eqb n ?y] => destruct (String.eqb_spec n y) as [->|?] end; inversion Hl; subst l; clear Hl; try (eexists; reflexivity).
  unfold lx in *. match goal with |- context[LDist "x" ?q _] => set (f := q) in * end. exists (LZ (-3)). cbn [evaluate].
  assert (X : forall x, rho x <> None -> rho x = dget d x) by (intros x Hx; apply (below_agree (w:=exw) rho (dget d)); auto).
  rewrite (get_distribution_agree f rho (dget d)).
  - rewrite (X "x" Hn). vm_compute. reflexivity.
  - intros e x He Hx. inversion He; subst e. rewrite <- enames_spec in Hx. simpl in Hx.
    destruct Hx as [<-|[<-|[<-|[]]]]; [|apply X, Hp; cbn; auto|apply X, Hp; cbn; auto].
    destruct (rho "norm") as [v|] eqn:R; [apply Bl in R; discriminate R|reflexivity].
Qed.
