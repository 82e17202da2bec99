(** * Property C119: an intervention is sampling given the rest *)

Require Import Verif.Base Verif.World Verif.ModelGraph Verif.ModelExpr Verif.ModelLoci Verif.ModelBN Verif.ModelSample
        Verif.Spec Verif.SpecBN Verif.SpecExpr Verif.SpecSample Verif.SpecChrom Verif.ProofBase Verif.ProofGraph Verif.ProofExpr Verif.ProofBN Verif.ProofBNViews
        Verif.ProofBNHist Verif.ProofSample Verif.ProofChrom Verif.ExWorld Verif.PropsBN Verif.PropsChrom Coq.ZArith.ZArith.

(** ** Specification *)

(** the values that stay: what is assigned, and what is held and not computed anew *)
Definition rest_of {w : world} (b : bn w) (c : chrom w) (new cond : dict (V w)) : Prop :=
  (forall k v, assigned (dkeys (ch_locus c)) new k v -> dget cond k = Some v)
  /\ (forall k, affected b (dkeys (ch_locus c)) new k -> dget cond k = None)
  /\ (forall k, (forall v, ~ assigned (dkeys (ch_locus c)) new k v) -> ~ affected b (dkeys (ch_locus c)) new k ->
        dget cond k = dget (ch_locus c) k).

(** No definition reads a node that is not among its parents: a distribution calls nothing that has the
    name of a node, and an exogenous node, which reads itself, is not concerned. *)
Definition tidy {w : world} (b : bn w) (P : name -> Prop) : Prop :=
  forall n l x, P n -> holds b n l -> reads l x -> node b x -> In x (loci_parents l).

(** ** Proof: both loops side by side *)

Lemma loops : forall w (b : bn w) S od c D r, NoDup od -> (forall n, In n od -> node b n) ->
  (forall n, In n od -> In n (dkeys (ch_locus c))) ->
  (forall l1 n l2, od = l1 ++ n :: l2 -> mem n S = true -> forall l x, holds b n l -> reads l x -> ~ In x (n :: l2)) ->
  (forall k, dget D k = if mem k S && mem k od then None else dget (ch_locus c) k) ->
  match impulse_loop b S od c r, sample_loop b (fun _ => true) od D r with
  | (Ok _, c', r1), (Ok _, d, r2) => r1 = r2 /\ forall k, dget (ch_locus c') k = dget d k
  | (Err e, _, r1), (Err e', _, r2) => e = e' /\ r1 = r2
  | _, _ => False
  end.
Proof.
  intros w b S od. induction od as [|n od IH]; intros c D r Nd Hn Hk Hr I; cbn [impulse_loop sample_loop].
  - split; auto. intros k. rewrite I. cbn. rewrite andb_false_r. auto.
  - inversion Nd as [|? ? N1 N2]; subst. apply mem_false in N1.
    assert (Hr' : forall l1 m l2, od = l1 ++ m :: l2 -> mem m S = true -> forall l x, holds b m l -> reads l x -> ~ In x (m :: l2)).
    { intros l1 m l2 E. apply (Hr (n :: l1) m l2). rewrite E. auto. }
    cbn [andb]. destruct (mem n S) eqn:E.
    + assert (D0 : dmem n D = false).
      { apply dmem_false. intros K. apply dget_In in K. destruct K as [v K]. rewrite I, E in K.
        replace (mem n (n :: od)) with true in K; [discriminate|]. symmetry. apply mem_In. simpl. auto. }
      rewrite D0. cbn [negb].
      assert (Q : node_render b n (dget (ch_locus c)) r = node_render b n (dget D) r).
      { unfold node_render. destruct (bget b n) as [l|e] eqn:L; auto. cbn [bind]. apply render_agree. intros x Hx. rewrite I.
        replace (mem x (n :: od)) with false; [rewrite andb_false_r; auto|]. symmetry. apply mem_false.
        apply (Hr [] n od eq_refl E l x); auto. apply bget_holds. auto. }
      rewrite <- Q. destruct (node_render b n (dget (ch_locus c)) r) as [[v r1]|e]; [|auto].
      apply IH; auto.
      * intros m Hm. apply Hn. simpl. auto.
      * intros m Hm. cbn [ch_set ch_locus]. rewrite dkeys_dset. unfold sadd. destruct (mem n (dkeys (ch_locus c))); [apply Hk; simpl; auto|].
        apply in_or_app. left. apply Hk. simpl. auto.
      * intros k. cbn [ch_set ch_locus]. rewrite !dget_dset. destruct (String.eqb_spec k n) as [->|Ne].
        { rewrite N1, andb_false_r. auto. }
        rewrite I. replace (mem k (n :: od)) with (mem k od); auto.
        unfold mem. cbn [existsb]. apply String.eqb_neq in Ne. rewrite Ne. auto.
    + assert (D1 : dmem n D = true).
      { apply dmem_In. assert (K : In n (dkeys (ch_locus c))) by (apply Hk; simpl; auto). apply dget_In in K. destruct K as [v K].
        apply dget_In. exists v. rewrite I, E. auto. }
      rewrite D1. cbn [negb]. apply IH; auto.
      * intros m Hm. apply Hn. simpl. auto.
      * intros m Hm. apply Hk. simpl. auto.
      * intros k. rewrite I. destruct (String.eqb_spec k n) as [->|Ne]; [rewrite E; auto|].
        replace (mem k (n :: od)) with (mem k od); auto.
        unfold mem. cbn [existsb]. apply String.eqb_neq in Ne. rewrite Ne. auto.
Qed.

(** Changing a complete chromosome by an intervention is sampling the network given what is assigned and
    what is not computed anew: the same values from the same generator, or the same exception, and the
    generator is left in the same state. *)
Theorem C119_intervention : forall w (b : bn w) c new cond r, built b -> NoDup (dkeys new) ->
  (exists k, hit (dkeys (ch_locus c)) new k) -> (forall k, hit (dkeys (ch_locus c)) new k -> node b k) ->
  (forall n, node b n -> In n (dkeys (ch_locus c))) -> tidy b (affected b (dkeys (ch_locus c)) new) -> rest_of b c new cond ->
  match impulse c new b r, sample b cond r with
  | (Ok _, c', r1), (Ok d, r2) => r1 = r2 /\ forall k, dget (ch_locus c') k = dget d k
  | (Err e, _, r1), (Err e', r2) => e = e' /\ r1 = r2
  | _, _ => False
  end.
Proof.
  intros w b c new cond r B Hnd Hex Hno Full Ti [R1 [R2 R3]]. destruct (built_coherent b B) as [C F].
  unfold impulse. fold (imp_all c new).
  assert (Hm : exists ls, mapM (descendants (dag b)) (dkeys (imp_all c new)) = Ok ls).
  { apply mapM_all_ok. intros k Hk. apply imp_all_keys in Hk.
    destruct (descendants_spec (dag b) k (co_wf _ C) (Hno k Hk)) as [l [L _]]. eauto. }
  destruct Hm as [ls Hm]. rewrite Hm. cbn [bind].
  assert (Hu : exists sh, set_union_star ls = Ok sh).
  { destruct ls as [|a ls]; [|simpl; eauto]. destruct Hex as [k Hk]. apply imp_all_keys in Hk.
    apply mapM_ok in Hm. inversion Hm as [E|]. rewrite <- E in Hk. destruct Hk. }
  destruct Hu as [sh Hu]. rewrite Hu.
  destruct (desc_all_ok b c new ls sh C Hm Hu) as [_ [_ Hs]].
  cbv zeta. fold (imp_set c new). fold (shocked_set b c new sh). fold (with_assigned c new).
  pose proof (fun x => shocked_In b c new sh x Hnd Hs) as Aff.
  unfold sample. destruct (fresh_views b F) as [-> [_ [_ [_ ->]]]].
  assert (Ex : existsb (fun n => negb (dmem n cond)) (find_exo b) = false).
  { destruct (existsb _ _) eqn:E; auto. exfalso. apply (exo_missing b cond C) in E. destruct E as [n [L N]]. apply N.
    assert (A : ~ affected b (dkeys (ch_locus c)) new n).
    { intros A. destruct (Ti n (LExo n) n A L eq_refl (holds_node b n _ L)). }
    pose proof (Full n (holds_node b n _ L)) as K. apply dget_In in K. destruct K as [v K]. apply dget_In.
    destruct (dget (imp_set c new) n) as [u|] eqn:Ei.
    - exists u. apply R1. apply imp_set_get; auto.
    - exists v. rewrite R3; auto. intros u Hu'. apply imp_set_get in Hu'; auto. congruence. }
  rewrite Ex. destruct (order_total (dag b) (co_wf _ C) (co_acyclic _ C)) as [od Ho]. rewrite Ho.
  destruct (order_ok (dag b) od (co_wf _ C) Ho) as [_ [T1 [T2 T3]]].
  pose proof (loops w b (shocked_set b c new sh) od (mkChrom (with_assigned c new) (ch_lp c)) cond r T1) as L. cbn [ch_locus] in L.
  assert (L' : match impulse_loop b (shocked_set b c new sh) od (mkChrom (with_assigned c new) (ch_lp c)) r, sample_loop b (fun _ => true) od cond r with
    | (Ok _, c', r1), (Ok _, d, r2) => r1 = r2 /\ forall k, dget (ch_locus c') k = dget d k
    | (Err e, _, r1), (Err e', _, r2) => e = e' /\ r1 = r2
    | _, _ => False end).
  { apply L.
    - intros n Hn. apply T2. auto.
    - intros n Hn. rewrite with_assigned_keys. apply Full. apply T2. auto.
    - intros l1 n l2 E M l x Hl Hx K. apply mem_In, Aff in M.
      destruct (In_dec_name x (dkeys (b_attrs b))) as [Nx|Nx].
      + assert (P : In x l1). { apply (T3 l1 n l2 E x). apply (co_parents b C n l Hl x). apply (Ti n l x); auto. }
        rewrite E in T1. apply in_split in P. destruct P as [a [a' ->]]. rewrite <- app_assoc in T1. cbn [app] in T1. apply NoDup_remove_2 in T1. apply T1.
        apply in_or_app. right. apply in_or_app. auto.
      + apply Nx. apply T2. rewrite E. apply in_or_app. auto.
    - intros k. destruct (mem k (shocked_set b c new sh) && mem k od) eqn:E.
      + apply andb_true_iff in E. destruct E as [E _]. apply mem_In, Aff in E. auto.
      + rewrite with_assigned_get by auto. destruct (dget (imp_set c new) k) as [v|] eqn:Ei; [apply R1; apply imp_set_get; auto|].
        apply R3; [intros v Hv; apply imp_set_get in Hv; auto; congruence|]. intros A.
        assert (K : In k od).
        { apply T2. destruct A as [_ [_ [A|[k' [_ A]]]]]; [apply Hno; apply hit_cases; auto|eapply path_dst; eauto; apply C]. }
        apply Aff in A. apply mem_In in A, K. rewrite A, K in E. discriminate. }
  destruct (impulse_loop b (shocked_set b c new sh) od (mkChrom (with_assigned c new) (ch_lp c)) r) as [[[[]|e] c2] r2];
    destruct (sample_loop b (fun _ => true) od cond r) as [[[[]|e'] d] r3]; try contradiction; auto.
  destruct L' as [-> L']. split; auto. intros k. rewrite <- L'. destruct (imp_set c new); auto.
Qed.
Print Assumptions C119_intervention.

(** what has to be computed anew, found by the code itself *)
Lemma affected_list : forall w (b : bn w) c new ls sh, coherent b -> NoDup (dkeys new) ->
  mapM (descendants (dag b)) (dkeys (imp_all c new)) = Ok ls -> set_union_star ls = Ok sh ->
  forall x, affected b (dkeys (ch_locus c)) new x <-> In x (shocked_set b c new sh).
Proof.
  intros w b c new ls sh C Hn H1 H2 x. destruct (desc_all_ok b c new ls sh C H1 H2) as [_ [_ Hs]]. symmetry. apply shocked_In; auto.
Qed.

(** An exogenous node cannot be drawn: asked to be, it keeps its value in an intervention, while it is
    missing for sampling. So the theorem is false if such a node is concerned. *)
Theorem C119_exogenous_refuted : exists w (b : bn w) c new cond r c' r', built b /\ NoDup (dkeys new)
  /\ (forall k, hit (dkeys (ch_locus c)) new k -> node b k) /\ (forall n, node b n -> In n (dkeys (ch_locus c)))
  /\ rest_of b c new cond /\ impulse c new b r = (Ok tt, c', r') /\ sample b cond r = (Err ValueError, r).
Proof.
  exists exw, exnet, exch, [("a", PNone)], [("s", PZ 2); ("k", PZ 2)], 9.
  assert (A : forall x, affected exnet (dkeys (ch_locus exch)) [("a", PNone)] x <-> In x ["x"; "y"; "z"; "a"]).
  { assert (L : exists ls, mapM (descendants (dag exnet)) (dkeys (imp_all exch [("a", PNone)])) = Ok ls) by (eexists; vm_compute; reflexivity).
    destruct L as [ls L]. assert (U : exists sh, set_union_star ls = Ok sh) by (vm_compute in L; injection L as <-; eexists; vm_compute; reflexivity).
    destruct U as [sh U]. intros x.
    assert (N : NoDup (dkeys [("a", PNone)])) by (constructor; [intros []|constructor]).
    rewrite (affected_list exw exnet exch _ ls sh exnet_coherent N L U x).
    vm_compute in L. injection L as <-. vm_compute in U. injection U as <-. vm_compute. tauto. }
  eexists _, _. unfold rest_of. splits.
  - apply exnet_built.
  - constructor; [intros []|constructor].
  - intros k [H _]. apply in_map_iff in H. vm_compute. destruct H as [p [<- H]]. simpl in H. intuition (subst; simpl; auto 10).
  - intros n H. vm_compute in H. vm_compute. tauto.
  - intros k v [_ [H1 H2]]. cbn in H1. destruct (String.eqb k "a"); [injection H1 as <-; discriminate H2|discriminate].
  - intros k H. apply A in H. simpl in H. intuition (subst; reflexivity).
  - intros k _ H. rewrite A in H. destruct (String.eqb_spec k "s") as [->|N1]; [reflexivity|]. destruct (String.eqb_spec k "k") as [->|N2]; [reflexivity|].
    cbn. rewrite (proj2 (String.eqb_neq k "s") N1), (proj2 (String.eqb_neq k "k") N2).
    destruct (String.eqb_spec k "a") as [->|_]; [destruct H; simpl; auto|]. destruct (String.eqb_spec k "x") as [->|_]; [destruct H; simpl; auto|].
    destruct (String.eqb_spec k "y") as [->|_]; [destruct H; simpl; auto|]. destruct (String.eqb_spec k "z") as [->|_]; [destruct H; simpl; auto|]. reflexivity.
  - vm_compute. reflexivity.
  - vm_compute. reflexivity.
Qed.
Print Assumptions C119_exogenous_refuted.

(** a and k are assigned: x, y and z come anew, s is kept *)
Example C119_example : let new : dict (V exw) := [("a", PZ 3); ("k", PZ 4)] in let cond : dict (V exw) := [("a", PZ 3); ("s", PZ 2); ("k", PZ 4)] in
  (exists k, hit (dkeys (ch_locus exch)) new k) /\ tidy exnet (affected exnet (dkeys (ch_locus exch)) new) /\ rest_of exnet exch new cond
  /\ exists c' d r', impulse exch new exnet 9 = (Ok tt, c', r') /\ sample exnet cond 9 = (Ok d, r') /\ dget d "x" = Some (PZ 12)
     /\ dget (ch_locus c') "x" = Some (PZ 12).
Proof.
  intros new cond.
  assert (A : forall x, affected exnet (dkeys (ch_locus exch)) new x <-> In x ["x"; "y"; "z"]).
  { assert (L : exists ls, mapM (descendants (dag exnet)) (dkeys (imp_all exch new)) = Ok ls) by (eexists; vm_compute; reflexivity).
    destruct L as [ls L]. assert (U : exists sh, set_union_star ls = Ok sh) by (vm_compute in L; injection L as <-; eexists; vm_compute; reflexivity).
    destruct U as [sh U]. intros x.
    assert (N : NoDup (dkeys new)) by (repeat constructor; simpl; intuition discriminate).
    rewrite (affected_list exw exnet exch _ ls sh exnet_coherent N L U x).
    vm_compute in L. injection L as <-. vm_compute in U. injection U as <-. vm_compute. tauto. }
  unfold rest_of. splits.
  - exists "a". split; simpl; auto.
  - intros n l x H Hl Hx Nx. apply A in H. destruct Hl as [at_ [Hl <-]].
    destruct H as [<-|[<-|[<-|[]]]]; vm_compute in Hl; injection Hl as <-; cbn in Hx |- *; auto.
    destruct Hx as [c [Hc Hx]]. vm_compute in Hc. injection Hc as <-. vm_compute in Nx.
    destruct Hx as [Hx|Hx]; inversion Hx; subst; cbn in *;
      repeat match goal with
      | H : _ \/ _ |- _ => destruct H
      | H : False |- _ => destruct H
      | H : (_, _) = (_, _) |- _ => injection H as <- <-
      | H : mentions (EName _) _ |- _ => inversion H; subst; clear H
      | H : calls (EName _) _ |- _ => inversion H; subst; clear H
      end; subst; auto; try discriminate; try tauto.
  - intros k v [_ [H1 H2]]. cbn in H1. destruct (String.eqb_spec k "a") as [->|]; [injection H1 as <-; reflexivity|].
    destruct (String.eqb_spec k "k") as [->|]; [injection H1 as <-; reflexivity|discriminate].
  - intros k H. apply A in H. simpl in H. intuition (subst; reflexivity).
  - intros k H0 H. rewrite A in H. destruct (String.eqb_spec k "s") as [->|N1]; [reflexivity|].
    destruct (String.eqb_spec k "a") as [->|N3]; [exfalso; apply (H0 (PZ 3)); split; [simpl; auto|split; reflexivity]|].
    destruct (String.eqb_spec k "k") as [->|N2]; [exfalso; apply (H0 (PZ 4)); split; [simpl; auto|split; reflexivity]|].
    cbn. rewrite (proj2 (String.eqb_neq k "s") N1), (proj2 (String.eqb_neq k "k") N2), (proj2 (String.eqb_neq k "a") N3).
    destruct (String.eqb_spec k "x") as [->|_]; [destruct H; simpl; auto|].
    destruct (String.eqb_spec k "y") as [->|_]; [destruct H; simpl; auto|]. destruct (String.eqb_spec k "z") as [->|_]; [destruct H; simpl; auto|]. reflexivity.
  - eexists _, _, _. splits; vm_compute; reflexivity.
Qed.
