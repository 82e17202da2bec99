(** * Properties C12-C18, C23: Bayesian networks (bayesnet/bn.py) *)

Require Import Verif.Base Verif.World Verif.ModelGraph Verif.ModelExpr Verif.ModelLoci Verif.ModelBN
        Verif.Spec Verif.SpecBN Verif.SpecExpr Verif.ProofBase Verif.ProofGraph Verif.ProofExpr Verif.ProofBN
        Verif.ProofBNViews Verif.ProofBNCopy Verif.ProofBNHist Verif.ExWorld.
Require Import Coq.ZArith.ZArith.

(** Example: x ~ norm(a, s), y = x + k, z = exp(y) * a, k = 2 *)
Definition e_norm (l s : expr) : expr := ECall "norm" [] [("loc", l); ("scale", s)].
Definition e_add (a b : expr) : expr := EOp "+" [a; b].
Definition e_mul (a b : expr) : expr := EOp "*" [a; b].
Definition lx : loci exw := LDist "x" (e_norm (EName "a") (EName "s")) ["a"; "s"].
Definition lk : loci exw := LValue (w:=exw) "k" (PZ 2).
Definition ly : loci exw := LFunc "y" (e_add (EName "x") (EName "k")) ["x"; "k"].
Definition lz : loci exw := LFunc "z" (e_mul (ECall "exp" [EName "y"] []) (EName "a")) ["y"; "a"].
Definition exnet : bn exw := mkBn "net"
  [("x", mkAttr lx None); ("a", mkAttr (LExo "a") None); ("s", mkAttr (LExo "s") None);
   ("k", mkAttr lk None); ("y", mkAttr ly None); ("z", mkAttr lz None)]
  [("a", "x"); ("s", "x"); ("x", "y"); ("k", "y"); ("y", "z"); ("a", "z")] false None [].

Lemma exnet_defs : defs (bn_new "net") [lx; lk; ly; lz] = exnet.
Proof. exact (eq_refl exnet <: defs (bn_new "net") [lx; lk; ly; lz] = exnet). Qed.
Lemma exnet_built : built exnet.
Proof. rewrite <- exnet_defs. apply defs_built; [constructor|vm_compute; reflexivity]. Qed.
Lemma exnet_coherent : coherent exnet. Proof. apply built_coherent, exnet_built. Qed.
Lemma exnet_fresh : fresh exnet. Proof. apply built_coherent, exnet_built. Qed.

(** ** C12 *)

Theorem C12_built_wellformed : forall w (b : bn w), built b ->
  wf (dag b) /\ acyclic (dag b)
  /\ (forall n, node b n -> exists l, holds b n l /\ loci_name l = n)
  /\ (forall n l p, holds b n l -> (edge (dag b) p n <-> In p (loci_parents l)))
  /\ (forall n l p, holds b n l -> In p (loci_parents l) -> node b p).
Proof.
  intros w b B. destruct (built_coherent b B) as [C _]. splits.
  - apply C.
  - apply C.
  - intros n H. destruct (node_holds _ _ H) as [l Hl]. exists l. split; auto. eapply co_name; eauto.
  - intros n l p Hl. apply (co_parents _ C); auto.
  - intros n l p Hl Hp. apply (co_parents _ C _ _ Hl) in Hp. apply node_gnodes. eapply wf_src; eauto. apply C.
Qed.
Print Assumptions C12_built_wellformed.

Example C12_example : built exnet /\ edge (dag exnet) "k" "y" /\ node exnet "s".
Proof. split; [apply exnet_built|]. split; [apply edge_dec_true|apply node_dec_true]; vm_compute; reflexivity. Qed.

(** A function node read from text gets as parents exactly the names that its text uses as a
    value and never calls; a distribution node those of its arguments. *)
Theorem C12_parents_are_mentioned : forall w (b b' : bn w) n e l des, built b ->
  mk_func n e [] = Ok l -> append_loci b l des = (Ok tt, b') ->
  forall p, edge (dag b') p n <-> mentions e p /\ ~ calls e p.
Proof.
  intros w b b' n e l des B Hl H p. inversion Hl; subst l. clear Hl.
  destruct (built_coherent b B) as [C _]. pose proof (append_loci_coherent _ _ _ _ C H) as C'.
  destruct (append_loci_ok _ _ _ _ (co_wf _ C) (co_acyclic _ C) H) as [_ [_ [_ [D _]]]].
  rewrite (co_parents _ C' n (LFunc n e (evars e))).
  - simpl. apply evars_In.
  - eexists. rewrite (df_attrs _ _ _ _ D). simpl. rewrite String.eqb_refl. split; reflexivity.
Qed.
Print Assumptions C12_parents_are_mentioned.

Theorem C12_parents_are_mentioned_dist : forall w (b b' : bn w) n tp args kws l des, built b ->
  mk_dist n (ECall tp args kws) [] = Ok l -> append_loci b l des = (Ok tt, b') ->
  forall p, edge (dag b') p n <-> (exists a, In a args /\ mentions a p /\ ~ calls a p)
                               \/ (exists k a, In (k, a) kws /\ mentions a p /\ ~ calls a p).
Proof.
  intros w b b' n tp args kws l des B Hl H p. unfold mk_dist in Hl.
  apply bind_ok in Hl. destruct Hl as [func [_ Hl]]. apply bind_ok in Hl. destruct Hl as [ps [Hps Hl]].
  inversion Hl; subst l. clear Hl.
  destruct (built_coherent b B) as [C _]. pose proof (append_loci_coherent _ _ _ _ C H) as C'.
  destruct (append_loci_ok _ _ _ _ (co_wf _ C) (co_acyclic _ C) H) as [_ [_ [_ [D _]]]].
  rewrite (co_parents _ C' n (LDist n func ps)).
  2:{ eexists. rewrite (df_attrs _ _ _ _ D). simpl. rewrite String.eqb_refl. split; reflexivity. }
  simpl. assert (Hne : args <> [] \/ kws <> []).
  { destruct args as [|a0 args]; [|left; discriminate]. destruct kws; [|right; discriminate].
    rewrite parse_function_call in Hps. discriminate. }
  destruct (parsed_parents_call tp args kws Hne) as [ps' [H1 [_ H2]]].
  rewrite H1 in Hps. inversion Hps; subst. apply H2.
Qed.
Print Assumptions C12_parents_are_mentioned_dist.

Example C12_example_text :
  mk_func (w:=exw) "z" (e_mul (ECall "exp" [EName "y"] []) (EName "a")) [] = Ok lz
  /\ mk_dist (w:=exw) "x" (ECall "norm" [EName "a"; EName "s"] []) [] = Ok lx
  /\ fst (append_loci exnet (LFunc "q" (EName "y") ["y"]) None) = Ok tt.
Proof. splits; reflexivity. Qed.

(** ** C13 *)

Theorem C13_last_definition_wins : forall w (b b' : bn w) l des, coherent b ->
  append_loci b l des = (Ok tt, b') ->
  holds b' (loci_name l) l
  /\ (forall d, des = Some d -> described b' (loci_name l) (Some d))
  /\ (forall d, des = None -> described b (loci_name l) d -> described b' (loci_name l) d)
  /\ (forall x, node b' x <-> node b x \/ x = loci_name l \/ In x (loci_parents l))
  /\ (forall x, In x (loci_parents l) -> ~ node b x ->
        holds b' x (LExo x) /\ described b' x None /\ forall p, ~ edge (dag b') p x)
  /\ (forall x, node b x -> x <> loci_name l -> dget (b_attrs b') x = dget (b_attrs b) x
        /\ forall p, edge (dag b') p x <-> edge (dag b) p x)
  /\ (forall p, edge (dag b') p (loci_name l) <-> In p (loci_parents l))
  /\ b_name b' = b_name b /\ b_udf b' = b_udf b /\ b_frozen b' = false.
Proof.
  intros w b b' l des C H. pose proof (append_loci_coherent _ _ _ _ C H) as C'.
  destruct (append_loci_ok _ _ _ _ (co_wf _ C) (co_acyclic _ C) H) as [_ [Hnp [Hc [D _]]]].
  assert (Hh : holds b' (loci_name l) l).
  { eexists. rewrite (df_attrs _ _ _ _ D), String.eqb_refl. split; reflexivity. }
  assert (Hself : ~ In (loci_name l) (loci_parents l)) by (intros Hi; apply Hc; exists (loci_name l); auto).
  splits; auto.
  - intros d ->. eexists. rewrite (df_attrs _ _ _ _ D), String.eqb_refl. split; reflexivity.
  - intros d -> [a [Ha <-]]. eexists. rewrite (df_attrs _ _ _ _ D), String.eqb_refl, Ha. split; reflexivity.
  - apply (df_nodes _ _ _ _ D).
  - intros x Hx Hn. assert (Ne : String.eqb x (loci_name l) = false) by (apply String.eqb_neq; intros ->; auto).
    assert (Hd : dget (b_attrs b') x = Some (mkAttr (LExo x) None)).
    { rewrite (df_attrs _ _ _ _ D), Ne. apply dget_None in Hn. rewrite Hn. apply mem_In in Hx. rewrite Hx. auto. }
    splits.
    + eexists; eauto.
    + eexists; eauto.
    + intros p Hp. apply (co_parents _ C' x (LExo x)) in Hp; [destruct Hp|]. eexists; eauto.
  - intros x Hx Ne. split.
    + rewrite (df_attrs _ _ _ _ D). apply String.eqb_neq in Ne. rewrite Ne.
      apply dget_In in Hx. destruct Hx as [a ->]. auto.
    + intros p. rewrite (df_edges _ _ _ _ D). tauto.
  - intros p. apply (co_parents _ C'); auto.
  - apply (df_name _ _ _ _ D).
  - apply (df_udf _ _ _ _ D).
  - apply (df_frozen _ _ _ _ D).
Qed.
Print Assumptions C13_last_definition_wins.

(** k, a constant with a child, becomes a function of the new name q *)
Example C13_example : coherent exnet
  /\ fst (append_loci exnet (LFunc "k" (EName "q") ["q"]) (Some "rate")) = Ok tt.
Proof. split; [apply exnet_coherent|reflexivity]. Qed.

(** ** C14 *)

Theorem C14_rejected_iff : forall w (b : bn w) l des, coherent b -> b_frozen b = false ->
  (exists e, fst (append_loci b l des) = Err e) <-> has_parents b (loci_name l) \/ closes_cycle b l.
Proof.
  intros w b l des C F. destruct (has_parents_dec b (loci_name l)) as [Hp|Hp].
  - rewrite append_loci_parents; try apply C; auto. simpl. split; eauto.
  - destruct (append_loci_root b l des (co_wf _ C) (co_acyclic _ C) F Hp) as [[Hc [b2 [-> _]]]|[Hc [b2 [-> _]]]]; simpl.
    + split; [intros [e H]; discriminate|tauto].
    + split; eauto.
Qed.
Print Assumptions C14_rejected_iff.

(** What is left behind when the definition closes a cycle: either the node and its edges are
    gone and the rest is as before, or the network is cyclic and refers to an unknown parent. *)
Theorem C14_rejected_state : forall w (b b' : bn w) l des, coherent b -> b_frozen b = false ->
  ~ has_parents b (loci_name l) -> closes_cycle b l ->
  append_loci b l des = (fst (append_loci b l des), b') ->
  fst (append_loci b l des) = Err AttributeError
  /\ ( ((forall x, node b' x <-> node b x /\ x <> loci_name l)
        /\ (forall x y, edge (dag b') x y <-> edge (dag b) x y /\ x <> loci_name l /\ y <> loci_name l)
        /\ (forall x, x <> loci_name l -> dget (b_attrs b') x = dget (b_attrs b) x))
       \/ (~ acyclic (dag b') /\ holds b' (loci_name l) l
           /\ exists pa, In pa (loci_parents l) /\ ~ node b' pa)).
Proof.
  intros w b b' l des C F Hp Hc H.
  destruct (append_loci_root b l des (co_wf _ C) (co_acyclic _ C) F Hp) as [[Hn _]|[_ [b2 [E R]]]]; [tauto|].
  rewrite E in *. simpl in *. inversion H; subst. split; auto. eapply rejected_cycle_shape; eauto. apply C.
Qed.
Print Assumptions C14_rejected_state.

(** both outcomes occur: k = z closes the cycle k -> y -> z *)
Example C14_example_removed : coherent exnet /\ ~ has_parents exnet "k" /\
  let l : loci exw := LFunc "k" (EName "z") ["z"] in
  closes_cycle exnet l /\ append_loci exnet l None = (Err AttributeError, drop_node exnet "k").
Proof.
  cbv zeta. splits.
  - apply exnet_coherent.
  - apply no_parents_dec. reflexivity.
  - exists "z". split; [simpl; auto|]. right.
    apply (path_step _ _ "y"); [|apply path_edge]; apply edge_dec_true; vm_compute; reflexivity.
  - reflexivity.
Qed.
Theorem C14_rollback_refuted : exists (b : bn exw) l b', coherent b /\ b_frozen b = false
  /\ append_loci b l None = (Err AttributeError, b')
  /\ ~ acyclic (dag b') /\ exists p, In p (loci_parents l) /\ ~ node b' p.
Proof.
  set (l := LFunc (w:=exw) "k" (e_add (EName "z") (EName "new")) ["z"; "new"]).
  assert (E : fst (append_loci exnet l None) = Err AttributeError) by (vm_compute; reflexivity).
  exists exnet, l, (snd (append_loci exnet l None)).
  split; [apply exnet_coherent|]. split; [reflexivity|]. split; [rewrite <- E; apply surjective_pairing|].
  clear E. unfold l. split.
  - intros A. apply (A "k").
    apply (path_step _ _ "y"); [apply edge_dec_true; vm_compute; reflexivity|].
    apply (path_step _ _ "z"); [apply edge_dec_true; vm_compute; reflexivity|].
    apply path_edge. apply edge_dec_true; vm_compute; reflexivity.
  - exists "new". split; [simpl; auto|]. apply node_dec_false. vm_compute; reflexivity.
Qed.
Print Assumptions C14_rollback_refuted.

(** ** C15 *)

Theorem C15_redefinition_fails : forall w (b : bn w) l des, coherent b -> b_frozen b = false ->
  has_parents b (loci_name l) ->
  exists b', append_loci b l des = (Err NetworkXError, b')
    /\ holds b' (loci_name l) l
    /\ (forall x y, edge (dag b') x y <-> edge (dag b) x y)
    /\ (forall x, node b' x <-> node b x)
    /\ (forall x, x <> loci_name l -> dget (b_attrs b') x = dget (b_attrs b) x).
Proof.
  intros w b l des C F Hp. exists (put_node b l des). rewrite append_loci_parents; try apply C; auto. splits; auto.
  - eexists. unfold put_node. simpl. rewrite dget_dset, String.eqb_refl. split; reflexivity.
  - intros. apply put_edges.
  - intros x. pose proof (put_node_node b l des x) as Hx. split; [|tauto]. intros H. apply Hx in H. destruct H as [->|H]; auto.
    destruct Hp as [p Hp]. apply node_gnodes. eapply wf_dst; eauto. apply C.
  - intros x Hx. unfold put_node. simpl. rewrite dget_dset. apply String.eqb_neq in Hx. rewrite Hx. auto.
Qed.
Print Assumptions C15_redefinition_fails.

(** The network is incoherent afterwards unless the parents happen to be the same. *)
Theorem C15_incoherent_after : forall w (b b' : bn w) l des e, coherent b -> b_frozen b = false ->
  has_parents b (loci_name l) -> append_loci b l des = (e, b') ->
  ~ (forall p, edge (dag b) p (loci_name l) <-> In p (loci_parents l)) -> ~ coherent b'.
Proof.
  intros w b b' l des e C F Hp H Hne C'.
  destruct (C15_redefinition_fails w b l des C F Hp) as [b2 [E [H1 [H2 _]]]]. rewrite E in H. inversion H; subst.
  apply Hne. intros p. rewrite <- H2. apply (co_parents _ C'); auto.
Qed.
Print Assumptions C15_incoherent_after.

Example C15_example : coherent exnet /\ b_frozen exnet = false /\ has_parents exnet "y"
  /\ ~ (forall p, edge (dag exnet) p "y" <-> In p (loci_parents (LValue (w:=exw) "y" (PZ 0)))).
Proof.
  splits; [apply exnet_coherent|reflexivity| |].
  - exists "x". apply edge_dec_true. vm_compute; reflexivity.
  - intros H. destruct (H "x") as [H1 _]. apply H1. apply edge_dec_true. vm_compute; reflexivity.
Qed.

(** ** C16 *)

Theorem C16_complete_freezes : forall w (b : bn w), coherent b -> exists b', complete b = (Ok tt, b')
  /\ b_frozen b' = true /\ same_net b b' /\ b_attrs b' = b_attrs b /\ b_name b' = b_name b /\ b_udf b' = b_udf b
  /\ (forall l des, append_loci b' l des = (Err AttributeError, b'))
  /\ (forall j, exists e, append_from_js b' j = (Err e, b'))
  /\ Order b' = order (dag b) /\ Roots b' = Ok (roots (dag b)) /\ RVRoots b' = find_rv_roots b
  /\ Leaves b' = Ok (leaves (dag b)) /\ Exo b' = Ok (find_exo b)
  /\ (fresh b -> to_json b' = form_js b).
Proof.
  intros w b C. destruct (complete_ok b C) as [b' [K1 [K2 [K3 [K4 [K5 [K6 K7]]]]]]].
  exists b'. destruct (fresh_views b' K3) as [V1 [V2 [V3 [V4 V5]]]].
  assert (Ed : b_edges b' = b_edges b) by (change (gedges (dag b') = gedges (dag b)); rewrite K4; auto).
  assert (Ex : find_exo b' = find_exo b) by (unfold find_exo; rewrite K5; auto).
  assert (Rv : find_rv_roots b' = find_rv_roots b).
  { unfold find_rv_roots. rewrite K4. destruct (order (dag b)); auto. simpl. apply rv_roots_of_ext; auto. }
  splits; auto; try congruence.
  - unfold same_net, node, holds. rewrite K4, K5. splits; intros; tauto.
  - intros. apply append_loci_frozen; auto.
  - intros j. unfold append_from_js. destruct (loci_from_json j); eauto. rewrite append_loci_frozen; eauto.
  - intros Fb. destruct (fresh_views b Fb) as [U1 [U2 [U3 [U4 U5]]]]. unfold form_js. rewrite U1, U2, U4, U5.
    unfold to_json, cached. rewrite K2. destruct (K3 K2) as [c [H1 [H2 [H3 [_ [H5 [H6 H7]]]]]]].
    rewrite H1, H7. rewrite K4 in *. rewrite H2. simpl. unfold js_nodes. rewrite K5, K6, H3, H5, H6, Ex. auto.
Qed.
Print Assumptions C16_complete_freezes.

(** No sequence of later appends changes a frozen network. *)
Theorem C16_frozen_forever : forall w (b : bn w) steps, b_frozen b = true ->
  fold_left (fun s (p : loci w * option string) => snd (append_loci s (fst p) (snd p))) steps b = b.
Proof.
  intros w b steps F. induction steps as [|[l d] steps IH]; simpl; auto. rewrite append_loci_frozen; auto.
Qed.
Print Assumptions C16_frozen_forever.

(** The cached views stay right over every history. *)
Theorem C16_views_always_fresh : forall w (b : bn w), built b ->
  Order b = order (dag b) /\ Roots b = Ok (roots (dag b)) /\ RVRoots b = find_rv_roots b
  /\ Leaves b = Ok (leaves (dag b)) /\ Exo b = Ok (find_exo b).
Proof. intros w b B. apply fresh_views. apply built_coherent; auto. Qed.
Print Assumptions C16_views_always_fresh.

Theorem C16_defrost_restores : forall w (b : bn w), coherent b ->
  coherent (defrost b) /\ b_frozen (defrost b) = false /\ same_net b (defrost b)
  /\ b_attrs (defrost b) = b_attrs b /\ b_name (defrost b) = b_name b /\ b_udf (defrost b) = b_udf b
  /\ order (dag (defrost b)) = order (dag b)
  /\ forall l des b', append_loci b l des = (Ok tt, b') -> exists b2, append_loci (defrost b) l des = (Ok tt, b2).
Proof.
  intros w b C. destruct (defrost_dag b (co_wf _ C)) as [W E]. pose proof (defrost_coherent b C) as Cd. splits; auto.
  - unfold same_net. splits; try tauto. intros. symmetry. apply E.
  - apply regroup_order. apply C.
  - intros l des b' H.
    destruct (append_loci_ok _ _ _ _ (co_wf _ C) (co_acyclic _ C) H) as [_ [Hp [Hc _]]].
    assert (Hp' : ~ has_parents (defrost b) (loci_name l)) by (intros [p Hq]; apply Hp; exists p; apply E; auto).
    destruct (append_loci_root (defrost b) l des W (co_acyclic _ Cd)) as [[_ [b2 [H2 _]]]|[[p [H1 H2]] _]]; auto.
    + eauto.
    + exfalso. apply Hc. exists p. split; auto. destruct H2 as [H2|H2]; auto. right.
      revert H2. apply path_incl. intros x y. apply E.
Qed.
Print Assumptions C16_defrost_restores.

Example C16_example : coherent exnet
  /\ Order (snd (complete exnet)) = Ok ["a"; "s"; "k"; "x"; "y"; "z"]
  /\ Exo (snd (complete exnet)) = Ok ["a"; "s"]
  /\ Leaves (snd (complete exnet)) = Ok ["z"].
Proof. split; [apply exnet_coherent|]. splits; vm_compute; reflexivity. Qed.

(** ** C17 *)

Theorem C17_rv_roots : forall w (b : bn w), coherent b -> fresh b -> exists l, RVRoots b = Ok l
  /\ topo (dag b) l (fun n => random b n /\ forall a, path (dag b) a n -> ~ random b a).
Proof.
  intros w b C F. destruct (fresh_views b F) as [_ [_ [-> _]]].
  destruct (find_rv_roots_ok b C) as [l [H1 [H2 _]]]. eauto.
Qed.
Print Assumptions C17_rv_roots.

(** x is a random root, the distribution u of x is not *)
Example C17_example :
  let b := defs exnet [LDist (w:=exw) "u" (e_norm (EName "y") (ENum "1")) ["y"]] in
  coherent b /\ fresh b /\ RVRoots b = Ok ["x"].
Proof.
  cbv zeta.
  assert (B : built (defs exnet [LDist (w:=exw) "u" (e_norm (EName "y") (ENum "1")) ["y"]])).
  { apply defs_built; [apply exnet_built|vm_compute; reflexivity]. }
  destruct (built_coherent _ B). splits; auto.
Qed.

(** ** C18 *)

Theorem C18_exo : forall w (b : bn w), coherent b -> fresh b -> exists l, Exo b = Ok l
  /\ lists l (fun n => exists d, holds b n d /\ is_exo_l d = true)
  /\ (forall n, In n l -> holds b n (LExo n) /\ forall p, ~ edge (dag b) p n)
  /\ (forall n, In n l -> exists rs, Roots b = Ok rs /\ In n rs).
Proof.
  intros w b C F. destruct (fresh_views b F) as [_ [V2 [_ [_ V5]]]]. exists (find_exo b). rewrite V5.
  pose proof (find_exo_spec b C) as [S1 S2]. splits; auto.
  - split; auto.
  - intros n Hn. apply S2 in Hn. destruct Hn as [d [Hd He]]. destruct d as [| m | | |]; try discriminate.
    pose proof (co_name _ C _ _ Hd) as En. simpl in En. subst m. split; auto.
    intros p Hp. apply (co_parents _ C _ _ Hd) in Hp. destruct Hp.
  - intros n Hn. exists (roots (dag b)). split; auto. apply S2 in Hn. destruct Hn as [d [Hd He]].
    apply roots_spec; [apply C|]. split.
    + apply node_gnodes. eapply holds_node; eauto.
    + intros p Hp. apply (co_parents _ C _ _ Hd) in Hp. destruct d; try discriminate. destruct Hp.
Qed.
Print Assumptions C18_exo.

Theorem C18_classification : forall w (b : bn w) n,
  (forall l, holds b n l ->
     is_rv b n = Ok (is_rv_l l)
     /\ is_exogenous b n = Ok (is_pseudo_l l || is_exo_l l)
     /\ needs_calculation b n = Ok (is_rv_l l || is_func_l l))
  /\ (~ node b n -> is_rv b n = Err KeyError /\ is_exogenous b n = Err KeyError
                    /\ needs_calculation b n = Err KeyError).
Proof.
  intros w b n. unfold is_rv, is_exogenous, needs_calculation. split.
  - intros l Hl. rewrite (proj2 (bget_holds b n l) Hl). simpl. auto.
  - intros H. rewrite (bget_missing b n H). simpl. auto.
Qed.
Print Assumptions C18_classification.

(** every node is exactly one of: constant, to be calculated, exogenous *)
Theorem C18_partition : forall w (b : bn w) n l, holds b n l ->
  (is_value_l l = true /\ needs_calculation b n = Ok false /\ is_exogenous b n = Ok false)
  \/ (is_value_l l = false /\ needs_calculation b n = Ok true /\ is_exogenous b n = Ok false)
  \/ (is_value_l l = false /\ needs_calculation b n = Ok false /\ is_exogenous b n = Ok true).
Proof.
  intros w b n l Hl. destruct (C18_classification w b n) as [H _]. destruct (H l Hl) as [_ [-> ->]].
  destruct l; simpl; tauto.
Qed.
Print Assumptions C18_partition.

Example C18_example : coherent exnet /\ fresh exnet /\ Exo exnet = Ok ["a"; "s"]
  /\ is_exogenous exnet "a" = Ok true /\ needs_calculation exnet "x" = Ok true /\ needs_calculation exnet "k" = Ok false.
Proof. splits; [apply exnet_coherent|apply exnet_fresh|..]; reflexivity. Qed.

(** ** C23 *)

Theorem C23_randomness : forall w (b : bn w) n, coherent b -> node b n ->
  exists r, has_randomness b n [] = Ok r
    /\ (r = true <-> random b n \/ exists a, path (dag b) a n /\ random b a).
Proof. intros. apply has_randomness_none; auto. Qed.
Print Assumptions C23_randomness.

(** With given nodes, the ancestors that lie above a given ancestor are ignored, even when
    another path avoids it. *)
Theorem C23_randomness_given : forall w (b : bn w) n given, coherent b -> node b n -> given <> [] ->
  exists r, has_randomness b n given = Ok r
    /\ (r = true <-> random b n \/ exists a, path (dag b) a n /\ random b a /\ ~ In a given
                     /\ ~ exists s, In s given /\ path (dag b) s n /\ path (dag b) a s).
Proof. intros. apply has_randomness_given; auto. Qed.
Print Assumptions C23_randomness_given.

Theorem C23_deterministic : forall w (b : bn w) n given, coherent b -> node b n ->
  exists r, is_deterministic b n given = Ok r
    /\ (r = true <-> (exists l, holds b n l /\ is_value_l l = true)
        \/ (given <> [] /\ forall a, path (dag b) a n -> ~ In a given ->
              ~ (exists s, In s given /\ path (dag b) s n /\ path (dag b) a s) ->
              exists l, holds b a l /\ is_value_l l = true)).
Proof. intros. apply is_deterministic_spec; auto. Qed.
Print Assumptions C23_deterministic.

(** is_deterministic answers True for a distribution node whose parents are given, while
    has_randomness answers True as well *)
Theorem C23_deterministic_refuted : exists (b : bn exw) n given, coherent b /\ random b n
  /\ is_deterministic b n given = Ok true /\ has_randomness b n given = Ok true.
Proof.
  exists exnet, "x", ["a"; "s"]. split; [apply exnet_coherent|]. split; [|split; reflexivity].
  exists lx. split; [|reflexivity]. eexists. split; reflexivity.
Qed.
Print Assumptions C23_deterministic_refuted.

(** u depends on the random x directly and through y; giving y hides x *)
Theorem C23_given_refuted : exists (b : bn exw) n given x, coherent b /\ ~ In x given /\ random b x
  /\ edge (dag b) x n /\ has_randomness b n given = Ok false.
Proof.
  exists (defs exnet [LFunc (w:=exw) "u" (e_add (EName "x") (EName "y")) ["x"; "y"]]), "u", ["y"], "x".
  split; [apply built_coherent, defs_built; [apply exnet_built|vm_compute; reflexivity]|].
  split; [intros [H|[]]; discriminate|]. split.
  - exists lx. split; [|reflexivity]. eexists. split; reflexivity.
  - split; [apply edge_dec_true; vm_compute; reflexivity|vm_compute; reflexivity].
Qed.
Print Assumptions C23_given_refuted.

Example C23_example : coherent exnet /\ node exnet "z"
  /\ has_randomness exnet "z" [] = Ok true /\ has_randomness exnet "z" ["x"] = Ok false
  /\ has_randomness exnet "k" [] = Ok false /\ is_deterministic exnet "k" [] = Ok true.
Proof. split; [apply exnet_coherent|]. split; [apply node_dec_true; vm_compute; reflexivity|]. splits; vm_compute; reflexivity. Qed.
