(** * Properties C19-C22: copy, clone, merge, extend (bayesnet/bn.py) *)

Require Import Verif.Base Verif.World Verif.ModelGraph Verif.ModelExpr Verif.ModelLoci Verif.ModelBN
        Verif.Spec Verif.SpecBN Verif.SpecExpr Verif.ProofBase Verif.ProofGraph Verif.ProofExpr Verif.ProofBN
        Verif.ProofBNViews Verif.ProofBNCopy Verif.ProofBNHist Verif.ProofBNMerge Verif.ExWorld Verif.PropsBN.
Require Import Coq.ZArith.ZArith.

Lemma exnet_storable : forall n l, holds exnet n l -> storable l.
Proof.
  apply holds_dec_all. repeat constructor; simpl; auto; try reflexivity; try (intros E; discriminate E).
Qed.

(** ** C19 *)

(** Missing: networks with text constants or pseudo nodes without parents (not storable), for which it is false. *)
Theorem C19_copy_partial : forall w (b : bn w) nm, built b -> (forall n l, holds b n l -> storable l) ->
  exists bc, copy b nm = Ok bc /\ coherent bc /\ fresh bc /\ same_net b bc
    /\ b_name bc = match nm with Some n => if String.eqb n "" then b_name b else n | None => b_name b end
    /\ b_frozen bc = b_frozen b
    /\ (forall k, dget (b_udf bc) k = dget (b_udf b) k)
    /\ (forall n d, described bc n d -> d = None).
Proof.
  intros w b nm B St. destruct (built_coherent b B) as [C F].
  destruct (copy_ok b nm C F St) as [bc [H1 [H2 [H3 [H4 [H5 [H6 [H7 H8]]]]]]]].
  exists bc. splits; auto.
  - apply H7. apply built_udf; auto.
  - intros n d [a [Ha <-]]. eapply H8; eauto.
Qed.
Print Assumptions C19_copy_partial.

Example C19_example : built exnet /\ (forall n l, holds exnet n l -> storable l)
  /\ match copy exnet (Some "other") with Ok bc => b_name bc = "other" /\ dkeys (b_attrs bc) = ["x"; "a"; "s"; "k"; "y"; "z"] | Err _ => False end.
Proof. split; [apply exnet_built|]. split; [apply exnet_storable|]. vm_compute. auto. Qed.

(** A constant holding a text is evaluated as code when copied: the copy fails, or holds
    another value. *)
Definition textnet (s : string) : bn exw := mkBn "t" [("c", mkAttr (LValue (w:=exw) "c" (PS s)) None)] [] false None [].
Lemma textnet_built : forall s, built (textnet s).
Proof. intros s. eapply (bt_append (bn_new "t") (LValue (w:=exw) "c" (PS s)) None); [constructor|reflexivity]. Qed.

Theorem C19_text_constant_refuted :
  (exists b : bn exw, built b /\ exists e, copy b None = Err e)
  /\ (exists b bc : bn exw, built b /\ copy b None = Ok bc /\ ~ same_net b bc).
Proof.
  split.
  - exists (textnet "hello"). split; [apply textnet_built|]. exists NameError. reflexivity.
  - exists (textnet "1+1"). eexists. split; [apply textnet_built|]. split; [reflexivity|].
    intros [_ [H _]]. destruct (H "c" (LValue (w:=exw) "c" (PS "1+1"))) as [H1 _].
    destruct H1 as [a [Ha He]]; [eexists; split; reflexivity|].
    simpl in Ha. inversion Ha; subst. discriminate.
Qed.
Print Assumptions C19_text_constant_refuted.

(** ** C20 *)

Theorem C20_clone_fails : forall w (b : bn w), built b ->
  (exists e, clone b = Err e) /\ (forall js, to_json b = Ok js -> exists e, bayes_net_from_json js = Err e).
Proof.
  intros w b B. destruct (built_coherent b B) as [C F]. split; [apply clone_fails; auto|].
  intros js H. apply from_json_no_rvroots. eapply to_json_rvroots; eauto.
Qed.
Print Assumptions C20_clone_fails.

(** and for definitions that survive the round trip the exception is the missing key *)
Theorem C20_clone_key_error : forall w (b : bn w), built b -> (forall n l, holds b n l -> storable l) ->
  clone b = Err KeyError /\ exists js, to_json b = Ok js /\ bj_rvroots js = None.
Proof.
  intros w b B St. destruct (built_coherent b B) as [C F]. split; [apply clone_key_error; auto|].
  assert (H : exists js, to_json b = Ok js).
  { unfold to_json, cached. destruct (b_frozen b) eqn:Fz.
    - destruct (F Fz) as [c [-> _]]. eauto.
    - unfold form_js. destruct (fresh_views b F) as [-> [-> [_ [-> ->]]]].
      destruct (order_total (dag b)) as [od ->]; try apply C. simpl. eauto. }
  destruct H as [js H]. exists js. split; auto. eapply to_json_rvroots; eauto.
Qed.
Print Assumptions C20_clone_key_error.

(** the reader itself works when the entry is supplied *)
Theorem C20_reader : forall w (b : bn w) js od rs rv ls ex, built b -> (forall n l, holds b n l -> storable l) ->
  js = mkBJ (b_name b) (js_nodes b) (Some od) (Some rs) (Some rv) (Some ls) (Some ex) ->
  exists b', bayes_net_from_json js = Ok b' /\ coherent b' /\ same_net b b' /\ b_name b' = b_name b /\ b_frozen b' = false.
Proof.
  intros w b js od rs rv ls ex B St ->. destruct (built_coherent b B) as [C F].
  destruct (copied_all b (b_name b) C St) as [bc [H1 H2]]. exists bc. unfold bayes_net_from_json. simpl. rewrite H1.
  splits; auto.
  - apply (cp_coherent _ _ _ _ H2).
  - eapply copied_same; eauto.
  - apply (cp_name _ _ _ _ H2).
  - apply (cp_frozen _ _ _ _ H2).
Qed.
Print Assumptions C20_reader.

Example C20_example : built exnet /\ clone exnet = Err KeyError /\ clone (snd (complete exnet)) = Err KeyError.
Proof. split; [apply exnet_built|]. split; vm_compute; reflexivity. Qed.

(** ** C21 *)

(** Complete description of merge. [lost x]: [sub] re-defines [x] but not some child of [x] in
    [b]. A lost node becomes exogenous, or the merge raises if its new definition has parents;
    exogenous nodes without children are dropped. *)
(** Missing: networks with definitions that are not storable. *)
Theorem C21_merge_partial : forall w (b sub : bn w) nm, built b -> built sub ->
  (forall n l, holds b n l -> storable l) -> (forall n l, holds sub n l -> storable l) ->
  nm <> b_name b -> nm <> b_name sub ->
  ((exists x, lost b sub x /\ has_parents sub x) -> merge b nm sub = Err NetworkXError)
  /\ ((forall x, lost b sub x -> ~ has_parents sub x) -> exists r, merge b nm sub = Ok r
      /\ b_frozen r = false /\ wf (dag r) /\ acyclic (dag r)
      /\ (forall x y, edge (dag r) x y <->
            (redef sub y /\ edge (dag sub) x y) \/ (~ redef sub y /\ ~ redef sub x /\ edge (dag b) x y))
      /\ (forall x, node r x <-> exists l, merge_def b sub x l /\ (is_exo_l l = true -> exists y, merge_edge b sub x y))
      /\ (forall x l, holds r x l -> merge_def b sub x l)
      /\ (forall k, dget (b_udf r) k = match dget (b_udf sub) k with Some f => Some f | None => dget (b_udf b) k end)).
Proof.
  intros w b sub nm B Bs St Ss N1 N2. destruct (built_coherent b B) as [C F]. destruct (built_coherent sub Bs) as [Cs Fs].
  destruct (merge_spec b sub nm C F Cs Fs St Ss (built_udf _ B) (built_udf _ Bs) N1 N2) as [H1 H2]. split; auto.
  intros H. destruct (H2 H) as [r [K1 [K2 [K3 [K4 [K5 [K6 [K7 [K8 K9]]]]]]]]]. exists r. splits; auto.
Qed.
Print Assumptions C21_merge_partial.

(** The intended reading, under the condition that makes it true. *)
(** Missing: networks with definitions that are not storable. *)
Theorem C21_merge_union_partial : forall w (b sub : bn w) nm, built b -> built sub ->
  (forall n l, holds b n l -> storable l) -> (forall n l, holds sub n l -> storable l) ->
  nm <> b_name b -> nm <> b_name sub ->
  (forall x c, redef sub x -> edge (dag b) x c -> redef sub c) ->
  exists r, merge b nm sub = Ok r /\ coherent r
    /\ (forall x l, redef sub x -> holds sub x l -> holds r x l)
    /\ (forall x l, ~ redef sub x -> holds b x l -> is_exo_l l = false -> holds r x l)
    /\ (forall x, node r x -> ~ redef sub x -> ~ node b x -> holds r x (LExo x))
    /\ (forall x, node r x -> node b x \/ node sub x)
    /\ (forall x, holds r x (LExo x) -> exists y, edge (dag r) x y).
Proof.
  intros w b sub nm B Bs St Ss N1 N2 H. destruct (built_coherent b B) as [C F]. destruct (built_coherent sub Bs) as [Cs Fs].
  apply merge_union; auto; apply built_udf; auto.
Qed.
Print Assumptions C21_merge_union_partial.

(** The same name as one of the networks is refused. *)
Theorem C21_merge_name : forall w (b sub : bn w) nm, nm = b_name b \/ nm = b_name sub ->
  merge b nm sub = Err AssertionError.
Proof.
  intros w b sub nm H. unfold merge. destruct H as [->| ->]; rewrite String.eqb_refl; auto.
  destruct (String.eqb (b_name sub) (b_name b)); auto.
Qed.
Print Assumptions C21_merge_name.

(** A re-defined node whose child is not re-defined never survives with its new definition. *)
(** Missing: networks with definitions that are not storable. *)
Theorem C21_lost_never_kept_partial : forall w (b sub r : bn w) nm x l, built b -> built sub ->
  (forall n l, holds b n l -> storable l) -> (forall n l, holds sub n l -> storable l) ->
  merge b nm sub = Ok r -> lost b sub x -> holds sub x l -> ~ holds r x l.
Proof.
  intros w b sub r nm x l B Bs St Ss H L Hl Hr.
  assert (N1 : nm <> b_name b /\ nm <> b_name sub).
  { split; intros E; rewrite C21_merge_name in H; auto; discriminate. }
  destruct N1 as [N1 N2]. destruct (C21_merge_partial w b sub nm B Bs St Ss N1 N2) as [H1 H2].
  assert (Hno : forall y, lost b sub y -> ~ has_parents sub y).
  { intros y Ly Hy. rewrite H1 in H; [discriminate|]. eauto. }
  destruct (H2 Hno) as [r' [K1 [K2 [K3 [K4 [K5 [K6 [K7 K8]]]]]]]]. rewrite H in K1. inversion K1; subst r'.
  apply K7 in Hr. pose proof (merge_def_fun _ _ _ _ _ Hr (md_lost _ _ _ L)) as E. subst l.
  destruct L as [[l' [Q1 [Q2 Q3]]] _]. pose proof (holds_fun _ _ _ _ Hl Q1). subst l'. discriminate.
Qed.
Print Assumptions C21_lost_never_kept_partial.

(** sub defines k (parent of y in exnet) and nothing else: k disappears and y keeps a definition
    mentioning k without having it as a parent. *)
Definition subk : bn exw := mkBn "subk" [("k", mkAttr (LValue (w:=exw) "k" (PZ 5)) None)] [] false None [].
Lemma subk_built : built subk.
Proof. eapply (bt_append (bn_new "subk") (LValue (w:=exw) "k" (PZ 5)) None); [constructor|reflexivity]. Qed.
Lemma subk_storable : forall n l, holds subk n l -> storable l.
Proof. apply holds_dec_all. repeat constructor. Qed.

Theorem C21_merge_refuted : exists (b sub r : bn exw) x, built b /\ built sub
  /\ merge b "new" sub = Ok r /\ redef sub x /\ ~ node r x /\ ~ coherent r.
Proof.
  exists exnet, subk.
  assert (E : match merge exnet "new" subk with
              | Ok r => negb (mem "k" (dkeys (b_attrs r)))
                        && match dget (b_attrs r) "y" with Some a => mem "k" (loci_parents (a_loci a)) | None => false end
                        && negb (existsb (fun e => String.eqb "y" (snd e) && String.eqb "k" (fst e)) (b_edges r))
              | Err _ => false end = true) by (vm_compute; reflexivity).
  destruct (merge exnet "new" subk) as [r|]; [|discriminate].
  apply andb_true_iff in E. destruct E as [E E3]. apply andb_true_iff in E. destruct E as [E1 E2].
  apply negb_true_iff in E1. apply negb_true_iff in E3.
  exists r, "k". splits; auto.
  - apply exnet_built.
  - apply subk_built.
  - eexists. splits; [eexists; split; reflexivity|reflexivity|reflexivity].
  - apply node_dec_false; auto.
  - intros C. destruct (dget (b_attrs r) "y") as [a|] eqn:Ea; [|discriminate]. apply mem_In in E2.
    assert (Hy : holds r "y" (a_loci a)) by (exists a; auto).
    assert (He : edge (dag r) "k" "y") by (apply (co_parents _ C _ _ Hy); auto).
    assert (E4 : existsb (fun e => String.eqb "y" (snd e) && String.eqb "k" (fst e)) (b_edges r) = true); [|congruence].
    apply existsb_exists. exists ("k", "y"). auto.
Qed.
Print Assumptions C21_merge_refuted.

(** x = 3 + q, with q new: x has the child y that is not re-defined, and parents in sub *)
Definition subx : bn exw := mkBn "subx"
  [("x", mkAttr (LFunc (w:=exw) "x" (e_add (ENum "3") (EName "q")) ["q"]) None); ("q", mkAttr (LExo "q") None)]
  [("q", "x")] false None [].
Lemma subx_built : built subx.
Proof. eapply (bt_append (bn_new "subx") (LFunc (w:=exw) "x" (e_add (ENum "3") (EName "q")) ["q"]) None); [constructor|reflexivity]. Qed.
Example C21_example_raises : built exnet /\ built subx /\ lost exnet subx "x" /\ has_parents subx "x"
  /\ merge exnet "new" subx = Err NetworkXError.
Proof.
  splits; [apply exnet_built|apply subx_built| | |vm_compute; reflexivity].
  - split.
    + eexists. splits; [eexists; split; reflexivity|reflexivity|reflexivity].
    + exists "y". split; [apply edge_dec_true; vm_compute; reflexivity|]. intros [l [[a [Ha _]] _]]. discriminate.
  - exists "q". apply edge_dec_true. vm_compute. reflexivity.
Qed.

(** a leaf of exnet re-defined: the good case *)
Definition subz : bn exw := mkBn "subz"
  [("z", mkAttr (LFunc (w:=exw) "z" (e_add (EName "k") (EName "q")) ["k"; "q"]) None);
   ("k", mkAttr (LExo "k") None); ("q", mkAttr (LExo "q") None)] [("k", "z"); ("q", "z")] false None [].
Lemma subz_built : built subz.
Proof. eapply (bt_append (bn_new "subz") (LFunc (w:=exw) "z" (e_add (EName "k") (EName "q")) ["k"; "q"]) None); [constructor|reflexivity]. Qed.
Example C21_example_union : built exnet /\ built subz /\ "new" <> b_name exnet /\ "new" <> b_name subz
  /\ (forall x c, redef subz x -> edge (dag exnet) x c -> redef subz c)
  /\ match merge exnet "new" subz with Ok r => dkeys (b_attrs r) = ["x"; "a"; "s"; "k"; "y"; "z"; "q"] | Err _ => False end.
Proof.
  splits; [apply exnet_built|apply subz_built|discriminate|discriminate| |vm_compute; reflexivity].
  intros x c [l [[a [Ha He]] [H1 H2]]] Hc. simpl in Ha.
  destruct (String.eqb x "z") eqn:E; [|destruct (String.eqb x "k"); [|destruct (String.eqb x "q")]; inversion Ha; subst; discriminate].
  apply String.eqb_eq in E. subst x. red in Hc. simpl in Hc. repeat (destruct Hc as [Hc|Hc]; [inversion Hc|]). destruct Hc.
Qed.

(** ** C22 *)

Theorem C22_extend_fresh : forall w (b : bn w) ov, built b -> exists nb, extend b None ov = (Ok tt, nb)
  /\ b_name nb = b_name b /\ b_frozen nb = true /\ fresh nb
  /\ (forall x, node nb x <-> node b x) /\ (forall x, node b x -> holds nb x (LExo x))
  /\ (forall x y, ~ edge (dag nb) x y).
Proof. intros w b ov B. destruct (built_coherent b B). apply extend_fresh; auto. Qed.
Print Assumptions C22_extend_fresh.

(** Into an existing network without override: what is there is kept, the rest is added as
    exogenous nodes. *)
Theorem C22_extend_existing : forall w (b nb : bn w), built b -> built nb -> exists nb',
  extend b (Some nb) false = (Ok tt, nb') /\ b_frozen nb' = true /\ fresh nb' /\ coherent nb'
  /\ b_name nb' = b_name nb
  /\ (forall x, node nb' x <-> node nb x \/ node b x)
  /\ (forall x a, dget (b_attrs nb) x = Some a -> dget (b_attrs nb') x = Some a)
  /\ (forall x y, edge (dag nb') x y <-> edge (dag nb) x y)
  /\ (forall x, node b x -> ~ node nb x -> holds nb' x (LExo x)).
Proof. intros w b nb B Bn. destruct (built_coherent b B), (built_coherent nb Bn). apply extend_keep; auto. Qed.
Print Assumptions C22_extend_existing.

(** With override (the default) a common node that has parents in the target makes it raise. *)
Theorem C22_extend_override_refuted : exists b nb : bn exw, built b /\ built nb
  /\ fst (extend b (Some nb) true) = Err NetworkXError.
Proof.
  exists exnet, exnet. split; [apply exnet_built|]. split; [apply exnet_built|]. vm_compute. reflexivity.
Qed.
Print Assumptions C22_extend_override_refuted.

Example C22_example : built exnet /\ map (fun p => is_exo_l (a_loci (snd p))) (b_attrs (snd (extend exnet None true)))
   = [true; true; true; true; true; true]
  /\ fst (extend exnet (Some subz) false) = Ok tt.
Proof. split; [apply exnet_built|]. split; vm_compute; reflexivity. Qed.
