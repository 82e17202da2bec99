(** * Proofs about merge: complete characterisation *)

Require Import Verif.Base Verif.World Verif.ModelGraph Verif.ModelExpr Verif.ModelLoci Verif.ModelBN
        Verif.Spec Verif.SpecBN Verif.SpecExpr Verif.ProofBase Verif.ProofGraph Verif.ProofExpr Verif.ProofBN
        Verif.ProofBNViews Verif.ProofBNCopy Verif.ProofBNHist.

Section Merge.
  Context {w : world}.
  Implicit Types b : bn w.

  (** [sub] supplies a definition for [x] (exogenous and pseudo nodes are skipped) *)
  Definition redef (sub : bn w) (x : name) : Prop :=
    exists l, holds sub x l /\ is_exo_l l = false /\ is_pseudo_l l = false.

  Lemma is_exogenous_redef : forall sub x, node sub x ->
    exists ex, is_exogenous sub x = Ok ex /\ (ex = false <-> redef sub x).
  Proof.
    intros sub x H. destruct (node_holds _ _ H) as [l Hl]. unfold is_exogenous.
    rewrite (proj2 (bget_holds sub x l) Hl). simpl. eexists. split; [reflexivity|].
    rewrite orb_false_iff. split.
    - intros [H1 H2]. exists l. auto.
    - intros [l' [H1 [H2 H3]]]. rewrite (holds_fun _ _ _ _ Hl H1). auto.
  Qed.

  Lemma redef_node : forall sub x, redef sub x -> node sub x.
  Proof. intros sub x [l [H _]]. eapply holds_node; eauto. Qed.

  Lemma redef_dec : forall sub x, redef sub x \/ ~ redef sub x.
  Proof.
    intros sub x. destruct (In_dec_name x (dkeys (b_attrs sub))) as [H|H].
    - destruct (is_exogenous_redef sub x H) as [[] [_ E]].
      + right. intros R. apply E in R. discriminate.
      + left. apply E. auto.
    - right. intros R. apply H. apply redef_node in R. auto.
  Qed.

  (** the target network after the definitions [D] were taken over from [sub] *)
  Record merged (b0 sub : bn w) (D : list name) (m : bn w) : Prop := mkMerged {
    mg_name : b_name m = b_name b0;
    mg_frozen : b_frozen m = false;
    mg_udf : b_udf m = b_udf b0;
    mg_wf : wf (dag m);
    mg_edges : forall x y, edge (dag m) x y <->
       (In y D /\ edge (dag sub) x y) \/ (~ In y D /\ ~ In x D /\ edge (dag b0) x y);
    mg_nodes : forall x, node m x <-> node b0 x \/ In x D \/ exists y, In y D /\ edge (dag sub) x y;
    mg_new : forall x l, In x D -> holds sub x l -> dget (b_attrs m) x = Some (mkAttr l None);
    mg_old : forall x, ~ In x D -> node b0 x -> dget (b_attrs m) x = dget (b_attrs b0) x;
    mg_exo : forall x, ~ In x D -> ~ node b0 x -> node m x -> dget (b_attrs m) x = Some (mkAttr (LExo x) None)
  }.

  Lemma merged_acyclic : forall b0 sub D m, acyclic (dag b0) -> acyclic (dag sub) -> merged b0 sub D m -> acyclic (dag m).
  Proof.
    intros b0 sub D m A0 As M x Hx.
    assert (P1 : forall a c, path (dag m) a c -> In a D -> In c D /\ path (dag sub) a c).
    { intros a c P. induction P as [a c He|a c d He P IH]; intros Ha; apply (mg_edges _ _ _ _ M) in He.
      - destruct He as [[H1 H2]|[_ [H2 _]]]; [|tauto]. split; auto. apply path_edge; auto.
      - destruct He as [[H1 H2]|[_ [H2 _]]]; [|tauto]. destruct (IH H1) as [H3 H4]. split; auto. eapply path_step; eauto. }
    assert (P2 : forall a c, path (dag m) a c -> ~ In c D -> path (dag b0) a c).
    { intros a c P. induction P as [a c He|a c d He P IH]; intros Hc.
      - apply (mg_edges _ _ _ _ M) in He. destruct He as [[H1 _]|[_ [_ H2]]]; [tauto|]. apply path_edge; auto.
      - apply (mg_edges _ _ _ _ M) in He. destruct He as [[H1 _]|[_ [_ H2]]].
        + destruct (P1 _ _ P H1). tauto.
        + eapply path_step; eauto. }
    destruct (In_dec_name x D) as [H|H].
    - destruct (P1 _ _ Hx H) as [_ H2]. apply (As x H2).
    - apply (A0 x). apply P2; auto.
  Qed.

  (** removing the node when it is there *)
  Definition cut (m : bn w) (n : name) : bn w := if in_dag m n then drop_node m n else m.

  Lemma cut_spec : forall m n, wf (dag m) -> wf (dag (cut m n))
    /\ (forall x y, edge (dag (cut m n)) x y <-> edge (dag m) x y /\ x <> n /\ y <> n)
    /\ (forall x, node (cut m n) x <-> node m x /\ x <> n)
    /\ (forall x, dget (b_attrs (cut m n)) x = if String.eqb x n then None else dget (b_attrs m) x)
    /\ b_name (cut m n) = b_name m /\ b_frozen (cut m n) = b_frozen m /\ b_udf (cut m n) = b_udf m.
  Proof.
    intros m n W. unfold cut. destruct (in_dag m n) eqn:E.
    - splits; auto.
      + rewrite dag_drop. apply wf_del_node; auto.
      + intros x y. rewrite dag_drop. apply del_node_edge.
      + intros x. rewrite !node_gnodes, dag_drop. apply del_node_nodes.
      + intros x. simpl. apply dget_ddel.
    - apply in_dag_false in E. splits; auto.
      + intros x y. split; [|tauto]. intros H. splits; auto; intros ->; apply E; apply node_gnodes.
        * eapply wf_src; eauto.
        * eapply wf_dst; eauto.
      + intros x. split; [|tauto]. intros H. split; auto. intros ->. auto.
      + intros x. destruct (String.eqb x n) eqn:Ex; auto. apply String.eqb_eq in Ex. subst. apply dget_None. auto.
  Qed.

  Lemma merged_step : forall b0 sub D m n l, coherent b0 -> coherent sub -> merged b0 sub D m ->
    ~ In n D -> holds sub n l -> storable l -> (forall y, In y D -> ~ edge (dag sub) n y) ->
    exists m', append_from_js (cut m n) (loci_to_json l) = (Ok tt, m') /\ merged b0 sub (D ++ [n]) m'.
  Proof.
    intros b0 sub D m n l C0 Cs M Hn Hl St Hord.
    pose proof (co_name _ Cs _ _ Hl) as En. pose proof (co_parents _ Cs _ _ Hl) as Ep.
    pose proof (merged_acyclic _ _ _ _ (co_acyclic _ C0) (co_acyclic _ Cs) M) as Am.
    destruct (cut_spec m n (mg_wf _ _ _ _ M)) as [Wc [Ec [Nc [Ac [N1 [F1 U1]]]]]].
    unfold append_from_js. rewrite loci_json_roundtrip, loci_to_json_des; auto.
    assert (Acut : acyclic (dag (cut m n))).
    { intros x Hx. apply (Am x). revert Hx. apply path_incl. intros a c H. apply Ec in H. tauto. }
    assert (Hnp : ~ has_parents (cut m n) (loci_name l)).
    { intros [p Hp]. rewrite En in Hp. apply Ec in Hp. tauto. }
    assert (Fc : b_frozen (cut m n) = false) by (rewrite F1; apply (mg_frozen _ _ _ _ M)).
    destruct (append_loci_root (cut m n) l None Wc Acut Fc Hnp) as [[_ [m' [H1 [D' _]]]]|[[p [Hp1 Hp2]] _]].
    2:{ exfalso. rewrite En in Hp2. apply Ep in Hp1. destruct Hp2 as [->|Hp2].
        - apply (co_acyclic _ Cs n). apply path_edge; auto.
        - apply path_first in Hp2. destruct Hp2 as [z [Hz _]]. apply Ec in Hz. tauto. }
    exists m'. split; auto.
    assert (Hin : forall x, In x (D ++ [n]) <-> In x D \/ x = n).
    { intros x. rewrite in_app_iff. simpl. intuition. }
    assert (Dg : forall x, dget (b_attrs m') x = if String.eqb x n then Some (mkAttr l None)
                   else match dget (b_attrs m) x with Some a => Some a
                        | None => if mem x (loci_parents l) then Some (mkAttr (LExo x) None) else None end).
    { intros x. rewrite (df_attrs _ _ _ _ D'), En, Ac. destruct (String.eqb x n); auto. }
    constructor.
    - rewrite (df_name _ _ _ _ D'), N1. apply (mg_name _ _ _ _ M).
    - apply (df_frozen _ _ _ _ D').
    - rewrite (df_udf _ _ _ _ D'), U1. apply (mg_udf _ _ _ _ M).
    - apply (df_wf _ _ _ _ D').
    - intros x y. rewrite (df_edges _ _ _ _ D'), En, Ec, (mg_edges _ _ _ _ M), !Hin, <- Ep. split.
      + intros [[[[H2 H3]|[H2 [H3 H4]]] [H5 H6]]|[-> H2]].
        * left. auto.
        * right. splits; tauto.
        * left. auto.
      + intros [[[H2| ->] H3]|[H2 [H3 H4]]].
        * left. splits; auto; intros ->; [apply (Hord y H2); auto|tauto].
        * right. auto.
        * left. splits; [right; splits; tauto| |]; intros ->; tauto.
    - intros x. rewrite (df_nodes _ _ _ _ D'), En, Nc, (mg_nodes _ _ _ _ M), Hin. split.
      + intros [[[H2|[H2|[y [H2 H3]]]] H4]|[H2|H2]]; auto.
        * right. right. exists y. rewrite Hin. auto.
        * right. right. exists n. rewrite Hin. split; auto. apply Ep; auto.
      + destruct (String.string_dec x n) as [->|Nx]; [tauto|].
        intros [H2|[[H2|H2]|[y [H2 H3]]]]; auto; try tauto.
        apply Hin in H2. destruct H2 as [H2| ->].
        * left. split; auto. right. right. exists y. auto.
        * right. right. apply Ep; auto.
    - intros x l' Hx Hl'. rewrite Dg. destruct (String.eqb x n) eqn:E.
      + apply String.eqb_eq in E. subst. rewrite (holds_fun _ _ _ _ Hl Hl'). auto.
      + apply String.eqb_neq in E. apply Hin in Hx. destruct Hx as [Hx|Hx]; [|congruence].
        rewrite (mg_new _ _ _ _ M x l' Hx Hl'). auto.
    - intros x Hx H0. rewrite Dg. rewrite Hin in Hx. destruct (String.eqb x n) eqn:E.
      + apply String.eqb_eq in E. tauto.
      + rewrite (mg_old _ _ _ _ M x) by tauto. apply dget_In in H0. destruct H0 as [a ->]. auto.
    - intros x Hx H0 Hm. rewrite Dg. rewrite Hin in Hx. destruct (String.eqb x n) eqn:E.
      + apply String.eqb_eq in E. tauto.
      + destruct (dget (b_attrs m) x) as [a|] eqn:Ea.
        * rewrite <- Ea. apply (mg_exo _ _ _ _ M); try tauto. apply dget_In. eauto.
        * apply dget_None in Ea. change (~ node m x) in Ea. apply (df_nodes _ _ _ _ D') in Hm.
          rewrite Nc, En in Hm. destruct Hm as [Hm|[Hm|Hm]]; try tauto. apply mem_In in Hm. rewrite Hm. auto.
  Qed.

  Lemma merge_loop_ok : forall b0 sub, coherent b0 -> coherent sub -> (forall n l, holds sub n l -> storable l) ->
    forall od, order (dag sub) = Ok od ->
    forall rest pre D m, od = pre ++ rest -> (forall x, In x D <-> In x pre /\ redef sub x) -> merged b0 sub D m ->
    exists m' D', merge_loop m sub rest = Ok m' /\ (forall x, In x D' <-> redef sub x) /\ merged b0 sub D' m'.
  Proof.
    intros b0 sub C0 Cs St od Hod.
    pose proof (order_topo (dag sub) od (co_wf _ Cs) Hod) as [[Hnd Hin] Hbef].
    induction rest as [|n rest IH]; intros pre D m E HD M; cbn [merge_loop].
    - exists m, D. splits; auto. rewrite app_nil_r in E. subst pre. intros x. rewrite HD.
      split; [tauto|]. intros R. split; auto. apply Hin. apply node_gnodes. apply redef_node; auto.
    - assert (Hno : In n od) by (rewrite E, in_app_iff; simpl; auto).
      assert (Hnn : node sub n) by (apply node_gnodes, Hin; auto).
      assert (Hpre : ~ In n pre).
      { rewrite E in Hnd. apply NoDup_app_elim in Hnd. destruct Hnd as [_ [_ Hd]]. intros Hi. apply (Hd n Hi). simpl; auto. }
      destruct (is_exogenous_redef sub n Hnn) as [ex [He Hr]]. rewrite He. simpl. destruct ex.
      + apply (IH (pre ++ [n]) D); auto.
        * rewrite <- app_assoc. auto.
        * intros x. rewrite HD, in_app_iff. simpl. split; [tauto|]. intros [[H|[<-|[]]] R]; auto.
          apply Hr in R. discriminate.
      + destruct (node_holds _ _ Hnn) as [l Hl]. rewrite (proj2 (bget_holds sub n l) Hl). simpl. fold (cut m n).
        destruct (merged_step b0 sub D m n l C0 Cs M) as [m' [H1 H2]]; auto.
        * intros H. apply HD in H. tauto.
        * eapply St; eauto.
        * intros y Hy Hed. apply HD in Hy. destruct Hy as [Hy _].
          assert (B : before od n y).
          { apply Hbef; auto. rewrite E, in_app_iff. auto. }
          apply in_split in Hy. destruct Hy as [p1 [p2 ->]].
          apply (before_asym _ od n y); auto. rewrite E. rewrite <- app_assoc. simpl. exists p1, p2, rest. auto.
        * rewrite H1. apply (IH (pre ++ [n]) (D ++ [n])); auto.
          -- rewrite <- app_assoc. auto.
          -- intros x. rewrite !in_app_iff, HD. simpl. assert (R : redef sub n) by (apply Hr; auto).
             split.
             ++ intros [[H3 H4]|[<-|[]]]; auto.
             ++ intros [[H3|[<-|[]]] H4]; auto.
  Qed.

  (** ** __check_edges *)

  Lemma foldM_keep : forall (pars ps : list name) n g, (forall k, In k ps -> In k pars) ->
    foldM (fun g k => if mem k pars then Ok g else remove_edge g k n) ps g = Ok g.
  Proof.
    intros pars ps n g. induction ps as [|p ps IH]; intros H; simpl; auto.
    rewrite (proj2 (mem_In p pars)) by (apply H; simpl; auto). simpl. apply IH. intros; apply H; simpl; auto.
  Qed.

  Lemma check_edges_loop_ok : forall b, wf (dag b) ->
    (forall n l p, holds b n l -> edge (dag b) p n -> In p (loci_parents l)) ->
    forall od exo, (forall n, In n od -> node b n) ->
    exists exo', check_edges_loop b od exo = Ok (b, exo')
      /\ forall x, In x exo' <-> In x exo \/ exists n l, In n od /\ holds b n l /\ In x (loci_parents l) /\ ~ edge (dag b) x n.
  Proof.
    intros b W Hp od. induction od as [|n od IH]; intros exo Hod; cbn [check_edges_loop].
    - exists exo. split; auto. intros x. split; auto. intros [H|[n [l [[] _]]]]; auto.
    - assert (Hn : node b n) by (apply Hod; simpl; auto). destruct (node_holds _ _ Hn) as [l Hl].
      rewrite (proj2 (bget_holds b n l) Hl). cbn [bind].
      rewrite parents_ok by (apply node_gnodes; auto). cbn [bind].
      rewrite foldM_keep.
      2:{ intros k Hk. apply to_set_In. apply to_set_In, preds_In in Hk. eapply Hp; eauto. }
      cbn [bind]. rewrite set_edges_id. rewrite parents_ok by (apply node_gnodes; auto). cbn [bind].
      destruct (IH (union exo (diff (to_set (loci_parents l)) (to_set (preds (dag b) n))))) as [exo' [H1 H2]].
      { intros; apply Hod; simpl; auto. }
      exists exo'. split; auto. intros x. rewrite H2, union_In, diff_In, !to_set_In, preds_In. split.
      + intros [[H|[H3 H4]]|[n' [l' [H3 H4]]]]; auto.
        * right. exists n, l. simpl. auto.
        * right. exists n', l'. simpl. tauto.
      + intros [H|[n' [l' [[<-|H3] [H4 [H5 H6]]]]]]; auto.
        * rewrite (holds_fun _ _ _ _ Hl H4). auto.
        * right. exists n', l'. auto.
  Qed.

  (** existing roots turned into exogenous nodes *)
  Lemma append_exos_ok : forall ns b, wf (dag b) -> acyclic (dag b) -> b_frozen b = false ->
    (forall n, In n ns -> node b n) -> (forall n, In n ns -> ~ has_parents b n) ->
    exists b', append_exos b ns = Ok b' /\ wf (dag b') /\ b_frozen b' = false
      /\ b_name b' = b_name b /\ b_udf b' = b_udf b
      /\ (forall x, node b' x <-> node b x)
      /\ (forall x y, edge (dag b') x y <-> edge (dag b) x y)
      /\ (forall x, ~ In x ns -> dget (b_attrs b') x = dget (b_attrs b) x)
      /\ (forall x, In x ns -> holds b' x (LExo x)).
  Proof.
    induction ns as [|n ns IH]; intros b W A F Hn Hp; cbn [append_exos].
    - exists b. splits; auto; try tauto. intros x [].
    - destruct (append_exo_root b n W A F) as [b1 [H1 D]]; [apply Hp; simpl; auto|]. rewrite H1.
      assert (E1 : forall x y, edge (dag b1) x y <-> edge (dag b) x y) by (intros; rewrite (df_edges _ _ _ _ D); simpl; tauto).
      assert (N1 : forall x, node b1 x <-> node b x).
      { intros x. rewrite (df_nodes _ _ _ _ D). simpl. split; auto. intros [H|[->|[]]]; auto. apply Hn. simpl; auto. }
      assert (G1 : forall x, dget (b_attrs b1) x = if String.eqb x n then
               Some (mkAttr (LExo n) (match dget (b_attrs b) x with Some a => a_des a | None => None end)) else dget (b_attrs b) x).
      { intros x. rewrite (df_attrs _ _ _ _ D). simpl. destruct (String.eqb x n); auto. destruct (dget (b_attrs b) x); auto. }
      destruct (IH b1) as [b' [K1 [K2 [K3 [K4 [K5 [K6 [K7 [K8 K9]]]]]]]]].
      + apply (df_wf _ _ _ _ D).
      + apply (acyclic_ext (dag b)); auto. intros; symmetry; auto.
      + apply (df_frozen _ _ _ _ D).
      + intros x Hx. apply N1. apply Hn. simpl; auto.
      + intros x Hx [p Hq]. apply (Hp x); [simpl; auto|]. exists p. apply E1; auto.
      + exists b'. splits; auto.
        * rewrite K4. apply (df_name _ _ _ _ D).
        * rewrite K5. apply (df_udf _ _ _ _ D).
        * intros x. rewrite K6. auto.
        * intros x y. rewrite K7. auto.
        * intros x Hx. simpl in Hx. rewrite K8 by tauto. rewrite G1.
          destruct (String.eqb x n) eqn:E; auto. apply String.eqb_eq in E. subst. tauto.
        * intros x [<-|Hx]; auto. destruct (In_dec_name n ns) as [Hi|Hi]; auto.
          eexists. rewrite K8 by auto. rewrite G1, String.eqb_refl. split; reflexivity.
  Qed.

  Lemma append_exos_err : forall ns b, wf (dag b) -> acyclic (dag b) -> b_frozen b = false ->
    (exists n, In n ns /\ has_parents b n) -> append_exos b ns = Err NetworkXError.
  Proof.
    induction ns as [|n ns IH]; intros b W A F [x [Hx Hp]]; [destruct Hx|]. cbn [append_exos].
    destruct (has_parents_dec b n) as [Hq|Hq].
    - rewrite (append_loci_parents b (LExo n)); auto.
    - destruct (append_exo_root b n W A F Hq) as [b1 [H1 D]]. rewrite H1.
      assert (E1 : forall x y, edge (dag b1) x y <-> edge (dag b) x y) by (intros; rewrite (df_edges _ _ _ _ D); simpl; tauto).
      apply IH.
      + apply (df_wf _ _ _ _ D).
      + apply (acyclic_ext (dag b)); auto. intros; symmetry; auto.
      + apply (df_frozen _ _ _ _ D).
      + exists x. destruct Hx as [<-|Hx]; [tauto|]. split; auto. destruct Hp as [p Hp]. exists p. apply E1; auto.
  Qed.

  Lemma drop_childless_ok : forall ns b, wf (dag b) -> NoDup ns -> (forall n, In n ns -> node b n) ->
    (forall n, In n ns -> ~ has_parents b n) ->
    exists b', drop_childless b ns = Ok b' /\ wf (dag b')
      /\ b_frozen b' = b_frozen b /\ b_name b' = b_name b /\ b_udf b' = b_udf b
      /\ (forall x, node b' x <-> node b x /\ (In x ns -> exists y, edge (dag b) x y))
      /\ (forall x y, edge (dag b') x y <-> edge (dag b) x y)
      /\ (forall x, node b' x -> dget (b_attrs b') x = dget (b_attrs b) x).
  Proof.
    induction ns as [|n ns IH]; intros b W Hnd Hn Hp; cbn [drop_childless].
    - exists b. splits; auto; try tauto. intros x. split; [|tauto]. intros H; split; auto. intros [].
    - inversion Hnd as [|? ? Hx Hl]; subst.
      rewrite children_ok by (apply node_gnodes; apply Hn; simpl; auto). cbn [bind].
      assert (Hcs : forall y, In y (to_set (succs (dag b) n)) <-> edge (dag b) n y) by (intros; rewrite to_set_In; apply succs_In).
      destruct (to_set (succs (dag b) n)) as [|c cs].
      + assert (E1 : forall x y, edge (dag (drop_node b n)) x y <-> edge (dag b) x y).
        { intros x y. rewrite dag_drop, del_node_edge. split; [tauto|]. intros H. splits; auto; intros ->.
          - apply Hcs in H. destruct H.
          - apply (Hp n); [simpl; auto|]. exists x; auto. }
        assert (N1 : forall x, node (drop_node b n) x <-> node b x /\ x <> n).
        { intros x. rewrite !node_gnodes, dag_drop. apply del_node_nodes. }
        destruct (IH (drop_node b n)) as [b' [K1 [K2 [K3 [K4 [K5 [K6 [K7 K8]]]]]]]]; auto.
        * rewrite dag_drop. apply wf_del_node; auto.
        * intros x Hi. apply N1. split; [apply Hn; simpl; auto|]. intros ->. auto.
        * intros x Hi [p Hq]. apply (Hp x); [simpl; auto|]. exists p. apply E1; auto.
        * exists b'. splits; auto.
          -- intros x. rewrite K6, N1. simpl. split.
             ++ intros [[H1 H2] H3]. split; auto. intros [->|H4]; [tauto|]. destruct (H3 H4) as [y Hy]. exists y. apply E1; auto.
             ++ intros [H1 H2]. splits; auto.
                ** intros ->. destruct (H2 (or_introl eq_refl)) as [y Hy]. apply Hcs in Hy. destruct Hy.
                ** intros H3. destruct (H2 (or_intror H3)) as [y Hy]. exists y. apply E1; auto.
          -- intros x y. rewrite K7. auto.
          -- intros x H. rewrite K8 by auto. simpl. rewrite dget_ddel.
             apply K6 in H. destruct H as [H _]. apply N1 in H. destruct H as [_ H]. apply String.eqb_neq in H. rewrite H. auto.
      + destruct (IH b) as [b' [K1 [K2 [K3 [K4 [K5 [K6 [K7 K8]]]]]]]]; auto.
        * intros x Hi. apply Hn. simpl; auto.
        * intros x Hi. apply Hp. simpl; auto.
        * exists b'. splits; auto. intros x. rewrite K6. simpl. split.
          -- intros [H1 H2]. split; auto. intros [<-|H3]; auto. exists c. apply Hcs. simpl; auto.
          -- intros [H1 H2]. split; auto.
  Qed.

  (** ** merge *)

  (** [sub] re-defines [x] but not its child [c] in [b] *)
  Definition lost (b sub : bn w) (x : name) : Prop :=
    redef sub x /\ exists c, edge (dag b) x c /\ ~ redef sub c.

  Definition merge_edge (b sub : bn w) (x y : name) : Prop :=
    (redef sub y /\ edge (dag sub) x y) \/ (~ redef sub y /\ ~ redef sub x /\ edge (dag b) x y).

  (** the definition of [x] after merging *)
  Inductive merge_def (b sub : bn w) : name -> loci w -> Prop :=
  | md_lost : forall x, lost b sub x -> merge_def b sub x (LExo x)
  | md_sub : forall x l, redef sub x -> ~ lost b sub x -> holds sub x l -> merge_def b sub x l
  | md_old : forall x l, ~ redef sub x -> holds b x l -> merge_def b sub x l
  | md_exo : forall x y, ~ redef sub x -> ~ node b x -> redef sub y -> edge (dag sub) x y -> merge_def b sub x (LExo x).

  Lemma merge_def_fun : forall b sub x l l', merge_def b sub x l -> merge_def b sub x l' -> l = l'.
  Proof.
    intros b sub x l l' H1 H2.
    destruct H1 as [x L|x l R L H|x l R H|x y R N R2 E]; inversion H2; subst; auto; try tauto;
      try (match goal with H : lost _ _ _ |- _ => destruct H end; tauto);
      try (eapply holds_fun; eauto; fail);
      try (match goal with H : holds ?b ?x _, N : ~ node ?b ?x |- _ => apply holds_node in H; tauto end).
  Qed.

  Lemma merge_result : forall b sub D m, coherent b -> coherent sub -> (forall x, In x D <-> redef sub x) ->
    forall b0, coherent b0 -> same_net b b0 -> merged b0 sub D m ->
    (forall x l, holds m x l <-> (redef sub x /\ holds sub x l) \/ (~ redef sub x /\ holds b x l)
        \/ (~ redef sub x /\ ~ node b x /\ (exists y, redef sub y /\ edge (dag sub) x y) /\ l = LExo x))
    /\ (forall x y, edge (dag m) x y <-> merge_edge b sub x y)
    /\ (forall x, node m x <-> node b x \/ redef sub x \/ exists y, redef sub y /\ edge (dag sub) x y).
  Proof.
    intros b sub D m C Cs HD b0 C0 [S1 [S2 S3]] M. splits.
    - intros x l. destruct (redef_dec sub x) as [R|R].
      + split.
        * intros [a [Ha He]]. left. split; auto. destruct (node_holds sub x (redef_node _ _ R)) as [l' Hl'].
          rewrite (mg_new _ _ _ _ M x l' (proj2 (HD x) R) Hl') in Ha. inversion Ha; subst. auto.
        * intros [[_ H]|[[H _]|[H _]]]; try tauto. eexists.
          rewrite (mg_new _ _ _ _ M x l (proj2 (HD x) R) H). split; reflexivity.
      + assert (RD : ~ In x D) by (rewrite HD; auto). split.
        * intros [a [Ha He]]. right. destruct (In_dec_name x (dkeys (b_attrs b0))) as [Hn|Hn].
          -- left. split; auto. apply S2. exists a. rewrite <- (mg_old _ _ _ _ M x RD Hn). auto.
          -- right. assert (Hm : node m x) by (apply dget_In; eauto).
             rewrite (mg_exo _ _ _ _ M x RD Hn Hm) in Ha. inversion Ha; subst. simpl. splits; auto.
             ++ intros Hb. apply S1 in Hb. auto.
             ++ apply (mg_nodes _ _ _ _ M) in Hm. destruct Hm as [Hm|[Hm|[y [Hy Hm]]]]; try tauto.
                exists y. rewrite <- HD. auto.
        * intros [[H _]|[[_ H]|[_ [H1 [[y [H2 H3]] ->]]]]]; [tauto| |].
          -- apply S2 in H. destruct H as [a [Ha He]]. exists a. rewrite (mg_old _ _ _ _ M x RD); auto. apply dget_In; eauto.
          -- assert (H0 : ~ node b0 x) by (rewrite <- S1; auto).
             eexists. rewrite (mg_exo _ _ _ _ M x RD H0); [split; reflexivity|]. apply (mg_nodes _ _ _ _ M).
             right. right. exists y. rewrite HD. auto.
    - intros x y. unfold merge_edge. rewrite (mg_edges _ _ _ _ M), !HD, S3. tauto.
    - intros x. rewrite (mg_nodes _ _ _ _ M), HD, <- S1. split; (intros [H|[H|[y H]]]; auto; right; right; exists y; rewrite HD in *; auto).
  Qed.

  Lemma merge_spec : forall b sub nm, coherent b -> fresh b -> coherent sub -> fresh sub ->
    (forall n l, holds b n l -> storable l) -> (forall n l, holds sub n l -> storable l) ->
    NoDup (dkeys (b_udf b)) -> NoDup (dkeys (b_udf sub)) ->
    nm <> b_name b -> nm <> b_name sub ->
    ((exists x, lost b sub x /\ has_parents sub x) -> merge b nm sub = Err NetworkXError)
    /\ ((forall x, lost b sub x -> ~ has_parents sub x) -> exists r, merge b nm sub = Ok r
        /\ b_name r = copy_name b (Some nm) /\ b_frozen r = false /\ wf (dag r) /\ acyclic (dag r)
        /\ (forall x y, edge (dag r) x y <-> merge_edge b sub x y)
        /\ (forall x, node r x <-> exists l, merge_def b sub x l /\ (is_exo_l l = true -> exists y, merge_edge b sub x y))
        /\ (forall x l, holds r x l -> merge_def b sub x l)
        /\ (forall k, dget (b_udf r) k = match dget (b_udf sub) k with Some f => Some f | None => dget (b_udf b) k end)).
  Proof.
    intros b sub nm C F Cs Fs St Ss Un Usn N1 N2.
    assert (Key : forall r, merge b nm sub = r <-> (do b0 <- copy b (Some nm); do od <- Order sub;
      do b1 <- merge_loop (defrost b0) sub od; do b2 <- check_edges b1;
      Ok (set_udf b2 (dupdate (dupdate (b_udf b2) (b_udf b)) (b_udf sub)))) = r).
    { intros r. unfold merge. apply String.eqb_neq in N1. apply String.eqb_neq in N2. rewrite N1, N2. simpl. tauto. }
    destruct (copy_ok b (Some nm) C F St) as [b0 [H0 [C0 [F0 [S0 [Nm [Fz [U0 _]]]]]]]]. rewrite H0 in Key. simpl in Key.
    destruct (fresh_views sub Fs) as [V1 _]. rewrite V1 in Key.
    destruct (order_total (dag sub)) as [od Hod]; try apply Cs. rewrite Hod in Key. simpl in Key.
    pose proof (defrost_coherent b0 C0) as Cd. destruct (defrost_dag b0 (co_wf _ C0)) as [Wd Ed].
    assert (Sd : same_net b (defrost b0)).
    { destruct S0 as [S1 [S2 S3]]. unfold same_net. splits; auto. intros x y. rewrite Ed. auto. }
    destruct (merge_loop_ok (defrost b0) sub Cd Cs Ss od Hod od [] [] (defrost b0)) as [m [D [H1 [HD M]]]]; auto.
    { intros x. simpl. tauto. }
    { constructor; auto.
      - intros x y. split; [|intros [[[] _]|[_ [_ H]]]; auto]. intros H. right. splits; auto; intros [].
      - intros x. split; auto. intros [H|[[]|[y [[] _]]]]; auto.
      - intros x l [].
      - intros x _ H1 H2. tauto. }
    rewrite H1 in Key. simpl in Key.
    destruct (merge_result b sub D m C Cs HD (defrost b0) Cd Sd M) as [R1 [R2 R3]].
    assert (Am : acyclic (dag m)) by (eapply merged_acyclic; [apply Cd|apply Cs|eauto]).
    pose proof (mg_wf _ _ _ _ M) as Wm.
    unfold check_edges in Key. destruct (order_total (dag m)) as [odm Hodm]; auto. rewrite Hodm in Key. cbn [bind] in Key.
    pose proof (order_ok (dag m) odm Wm Hodm) as [_ [_ [Hinm _]]].
    destruct (check_edges_loop_ok m Wm) with (od := odm) (exo := @nil name) as [exo [H2 Hexo]].
    { intros n l p Hl Hp. apply R2 in Hp. apply R1 in Hl. destruct Hp as [[P1 P2]|[P1 [P2 P3]]].
      - destruct Hl as [[_ Hl]|[[Hl _]|[Hl _]]]; try tauto. apply (co_parents _ Cs _ _ Hl); auto.
      - destruct Hl as [[Hl _]|[[_ Hl]|[_ [Hl _]]]]; try tauto.
        + apply (co_parents _ C _ _ Hl); auto.
        + exfalso. apply Hl. apply node_gnodes. eapply wf_dst; eauto. apply C. }
    { intros n Hn. apply node_gnodes, Hinm; auto. }
    rewrite H2 in Key. cbn [bind] in Key.
    assert (Hlost : forall x, In x exo <-> lost b sub x).
    { intros x. rewrite Hexo. split.
      - intros [[]|[n [l [Hn [Hl [Hp He]]]]]]. rewrite R2 in He. apply R1 in Hl.
        destruct Hl as [[Q1 Q2]|[[Q1 Q2]|[_ [_ [_ ->]]]]].
        + exfalso. apply He. left. split; auto. apply (co_parents _ Cs _ _ Q2); auto.
        + apply (co_parents _ C _ _ Q2) in Hp. destruct (redef_dec sub x) as [R|R].
          * split; auto. exists n. auto.
          * exfalso. apply He. right. auto.
        + destruct Hp.
      - intros [R [c [Hc Hr]]]. right.
        assert (Hcn : node b c) by (apply node_gnodes; eapply wf_dst; eauto; apply C).
        destruct (node_holds _ _ Hcn) as [l Hl]. exists c, l. splits.
        + apply Hinm. apply node_gnodes. apply R3. auto.
        + apply R1. auto.
        + apply (co_parents _ C _ _ Hl); auto.
        + rewrite R2. intros [[Q1 _]|[_ [Q2 _]]]; tauto. }
    assert (Hpar : forall x, redef sub x -> (has_parents m x <-> has_parents sub x)).
    { intros x R. split; intros [p Hp].
      - apply R2 in Hp. destruct Hp as [[_ Hp]|[Hp _]]; [exists p; auto|tauto].
      - exists p. apply R2. left. auto. }
    pose proof (mg_frozen _ _ _ _ M) as Fm.
    split.
    - intros [x [Hx Hp]]. apply Key. rewrite append_exos_err; auto. exists x.
      split; [apply Hlost; auto|]. apply Hpar; auto. apply Hx.
    - intros Hno.
      destruct (append_exos_ok exo m) as [b2 [K1 [K2 [K3 [K4 [K5 [K6 [K7 [K8 K9]]]]]]]]]; auto.
      { intros n Hn. apply Hlost in Hn. apply R3. right. left. apply Hn. }
      { intros n Hn Hp. apply Hlost in Hn. apply (Hno n Hn). apply Hpar; auto. apply Hn. }
      rewrite K1 in Key. cbn [bind] in Key.
      assert (Hdef2 : forall x l, holds b2 x l <-> merge_def b sub x l).
      { intros x l. destruct (In_dec_name x exo) as [Hi|Hi].
        - split.
          + intros H. rewrite (holds_fun _ _ _ _ H (K9 x Hi)). constructor. apply Hlost; auto.
          + intros H. apply Hlost in Hi. rewrite (merge_def_fun _ _ _ _ _ H (md_lost _ _ _ Hi)). apply K9. apply Hlost; auto.
        - assert (Hl : ~ lost b sub x) by (rewrite <- Hlost; auto).
          transitivity (holds m x l); [unfold holds; rewrite K8 by auto; tauto|]. rewrite R1. split.
          + intros [[Q1 Q2]|[[Q1 Q2]|[Q1 [Q2 [[y [Q3 Q4]] ->]]]]].
            * apply md_sub; auto.
            * apply md_old; auto.
            * eapply md_exo; eauto.
          + intros H. inversion H; subst; auto; try tauto. right. right. splits; auto. exists y. auto. }
      assert (Nd2 : NoDup (find_exo b2) /\ forall n, In n (find_exo b2) <-> exists l, merge_def b sub n l /\ is_exo_l l = true).
      { pose proof (wf_nodes _ K2) as Hn. unfold dag in Hn. simpl in Hn. split.
        - unfold find_exo. clear - Hn. induction (b_attrs b2) as [|[k a] d IH]; simpl; [constructor|].
          inversion Hn as [|? ? Hx Hl]; subst. destruct (is_exo_l (a_loci a)); simpl; auto. constructor; auto.
          intros Hi. apply Hx. apply in_map_iff in Hi. destruct Hi as [p [<- Hp]]. apply filter_In in Hp.
          apply (in_map fst). apply Hp.
        - intros n. unfold find_exo. rewrite in_map_iff. split.
          + intros [[k a] [E Hp]]. simpl in E. subst k. apply filter_In in Hp. destruct Hp as [Hp He]. simpl in He.
            exists (a_loci a). split; auto. apply Hdef2. exists a. split; auto. apply in_pair_dget; auto.
          + intros [l [Hl He]]. apply Hdef2 in Hl. destruct Hl as [a [Ha <-]]. exists (n, a). split; auto.
            apply filter_In. split; auto. apply dget_in_pair; auto. }
      destruct Nd2 as [Nd2 Hex2].
      destruct (drop_childless_ok (find_exo b2) b2 K2 Nd2) as [b3 [L1 [L2 [L3 [L4 [L5 [L6 [L7 L8]]]]]]]].
      { intros n Hn. apply Hex2 in Hn. destruct Hn as [l [Hl _]]. apply Hdef2 in Hl. eapply holds_node; eauto. }
      { intros n Hn [p Hp]. apply K7, R2 in Hp. apply Hex2 in Hn. destruct Hn as [l [Hl He]].
        destruct Hl as [x L|x l R L H|x l R H|x y R Nb R' E]; simpl in He.
        - apply (Hno x L). destruct Hp as [[_ Hp]|[Hp _]]; [exists p; auto|]. destruct L. tauto.
        - destruct R as [l' [H3 [H4 H5]]]. rewrite (holds_fun _ _ _ _ H H3) in He. congruence.
        - destruct Hp as [[Hp _]|[_ [_ Hp]]]; [tauto|]. apply (co_parents _ C _ _ H) in Hp. destruct l; try discriminate. destruct Hp.
        - destruct Hp as [[Hp _]|[_ [_ Hp]]]; [tauto|]. apply Nb. apply node_gnodes. eapply wf_dst; eauto. apply C. }
      rewrite L1 in Key. cbn [bind] in Key. eexists. split; [apply Key; reflexivity|]. simpl.
      assert (Er : forall x y, edge (dag b3) x y <-> merge_edge b sub x y) by (intros; rewrite L7, K7, R2; tauto).
      splits; auto.
      + rewrite L4, K4, (mg_name _ _ _ _ M). simpl. auto.
      + rewrite L3, K3. auto.
      + apply (acyclic_ext (dag m)); [|auto]. intros x y. change (edge (dag m) x y <-> edge (dag b3) x y). rewrite Er, R2. tauto.
      + intros x. change (node b3 x <-> exists l, merge_def b sub x l /\ (is_exo_l l = true -> exists y, merge_edge b sub x y)).
        rewrite L6. split.
        * intros [Hn Hc]. destruct (node_holds _ _ Hn) as [l Hl]. apply Hdef2 in Hl. exists l. split; auto.
          intros He. destruct Hc as [y Hy]; [apply Hex2; eauto|]. exists y. apply R2, K7; auto.
        * intros [l [Hl Hc]]. split; [apply Hdef2 in Hl; eapply holds_node; eauto|].
          intros Hi. apply Hex2 in Hi. destruct Hi as [l' [Hl' He]]. rewrite <- (merge_def_fun _ _ _ _ _ Hl Hl') in He.
          destruct (Hc He) as [y Hy]. exists y. apply K7, R2; auto.
      + intros x l [a [Ha He]]. simpl in Ha. apply Hdef2. exists a. split; auto. rewrite <- L8; auto. apply dget_In; eauto.
      + intros k. rewrite !dget_dupdate_NoDup by auto. rewrite L5, K5, (mg_udf _ _ _ _ M). simpl.
        rewrite U0 by auto. destruct (dget (b_udf sub) k); auto. destruct (dget (b_udf b) k); auto.
  Qed.

  (** When every child of a re-defined node is re-defined as well, the merge is the coherent union. *)
  Lemma merge_union : forall b sub nm, coherent b -> fresh b -> coherent sub -> fresh sub ->
    (forall n l, holds b n l -> storable l) -> (forall n l, holds sub n l -> storable l) ->
    NoDup (dkeys (b_udf b)) -> NoDup (dkeys (b_udf sub)) ->
    nm <> b_name b -> nm <> b_name sub ->
    (forall x c, redef sub x -> edge (dag b) x c -> redef sub c) ->
    exists r, merge b nm sub = Ok r /\ coherent r
      /\ (forall x l, redef sub x -> holds sub x l -> holds r x l)
      /\ (forall x l, ~ redef sub x -> holds b x l -> is_exo_l l = false -> holds r x l)
      /\ (forall x, node r x -> ~ redef sub x -> ~ node b x -> holds r x (LExo x))
      /\ (forall x, node r x -> node b x \/ node sub x)
      /\ (forall x, holds r x (LExo x) -> exists y, edge (dag r) x y).
  Proof.
    intros b sub nm C F Cs Fs St Ss Un Usn N1 N2 Hcl.
    assert (NL : forall x, ~ lost b sub x) by (intros x [H [c [H1 H2]]]; apply H2; eapply Hcl; eauto).
    destruct (merge_spec b sub nm) as [_ H]; auto. destruct H as [r [H1 [H2 [H3 [H4 [H5 [H6 [H7 [H8 H9]]]]]]]]].
    { intros x L. destruct (NL x L). }
    assert (Hr : forall x l, merge_def b sub x l -> node r x -> holds r x l).
    { intros x l Hd Hn. destruct (node_holds _ _ Hn) as [l' Hl']. rewrite (merge_def_fun _ _ _ _ _ Hd (H8 _ _ Hl')). auto. }
    exists r. splits; auto.
    - constructor; auto.
      + intros n l Hl. apply H8 in Hl. destruct Hl as [x L|x l R L H|x l R H|x y R Nb R' E]; auto; [apply (co_name _ Cs _ _ H)|apply (co_name _ C _ _ H)].
      + intros n l Hl p. apply H8 in Hl. rewrite H6. unfold merge_edge.
        destruct Hl as [x L|x l R L H|x l R H|x y R Nb R' E]; [destruct (NL x L)| | |].
        * rewrite <- (co_parents _ Cs _ _ H). tauto.
        * rewrite <- (co_parents _ C _ _ H). split; [tauto|]. intros Hp. right. splits; auto.
          intros Rp. apply R. eapply Hcl; eauto.
        * simpl. split; [|tauto]. intros [[Q _]|[_ [_ Q]]]; [tauto|]. apply Nb. apply node_gnodes. eapply wf_dst; eauto. apply C.
    - intros x l R Hl. apply Hr; [apply md_sub; auto|]. apply H7. exists l. split; [apply md_sub; auto|].
      destruct R as [l' [Q1 [Q2 Q3]]]. rewrite (holds_fun _ _ _ _ Hl Q1). congruence.
    - intros x l R Hl He. apply Hr; [apply md_old; auto|]. apply H7. exists l. split; [apply md_old; auto|]. congruence.
    - intros x Hn R Nb. apply H7 in Hn as Hn'. destruct Hn' as [l [Hl _]]. pose proof (Hr _ _ Hl Hn) as Hh.
      inversion Hl; subst; auto; try tauto. exfalso. apply Nb. eapply holds_node; eauto.
    - intros x Hn. apply H7 in Hn. destruct Hn as [l [Hl _]].
      destruct Hl as [x L|x l R L H|x l R H|x y R Nb R' E].
      + destruct (NL x L).
      + right. apply redef_node; auto.
      + left. eapply holds_node; eauto.
      + right. apply node_gnodes. eapply wf_src; eauto. apply Cs.
    - intros x Hx. apply holds_node in Hx as Hn. apply H7 in Hn. destruct Hn as [l [Hl He]].
      rewrite <- (merge_def_fun _ _ _ _ _ (H8 _ _ Hx) Hl) in He. destruct (He eq_refl) as [y Hy]. exists y. apply H6; auto.
  Qed.
End Merge.
