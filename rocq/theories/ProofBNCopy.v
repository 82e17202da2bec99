(** * Proofs about copy, clone, extend *)

Require Import Verif.Base Verif.World Verif.ModelGraph Verif.ModelExpr Verif.ModelLoci Verif.ModelBN
        Verif.Spec Verif.SpecBN Verif.SpecExpr Verif.ProofBase Verif.ProofGraph Verif.ProofExpr Verif.ProofBN Verif.ProofBNViews.

Section Copy.
  Context {w : world}.
  Implicit Types b : bn w.

  Lemma loci_to_json_des : forall l : loci w, j_des (loci_to_json l) = None.
  Proof. intros []; reflexivity. Qed.

  Lemma coherent_new : forall nm, coherent (bn_new (w:=w) nm).
  Proof.
    intros nm. constructor.
    - constructor; simpl; try constructor; intros a c [].
    - intros x Hx. apply path_first in Hx. destruct Hx as [y [[] _]].
    - intros n l [a [H _]]. discriminate.
    - intros n l [a [H _]]. discriminate.
  Qed.

  (** the copy after the definitions [done] (a prefix of the nodes of [b]) were appended *)
  Record copied (b : bn w) (nm : name) (done : list name) (bc : bn w) : Prop := mkCopied {
    cp_coherent : coherent bc;
    cp_name : b_name bc = nm;
    cp_frozen : b_frozen bc = false;
    cp_cache : b_cache bc = None;
    cp_udf : b_udf bc = [];
    cp_nodes : forall x, node bc x <-> In x done \/ exists y, In y done /\ edge (dag b) x y;
    cp_defs : forall x l, In x done -> (holds bc x l <-> holds b x l);
    cp_exos : forall x, ~ In x done -> node bc x -> holds bc x (LExo x);
    cp_edges : forall x y, edge (dag bc) x y <-> edge (dag b) x y /\ In y done;
    cp_des : forall x a, dget (b_attrs bc) x = Some a -> a_des a = None
  }.

  Lemma copied_step : forall b nm done bc n l, coherent b -> copied b nm done bc ->
    ~ In n done -> holds b n l -> storable l ->
    exists bc', append_from_js bc (loci_to_json l) = (Ok tt, bc') /\ copied b nm (done ++ [n]) bc'.
  Proof.
    intros b nm done bc n l C CP Hn Hl St.
    pose proof (co_name _ C _ _ Hl) as En.
    pose proof (co_parents _ C _ _ Hl) as Ep.
    unfold append_from_js. rewrite loci_json_roundtrip, loci_to_json_des; auto.
    destruct CP as [P1 P2 P3 P4 P5 P6 P7 P8 P9 P10].
    assert (Hnp : ~ has_parents bc (loci_name l)).
    { intros [p Hp]. rewrite En in Hp. apply P9 in Hp. tauto. }
    destruct (append_loci_root bc l None (co_wf _ P1) (co_acyclic _ P1) P3 Hnp)
      as [[Hc [b2 [H1 [D A]]]]|[[p [Hp1 Hp2]] _]].
    - exists b2. split; auto. pose proof (append_loci_coherent _ _ _ _ P1 H1) as C2.
      assert (Dget : forall x, dget (b_attrs b2) x = if String.eqb x n
              then Some (mkAttr l (match dget (b_attrs bc) x with Some a => a_des a | None => None end))
              else match dget (b_attrs bc) x with
                   | Some a => Some a
                   | None => if mem x (loci_parents l) then Some (mkAttr (LExo x) None) else None end).
      { intros x. rewrite (df_attrs _ _ _ _ D), En. auto. }
      constructor; auto.
      + rewrite (df_name _ _ _ _ D). auto.
      + apply (df_frozen _ _ _ _ D).
      + rewrite (df_cache _ _ _ _ D). auto.
      + rewrite (df_udf _ _ _ _ D). auto.
      + intros x. rewrite (df_nodes _ _ _ _ D), P6, En. split.
        * intros [[H|[y [H2 H3]]]|[->|H]].
          -- left. rewrite in_app_iff; auto.
          -- right. exists y. rewrite in_app_iff; auto.
          -- left. rewrite in_app_iff. simpl; auto.
          -- right. exists n. rewrite in_app_iff. simpl. split; auto. apply Ep; auto.
        * intros [H|[y [H2 H3]]].
          -- apply in_app_iff in H. destruct H as [H|[<-|[]]]; auto.
          -- apply in_app_iff in H2. destruct H2 as [H2|[<-|[]]]; [left; right; exists y; auto|].
             right. right. apply Ep; auto.
      + intros x l' Hx. unfold holds at 1. rewrite Dget. destruct (String.eqb x n) eqn:E.
        * apply String.eqb_eq in E. subst x. split.
          -- intros [a [Ha <-]]. inversion Ha; subst. auto.
          -- intros H. rewrite (holds_fun _ _ _ _ H Hl). eexists. split; [reflexivity|]. auto.
        * apply String.eqb_neq in E. apply in_app_iff in Hx. destruct Hx as [Hx|[->|[]]]; [|congruence].
          rewrite <- (P7 x l' Hx). unfold holds.
          assert (Hnode : node bc x) by (apply P6; auto). apply dget_In in Hnode. destruct Hnode as [a0 Ha0].
          rewrite Ha0. tauto.
      + intros x Hx Hnx. unfold holds. rewrite Dget.
        assert (Hx1 : ~ In x done) by (intros H; apply Hx; rewrite in_app_iff; auto).
        assert (Hx2 : x <> n) by (intros ->; apply Hx; rewrite in_app_iff; simpl; auto).
        apply String.eqb_neq in Hx2. rewrite Hx2. apply (df_nodes _ _ _ _ D) in Hnx.
        destruct (dget (b_attrs bc) x) as [a|] eqn:E.
        * destruct (P8 x Hx1) as [a' [Ha' He']]; [apply dget_In; eauto|]. rewrite E in Ha'. inversion Ha'; subst.
          exists a'. auto.
        * apply dget_None in E. change (~ node bc x) in E. apply String.eqb_neq in Hx2.
          destruct Hnx as [H|[H|H]]; [tauto|rewrite En in H; tauto|].
          apply mem_In in H. rewrite H. eauto.
      + intros x y. rewrite (df_edges _ _ _ _ D), P9, En, in_app_iff. simpl. rewrite <- Ep. split.
        * intros [[H2 H3]|[-> H2]]; auto.
        * intros [H2 [H3|[<-|[]]]]; auto.
      + intros x a. rewrite Dget. destruct (String.eqb x n) eqn:E.
        * intros H; inversion H; subst. simpl. destruct (dget (b_attrs bc) x) eqn:E1; auto. eapply P10; eauto.
        * destruct (dget (b_attrs bc) x) as [a0|] eqn:E1.
          -- intros H; inversion H; subst. eapply P10; eauto.
          -- destruct (mem x (loci_parents l)); intros H; inversion H; subst. auto.
    - exfalso. rewrite En in Hp2. apply Ep in Hp1. destruct Hp2 as [->|Hp2].
      + apply (co_acyclic _ C n). apply path_edge; auto.
      + apply (co_acyclic _ C n). eapply path_snoc; [|eauto].
        revert Hp2. apply path_incl. intros x y H. apply P9 in H. tauto.
  Qed.

  Lemma copied_all : forall b nm, coherent b -> (forall n l, holds b n l -> storable l) ->
    exists bc, append_all_js (bn_new nm) (js_nodes b) = (Ok tt, bc) /\ copied b nm (dkeys (b_attrs b)) bc.
  Proof.
    intros b nm C St.
    assert (Hnd : NoDup (dkeys (b_attrs b))) by (apply (wf_nodes _ (co_wf _ C))).
    assert (G : forall rest done bc, b_attrs b = done ++ rest -> copied b nm (dkeys done) bc ->
       exists bc', append_all_js bc (map (fun p => loci_to_json (a_loci (snd p))) rest) = (Ok tt, bc')
                   /\ copied b nm (dkeys (b_attrs b)) bc').
    { induction rest as [|[n a] rest IH]; intros done bc E CP; simpl.
      - exists bc. split; auto. rewrite E, app_nil_r. auto.
      - assert (Hn : ~ In n (dkeys done)).
        { rewrite E in Hnd. unfold dkeys in Hnd. rewrite map_app in Hnd. apply NoDup_app_elim in Hnd.
          destruct Hnd as [_ [_ Hd]]. intros Hi. apply (Hd n Hi). simpl; auto. }
        assert (Hl : holds b n (a_loci a)).
        { exists a. split; auto. apply in_pair_dget; auto. rewrite E, in_app_iff. simpl; auto. }
        destruct (copied_step b nm (dkeys done) bc n (a_loci a) C CP Hn Hl (St _ _ Hl)) as [bc1 [H1 H2]].
        rewrite H1. apply (IH (done ++ [(n, a)])).
        + rewrite <- app_assoc. auto.
        + unfold dkeys. rewrite map_app. auto. }
    apply (G (b_attrs b) [] (bn_new nm)); auto.
    constructor; auto.
    - apply coherent_new.
    - intros x. split; [intros []|]. intros [[]|[y [[] _]]].
    - intros x l [].
    - intros x _ [].
    - intros x y. split; [intros []|]. intros [_ []].
    - intros x a H. discriminate.
  Qed.

  Lemma copied_same : forall b nm bc, coherent b -> copied b nm (dkeys (b_attrs b)) bc -> same_net b bc.
  Proof.
    intros b nm bc C CP. destruct CP as [P1 P2 P3 P4 P5 P6 P7 P8 P9 P10].
    assert (N : forall n, node b n <-> node bc n).
    { intros n. rewrite P6. split; auto. intros [H|[y [_ H]]]; auto. apply node_gnodes. eapply wf_src; eauto. apply C. }
    split; [exact N|split].
    - intros n l. split; intros H.
      + apply P7; auto. apply holds_node in H; auto.
      + apply P7; auto. apply holds_node in H. apply N in H; auto.
    - intros x y. rewrite P9. split; [|tauto]. intros H. split; auto. change (node b y). apply node_gnodes. eapply wf_dst; eauto. apply C.
  Qed.

  Lemma fresh_json_nodes : forall b, fresh b -> b_frozen b = true ->
    exists c, b_cache b = Some c /\ bj_nodes (c_json c) = js_nodes b /\ bj_rvroots (c_json c) = None
              /\ bj_name (c_json c) = b_name b.
  Proof.
    intros b F H. destruct (F H) as [c [H1 [_ [_ [_ [_ [_ H7]]]]]]]. exists c. rewrite H7. simpl. auto.
  Qed.

  Definition copy_name b (nm : option name) : name :=
    match nm with Some n => if String.eqb n "" then b_name b else n | None => b_name b end.

  Lemma same_net_ext : forall b b' b'', same_net b b' -> b_attrs b'' = b_attrs b' -> b_edges b'' = b_edges b' -> same_net b b''.
  Proof.
    intros b b' b'' [H1 [H2 H3]] Ha He. unfold same_net, node, holds, dag, edge in *. rewrite Ha. simpl in *. rewrite He. auto.
  Qed.

  Lemma copy_ok : forall b nm, coherent b -> fresh b -> (forall n l, holds b n l -> storable l) ->
    exists bc, copy b nm = Ok bc /\ coherent bc /\ fresh bc /\ same_net b bc
      /\ b_name bc = copy_name b nm /\ b_frozen bc = b_frozen b
      /\ (NoDup (dkeys (b_udf b)) -> forall k, dget (b_udf bc) k = dget (b_udf b) k)
      /\ (forall x a, dget (b_attrs bc) x = Some a -> a_des a = None).
  Proof.
    intros b nm C F St. unfold copy. fold (copy_name b nm).
    destruct (copied_all b (copy_name b nm) C St) as [bc [H1 H2]].
    pose proof (copied_same _ _ _ C H2) as Sn. pose proof (cp_coherent _ _ _ _ H2) as C2.
    assert (U : forall bx : bn w, b_udf bx = b_udf bc -> NoDup (dkeys (b_udf b)) ->
                 forall k, dget (dupdate (b_udf bx) (b_udf b)) k = dget (b_udf b) k).
    { intros bx E Hd k. rewrite E, (cp_udf _ _ _ _ H2), dget_dupdate_NoDup; auto. destruct (dget (b_udf b) k); auto. }
    destruct (b_frozen b) eqn:Fz.
    - destruct (fresh_json_nodes b F Fz) as [c [E1 [E2 _]]]. rewrite E1, E2, H1.
      destruct (complete_ok bc C2) as [bc2 [K1 [K2 [K3 [K4 [K5 [K6 K7]]]]]]]. rewrite K1. simpl.
      eexists. split; [reflexivity|].
      assert (Ed : b_edges bc2 = b_edges bc) by (change (gedges (dag bc2) = gedges (dag bc)); rewrite K4; auto).
      splits.
      + apply (coherent_same bc); auto.
      + intros _. destruct (K3 K2) as [cc [Q1 [Q2 [Q3 [Q4 Q5]]]]]. exists cc. splits; auto; try apply Q5.
        rewrite <- Q4. unfold find_rv_roots. change (dag (set_udf bc2 (dupdate (b_udf bc2) (b_udf b)))) with (dag bc2).
        destruct (order (dag bc2)); auto. simpl. apply rv_roots_of_ext; auto.
      + eapply same_net_ext; eauto.
      + simpl. rewrite K6. apply (cp_name _ _ _ _ H2).
      + auto.
      + simpl. apply U; auto.
      + simpl. intros x a. rewrite K5. apply (cp_des _ _ _ _ H2).
    - rewrite H1. simpl. eexists. split; [reflexivity|]. splits.
      + apply (coherent_same bc); auto.
      + apply fresh_unfrozen. simpl. apply (cp_frozen _ _ _ _ H2).
      + eapply same_net_ext; eauto.
      + simpl. apply (cp_name _ _ _ _ H2).
      + simpl. apply (cp_frozen _ _ _ _ H2).
      + simpl. apply U; auto.
      + simpl. apply (cp_des _ _ _ _ H2).
  Qed.

  (** ** clone *)

  Lemma to_json_rvroots : forall b js, fresh b -> to_json b = Ok js -> bj_rvroots js = None.
  Proof.
    intros b js F H. unfold to_json, cached in H. destruct (b_frozen b) eqn:Fz.
    - destruct (fresh_json_nodes b F Fz) as [c [E1 [_ [E2 _]]]]. rewrite E1 in H. inversion H; subst. auto.
    - unfold form_js in H. repeat (apply bind_ok in H; destruct H as [? [_ H]]). inversion H; subst. auto.
  Qed.

  Lemma from_json_no_rvroots : forall js, bj_rvroots js = None -> exists e, bayes_net_from_json (w:=w) js = Err e.
  Proof.
    intros js H. unfold bayes_net_from_json. destruct (append_all_js _ _) as [[u|e] b1]; eauto.
    rewrite H. destruct (bj_order js), (bj_roots js); eauto.
  Qed.

  Lemma clone_fails : forall b, fresh b -> exists e, clone b = Err e.
  Proof.
    intros b F. unfold clone. destruct (to_json b) as [js|e] eqn:E; simpl; eauto.
    apply from_json_no_rvroots. eapply to_json_rvroots; eauto.
  Qed.

  Lemma clone_key_error : forall b, coherent b -> fresh b -> (forall n l, holds b n l -> storable l) ->
    clone b = Err KeyError.
  Proof.
    intros b C F St. unfold clone, to_json, cached.
    assert (G : forall js, bj_nodes js = js_nodes b -> bj_rvroots js = None -> bayes_net_from_json js = Err KeyError).
    { intros js H1 H2. unfold bayes_net_from_json. rewrite H1, H2.
      destruct (copied_all b (bj_name js) C St) as [bc [-> _]].
      destruct (bj_order js), (bj_roots js); auto. }
    destruct (b_frozen b) eqn:Fz.
    - destruct (fresh_json_nodes b F Fz) as [c [E1 [E2 [E3 _]]]]. rewrite E1. simpl. apply G; auto.
    - unfold form_js. destruct (fresh_views b F) as [V1 [V2 [V3 [V4 V5]]]]. rewrite V1, V2, V4, V5.
      destruct (order_total (dag b)) as [od ->]; try apply C. simpl. apply G; auto.
  Qed.

  (** ** extend *)

  (** appending an exogenous node to a network without edges into that name *)
  Lemma append_exo_root : forall b n, wf (dag b) -> acyclic (dag b) -> b_frozen b = false ->
    ~ has_parents b n -> exists b', append_loci b (LExo n) None = (Ok tt, b') /\ defined b (LExo n) None b'.
  Proof.
    intros b n W A F H. destruct (append_loci_root b (LExo n) None W A F H) as [[_ [b' [H1 [D _]]]]|[[p [[] _]] _]].
    exists b'. auto.
  Qed.

  Record all_exo (done : list name) (nb : bn w) : Prop := mkAllExo {
    ae_coherent : coherent nb;
    ae_frozen : b_frozen nb = false;
    ae_nodes : forall x, node nb x <-> In x done;
    ae_defs : forall x, In x done -> holds nb x (LExo x);
    ae_edges : forall x y, ~ edge (dag nb) x y
  }.

  Lemma extend_fresh_loop : forall od done (nb : bn w) ov, all_exo done nb -> exists nb',
    extend_loop nb od [] ov = (Ok tt, nb') /\ all_exo (done ++ od) nb' /\ b_name nb' = b_name nb.
  Proof.
    induction od as [|n od IH]; intros done nb ov A; cbn [extend_loop].
    - exists nb. rewrite app_nil_r. auto.
    - replace (ov || negb (mem n [])) with true by (destruct ov; auto).
      destruct A as [A1 A2 A3 A4 A5].
      destruct (append_exo_root nb n (co_wf _ A1) (co_acyclic _ A1) A2) as [nb1 [H1 D]]; [intros [p Hp]; apply (A5 p n); auto|].
      rewrite H1. destruct (IH (done ++ [n]) nb1 ov) as [nb' [H2 [H3 H4]]].
      + constructor.
        * eapply append_loci_coherent; eauto.
        * apply (df_frozen _ _ _ _ D).
        * intros x. rewrite (df_nodes _ _ _ _ D), A3, in_app_iff. simpl. intuition.
        * intros x Hx. unfold holds. rewrite (df_attrs _ _ _ _ D). simpl. destruct (String.eqb x n) eqn:E.
          -- apply String.eqb_eq in E. subst. eauto.
          -- apply String.eqb_neq in E. apply in_app_iff in Hx. destruct Hx as [Hx|[Hx|[]]]; [|congruence].
             destruct (A4 x Hx) as [a [Ha He]]. rewrite Ha. eauto.
        * intros x y. rewrite (df_edges _ _ _ _ D). simpl. intros [H|[_ []]]. apply (A5 x y); auto.
      + exists nb'. rewrite <- app_assoc in H3. splits; auto. rewrite H4. apply (df_name _ _ _ _ D).
  Qed.

  Lemma extend_fresh : forall b ov, coherent b -> fresh b -> exists nb, extend b None ov = (Ok tt, nb)
    /\ b_name nb = b_name b /\ b_frozen nb = true /\ fresh nb
    /\ (forall x, node nb x <-> node b x) /\ (forall x, node b x -> holds nb x (LExo x))
    /\ (forall x y, ~ edge (dag nb) x y).
  Proof.
    intros b ov C F. unfold extend. destruct (fresh_views b F) as [V1 _]. rewrite V1.
    destruct (order_total (dag b)) as [od Hod]; try apply C. rewrite Hod.
    pose proof (order_ok (dag b) od (co_wf _ C) Hod) as [_ [_ [Hin _]]].
    destruct (extend_fresh_loop od [] (bn_new (b_name b)) ov) as [nb [H1 [H2 H3]]].
    { constructor; [apply coherent_new|reflexivity|intros x; split; intros []|intros x []|intros x y []]. }
    cbn [app] in H2. rewrite H1. destruct H2 as [A1 A2 A3 A4 A5].
    destruct (complete_ok nb A1) as [nb2 [K1 [K2 [K3 [K4 [K5 [K6 K7]]]]]]]. rewrite K1.
    exists nb2. splits; auto.
    - rewrite K6, H3. auto.
    - intros x. unfold node. rewrite K5. rewrite <- (Hin x). apply A3.
    - intros x Hx. apply node_gnodes, Hin in Hx. destruct (A4 x Hx) as [a Ha]. exists a. rewrite K5. auto.
    - intros x y. rewrite K4. apply A5.
  Qed.

  (** extending an existing network without override keeps what is there *)
  Lemma extend_keep_loop : forall od ext (nb0 nb : bn w), coherent nb -> b_frozen nb = false ->
    (forall x, In x ext <-> node nb0 x) ->
    (forall x a, dget (b_attrs nb0) x = Some a -> dget (b_attrs nb) x = Some a) ->
    (forall x y, edge (dag nb) x y <-> edge (dag nb0) x y) -> wf (dag nb0) ->
    (forall x, node nb x -> ~ node nb0 x -> holds nb x (LExo x)) ->
    exists nb', extend_loop nb od ext false = (Ok tt, nb') /\ coherent nb' /\ b_frozen nb' = false
      /\ b_name nb' = b_name nb
      /\ (forall x, node nb' x <-> node nb x \/ In x od)
      /\ (forall x a, dget (b_attrs nb0) x = Some a -> dget (b_attrs nb') x = Some a)
      /\ (forall x y, edge (dag nb') x y <-> edge (dag nb0) x y)
      /\ (forall x, node nb' x -> ~ node nb0 x -> holds nb' x (LExo x)).
  Proof.
    induction od as [|n od IH]; intros ext nb0 nb C Fz Hext Hold Hed W0 Hex; cbn [extend_loop].
    - exists nb. splits; auto. intros; simpl; tauto.
    - simpl orb. destruct (mem n ext) eqn:E; simpl negb; cbv iota.
      + apply mem_In, Hext in E.
        destruct (IH ext nb0 nb) as [nb' [H1 [H2 [H3 [H3' [H4 [H5 [H6 H7]]]]]]]]; auto.
        exists nb'. splits; auto. intros x. rewrite H4. simpl.
        split; [tauto|]. intros [H|[<-|H]]; auto. left. apply dget_In in E. destruct E as [a Ha].
        apply Hold in Ha. apply dget_In. eauto.
      + apply mem_false in E. rewrite Hext in E.
        destruct (append_exo_root nb n (co_wf _ C) (co_acyclic _ C) Fz) as [nb1 [H1 D]].
        { intros [p Hp]. apply Hed in Hp. apply E. apply node_gnodes. eapply wf_dst; eauto. }
        rewrite H1.
        assert (Dg : forall x, dget (b_attrs nb1) x = if String.eqb x n then
                    Some (mkAttr (LExo n) (match dget (b_attrs nb) x with Some a => a_des a | None => None end))
                    else dget (b_attrs nb) x).
        { intros x. rewrite (df_attrs _ _ _ _ D). simpl. destruct (String.eqb x n); auto.
          destruct (dget (b_attrs nb) x); auto. }
        destruct (IH ext nb0 nb1) as [nb' [K1 [K2 [K3 [K3' [K4 [K5 [K6 K7]]]]]]]]; auto.
        * eapply append_loci_coherent; eauto.
        * apply (df_frozen _ _ _ _ D).
        * intros x a Ha. rewrite Dg. destruct (String.eqb x n) eqn:Ex; [|auto].
          apply String.eqb_eq in Ex. subst. exfalso. apply E. apply dget_In. eauto.
        * intros x y. rewrite (df_edges _ _ _ _ D), Hed. simpl. tauto.
        * intros x Hx H0. unfold holds. rewrite Dg. destruct (String.eqb x n) eqn:Ex.
          -- apply String.eqb_eq in Ex. subst. eauto.
          -- apply String.eqb_neq in Ex. apply (Hex x); auto. apply (df_nodes _ _ _ _ D) in Hx. simpl in Hx. tauto.
        * exists nb'. splits; auto.
          -- rewrite K3'. apply (df_name _ _ _ _ D).
          -- intros x. rewrite K4, (df_nodes _ _ _ _ D). simpl. intuition.
  Qed.

  Lemma extend_keep : forall b (nb : bn w), coherent b -> fresh b -> coherent nb -> exists nb',
    extend b (Some nb) false = (Ok tt, nb') /\ b_frozen nb' = true /\ fresh nb' /\ coherent nb'
    /\ b_name nb' = b_name nb
    /\ (forall x, node nb' x <-> node nb x \/ node b x)
    /\ (forall x a, dget (b_attrs nb) x = Some a -> dget (b_attrs nb') x = Some a)
    /\ (forall x y, edge (dag nb') x y <-> edge (dag nb) x y)
    /\ (forall x, node b x -> ~ node nb x -> holds nb' x (LExo x)).
  Proof.
    intros b nb C F Cn. unfold extend.
    pose proof (defrost_coherent nb Cn) as Cd. destruct (defrost_dag nb (co_wf _ Cn)) as [Wd Ed].
    destruct (order_total (dag (defrost nb))) as [ext Hext]; try apply Cd. rewrite Hext.
    pose proof (order_ok _ ext Wd Hext) as [_ [_ [Hein _]]].
    destruct (fresh_views b F) as [V1 _]. rewrite V1.
    destruct (order_total (dag b)) as [od Hod]; try apply C. rewrite Hod.
    pose proof (order_ok (dag b) od (co_wf _ C) Hod) as [_ [_ [Hin _]]].
    destruct (extend_keep_loop od ext (defrost nb) (defrost nb)) as [nb1 [H1 [H2 [H3 [H3' [H4 [H5 [H6 H7]]]]]]]]; auto.
    { tauto. }
    { intros x Hx Hn. tauto. }
    rewrite H1. destruct (complete_ok nb1 H2) as [nb2 [K1 [K2 [K3 [K4 [K5 [K6 K7]]]]]]]. rewrite K1.
    assert (Ee : b_edges nb2 = b_edges nb1) by (change (gedges (dag nb2) = gedges (dag nb1)); rewrite K4; auto).
    exists nb2. splits; auto.
    - apply (coherent_same nb1); auto.
    - rewrite K6, H3'. auto.
    - intros x. unfold node. rewrite K5. fold (node nb1 x). rewrite H4, (Hin x). reflexivity.
    - intros x a Ha. rewrite K5. apply H5. auto.
    - intros x y. rewrite K4, H6. apply Ed.
    - intros x Hx Hn. destruct (H7 x) as [a Ha].
      + apply H4. right. apply Hin. auto.
      + auto.
      + exists a. rewrite K5. auto.
  Qed.
End Copy.
