(** * Proofs about the views, freezing and classification of networks *)

Require Coq.Sorting.Permutation.
Import Coq.Sorting.Permutation.
Require Import Verif.Base Verif.World Verif.ModelGraph Verif.ModelExpr Verif.ModelLoci Verif.ModelBN
        Verif.Spec Verif.SpecBN Verif.ProofBase Verif.ProofGraph Verif.ProofBN.

Section Views.
  Context {w : world}.
  Implicit Types b : bn w.

  (** ** What a rejected definition leaves behind *)

  Lemma dag_fold_drop : forall ns b, dag (fold_left drop_node ns b) = fold_left del_node ns (dag b).
  Proof. induction ns as [|n ns IH]; intros b; simpl; auto. rewrite IH, dag_drop. auto. Qed.

  Lemma fold_del_nodes : forall ns g x, In x (gnodes (fold_left del_node ns g)) <-> In x (gnodes g) /\ ~ In x ns.
  Proof.
    induction ns as [|n ns IH]; intros g x; simpl; [tauto|]. rewrite IH, del_node_nodes. intuition congruence.
  Qed.

  Lemma fold_del_edge : forall ns g x y,
    edge (fold_left del_node ns g) x y <-> edge g x y /\ ~ In x ns /\ ~ In y ns.
  Proof.
    induction ns as [|n ns IH]; intros g x y; simpl; [tauto|]. rewrite IH, del_node_edge. intuition congruence.
  Qed.

  Lemma fold_drop_attrs : forall ns b x,
    dget (b_attrs (fold_left drop_node ns b)) x = if mem x ns then None else dget (b_attrs b) x.
  Proof.
    induction ns as [|n ns IH]; intros b x; simpl; auto. rewrite IH. simpl. rewrite dget_ddel.
    destruct (String.eqb x n) eqn:E; simpl; destruct (mem x ns); auto.
  Qed.

  Lemma fold_drop_misc : forall ns b, b_frozen (fold_left drop_node ns b) = b_frozen b
    /\ b_cache (fold_left drop_node ns b) = b_cache b /\ b_udf (fold_left drop_node ns b) = b_udf b
    /\ b_name (fold_left drop_node ns b) = b_name b.
  Proof. induction ns as [|n ns IH]; intros b; simpl; auto. destruct (IH (drop_node b n)) as [-> [-> [-> ->]]]. auto. Qed.

  (** Two shapes: either the node and its edges are gone and nothing else changed,
      or the network is left cyclic with the new definition in place. *)
  Lemma rejected_cycle_shape : forall b l des b', wf (dag b) -> rejected_cycle b l des b' ->
    ((forall x, node b' x <-> node b x /\ x <> loci_name l)
     /\ (forall x y, edge (dag b') x y <-> edge (dag b) x y /\ x <> loci_name l /\ y <> loci_name l)
     /\ (forall x, x <> loci_name l -> dget (b_attrs b') x = dget (b_attrs b) x))
    \/ (~ acyclic (dag b') /\ holds b' (loci_name l) l
        /\ exists pa, In pa (loci_parents l) /\ ~ node b' pa).
  Proof.
    intros b l des b' W R. destruct R as [b3 added L|p1 pa p2 b3 added H0 L Hpa Hcyc].
    - left.
      assert (Hadd : forall x, In x added <-> In x (loci_parents l) /\ x <> loci_name l /\ ~ node b x).
      { intros x. rewrite (lk_added _ _ _ _ _ L), put_node_node. tauto. }
      splits.
      + intros x. rewrite node_gnodes, dag_fold_drop, fold_del_nodes, dag_drop, del_node_nodes, <- node_gnodes.
        rewrite (linked_node _ _ _ _ _ L), put_node_node, Hadd.
        destruct (String.string_dec x (loci_name l)) as [->|N]; [tauto|].
        destruct (In_dec_name x (dkeys (b_attrs b))) as [H|H]; [change (node b x) in H|change (~ node b x) in H]; tauto.
      + intros x y. rewrite dag_fold_drop, fold_del_edge, dag_drop, del_node_edge, (lk_edges _ _ _ _ _ L), put_edges.
        split; [tauto|]. intros [H1 [H2 H3]]. splits; auto.
        * rewrite Hadd. intros [_ [_ H]]. apply H. apply node_gnodes. eapply wf_src; eauto.
        * rewrite Hadd. intros [_ [_ H]]. apply H. apply node_gnodes. eapply wf_dst; eauto.
      + intros x Hx. rewrite fold_drop_attrs. simpl. rewrite dget_ddel.
        apply String.eqb_neq in Hx. rewrite Hx. rewrite (lk_attrs _ _ _ _ _ L), dget_app, dget_exo.
        assert (E : dget (b_attrs (put_node b l des)) x = dget (b_attrs b) x).
        { unfold put_node. simpl. rewrite dget_dset, Hx. auto. }
        rewrite E. destruct (mem x added) eqn:Em.
        * apply mem_In, Hadd in Em. symmetry. apply dget_None. apply Em.
        * destruct (dget (b_attrs b) x); auto.
    - right. splits; auto.
      + eexists. rewrite (lk_attrs _ _ _ _ _ L), dget_app. unfold put_node. simpl.
        rewrite dget_dset, String.eqb_refl. split; eauto.
      + exists pa. split; auto. rewrite H0, in_app_iff. simpl; auto.
  Qed.

  (** ** Random nodes *)

  Lemma is_rv_ok : forall b n, node b n -> exists r, is_rv b n = Ok r /\ (r = true <-> random b n).
  Proof.
    intros b n H. destruct (node_holds _ _ H) as [l Hl]. unfold is_rv.
    rewrite (proj2 (bget_holds b n l) Hl). simpl. eexists. split; [reflexivity|]. split.
    - intros E. exists l. auto.
    - intros [l' [H1 H2]]. rewrite (holds_fun _ _ _ _ Hl H1). auto.
  Qed.

  Lemma any_rv_ok : forall b ns, (forall n, In n ns -> node b n) ->
    exists r, any_rv b ns = Ok r /\ (r = true <-> exists n, In n ns /\ random b n).
  Proof.
    intros b ns. induction ns as [|n ns IH]; intros H; simpl.
    - exists false. split; auto. split; [discriminate|]. intros [n [[] _]].
    - destruct (is_rv_ok b n) as [r [Hr Hi]]; [apply H; simpl; auto|]. rewrite Hr. simpl.
      destruct r.
      + exists true. split; auto. split; auto. intros _. exists n. split; auto. apply Hi; auto.
      + destruct IH as [r' [Hr' Hi']]; [intros; apply H; simpl; auto|]. rewrite Hr'.
        exists r'. split; auto. rewrite Hi'. split.
        * intros [m [H1 H2]]. exists m. auto.
        * intros [m [[<-|H1] H2]]; [|exists m; auto]. apply Hi in H2. discriminate.
  Qed.

  Lemma rv_roots_of_ok : forall b, coherent b -> forall od, (forall n, In n od -> node b n) ->
    exists f, rv_roots_of b od = Ok (filter f od)
      /\ forall n, In n od -> (f n = true <-> random b n /\ forall a, path (dag b) a n -> ~ random b a).
  Proof.
    intros b C.
    assert (G : exists f, forall k, node b k ->
       (f k = true <-> random b k /\ forall a, path (dag b) a k -> ~ random b a)
       /\ exists r, is_rv b k = Ok r /\ (r = true <-> random b k)
       /\ exists anc, ancestors (dag b) k = Ok anc /\ exists q, any_rv b anc = Ok q
       /\ f k = r && negb q).
    { exists (fun k => match is_rv b k, ancestors (dag b) k with
                       | Ok r, Ok anc => match any_rv b anc with Ok q => r && negb q | _ => false end
                       | _, _ => false end).
      intros k Hk. destruct (is_rv_ok b k Hk) as [r [Hr Hri]].
      destruct (ancestors_spec (dag b) k) as [anc [Ha _]]; [apply C|apply node_gnodes; auto|].
      destruct (ancestors_ok (dag b) k anc (co_wf _ C) (co_acyclic _ C) Ha) as [_ [_ Hanc]].
      destruct (any_rv_ok b anc) as [q [Hq Hqi]].
      { intros n Hn. apply Hanc in Hn. apply node_gnodes. eapply path_src; eauto. apply C. }
      rewrite Hr, Ha, Hq. split.
      - rewrite andb_true_iff, negb_true_iff, Hri. split.
        + intros [H1 H2]. split; auto. intros a Hpa Hra. assert (q = true); [|congruence].
          apply Hqi. exists a. split; auto. apply Hanc; auto.
        + intros [H1 H2]. split; auto. destruct q; auto. destruct (proj1 Hqi eq_refl) as [a [H3 H4]].
          exfalso. apply (H2 a); auto. apply Hanc; auto.
      - exists r. splits; auto. exists anc. split; auto. exists q. auto. }
    destruct G as [f G]. intros od Hod. exists f. split; [|intros; apply G; auto].
    induction od as [|k od IH]; simpl; auto.
    destruct (G k) as [_ [r [Hr [_ [anc [Ha [q [Hq Hf]]]]]]]]; [apply Hod; simpl; auto|].
    rewrite Hr. simpl. rewrite Hf. rewrite IH by (intros; apply Hod; simpl; auto).
    destruct r; simpl; auto. rewrite Ha. simpl. rewrite Hq. simpl. destruct q; auto.
  Qed.

  Lemma find_rv_roots_ok : forall b, coherent b -> exists l, find_rv_roots b = Ok l
    /\ topo (dag b) l (fun n => random b n /\ forall a, path (dag b) a n -> ~ random b a)
    /\ exists od, order (dag b) = Ok od /\ forall x y, before l x y -> before od x y.
  Proof.
    intros b C. destruct (order_total (dag b)) as [od Hod]; try apply C.
    pose proof (order_topo (dag b) od (co_wf _ C) Hod) as [[Hnd Hin] Hbef].
    destruct (rv_roots_of_ok b C od) as [f [Hf Hi]]; [intros n Hn; apply node_gnodes, Hin; auto|].
    exists (filter f od). unfold find_rv_roots. rewrite Hod. simpl. split; [auto|]. split; [split; [split|]|].
    - apply NoDup_filter; auto.
    - intros x. rewrite filter_In. split.
      + intros [H1 H2]. apply Hi; auto.
      + intros H. assert (Hx : In x od).
        { apply Hin. destruct H as [[l [Hl _]] _]. apply node_gnodes. eapply holds_node; eauto. }
        split; auto. apply Hi; auto.
    - intros x y He Hx Hy. apply filter_In in Hx, Hy. apply before_filter. split; [apply Hbef; tauto|tauto].
    - exists od. split; auto. intros x y H. apply before_filter in H. tauto.
  Qed.

  Lemma find_exo_spec : forall b, coherent b ->
    lists (find_exo b) (fun n => exists l, holds b n l /\ is_exo_l l = true).
  Proof.
    intros b C. unfold find_exo. pose proof (wf_nodes _ (co_wf _ C)) as Hn. unfold dag in Hn. simpl in Hn. split.
    - clear C. induction (b_attrs b) as [|[k a] d IH]; simpl; [constructor|].
      inversion Hn as [|? ? Hx Hl]; subst. destruct (is_exo_l (a_loci a)); simpl; auto. constructor; auto.
      intros Hi. apply Hx. apply in_map_iff in Hi. destruct Hi as [p [<- Hp]]. apply filter_In in Hp.
      apply in_map. tauto.
    - intros x. rewrite in_map_iff. split.
      + intros [[k a] [<- H]]. apply filter_In in H. destruct H as [H1 H2]. exists (a_loci a). split; auto.
        exists a. split; auto. simpl. apply in_pair_dget; auto.
      + intros [l [[a [Ha <-]] H]]. exists (x, a). split; auto. apply filter_In. split; auto.
        apply dget_in_pair; auto.
  Qed.

  (** ** Freezing *)

  Definition frozen_with (b : bn w) c : bn w := mkBn (b_name b) (b_attrs b) (b_edges b) true (Some c) (b_udf b).

  (** rv_roots_of reads only attributes and edges *)
  Lemma rv_roots_of_ext : forall b b' od, b_attrs b' = b_attrs b -> b_edges b' = b_edges b ->
    rv_roots_of b' od = rv_roots_of b od.
  Proof.
    intros b b' od Ha He.
    assert (D : dag b' = dag b) by (unfold dag; rewrite Ha, He; auto).
    assert (R : forall k, is_rv b' k = is_rv b k) by (intros; unfold is_rv, bget; rewrite Ha; auto).
    assert (N : forall ns, any_rv b' ns = any_rv b ns).
    { induction ns as [|n ns IH]; simpl; auto. rewrite R, IH. auto. }
    induction od as [|k od IH]; simpl; auto. rewrite R, D, IH.
    destruct (is_rv b k) as [r|e]; simpl; auto. destruct r; auto.
    destruct (ancestors (dag b) k) as [anc|e]; simpl; auto. rewrite N. auto.
  Qed.

  Lemma complete_ok : forall b, coherent b -> exists b', complete b = (Ok tt, b')
    /\ b_frozen b' = true /\ fresh b' /\ dag b' = dag b /\ b_attrs b' = b_attrs b /\ b_name b' = b_name b
    /\ b_udf b' = b_udf b.
  Proof.
    intros b C. unfold complete. destruct (order_total (dag b)) as [od Hod]; try apply C. rewrite Hod.
    pose proof (order_ok (dag b) od (co_wf _ C) Hod) as [_ [_ [Hin _]]].
    destruct (rv_roots_of_ok b C od) as [f [Hf _]]; [intros n Hn; apply node_gnodes, Hin; auto|].
    rewrite Hf. eexists. split; [reflexivity|]. splits; auto. intros _. simpl.
    eexists. split; [reflexivity|]. simpl. splits; auto.
    unfold find_rv_roots.
    match goal with |- context [order (dag ?x)] => change (dag x) with (dag b) end.
    rewrite Hod. simpl. rewrite <- Hf.
    apply rv_roots_of_ext; auto.
  Qed.

  (** ** coherence only depends on attributes and edges *)
  Lemma coherent_ext : forall b b', wf (dag b') -> (forall n, dget (b_attrs b') n = dget (b_attrs b) n) ->
    (forall x y, edge (dag b') x y <-> edge (dag b) x y) -> coherent b -> coherent b'.
  Proof.
    intros b b' W Ha He C. constructor; auto.
    - apply (acyclic_ext (dag b)); [intros; symmetry; auto|apply C].
    - intros n l [a [H1 H2]]. rewrite Ha in H1. apply (co_name _ C). exists a. auto.
    - intros n l [a [H1 H2]] p. rewrite Ha in H1. rewrite He. apply (co_parents _ C). exists a. auto.
  Qed.

  Lemma coherent_same : forall b b', b_attrs b' = b_attrs b -> b_edges b' = b_edges b -> coherent b -> coherent b'.
  Proof.
    intros b b' Ha He C. assert (E : dag b' = dag b) by (unfold dag; rewrite Ha, He; auto).
    apply (coherent_ext b); auto.
    - rewrite E. apply C.
    - rewrite Ha. auto.
    - rewrite E. tauto.
  Qed.

  (** ** Defrosting *)

  Lemma regroup_edge : forall g x y, wf g -> (In (x, y) (regroup g) <-> edge g x y).
  Proof.
    intros g x y W. unfold regroup. rewrite in_flat_map. split.
    - intros [n [Hn H]]. apply in_map_iff in H. destruct H as [z [E Hz]]. inversion E; subst. apply succs_In; auto.
    - intros H. exists x. split; [eapply wf_src; eauto|]. apply in_map. apply succs_In; auto.
  Qed.

  Lemma regroup_NoDup : forall g, wf g -> NoDup (regroup g).
  Proof.
    intros g W. unfold regroup. pose proof (wf_nodes _ W) as H. revert H.
    generalize (gnodes g) as ns. induction ns as [|n ns IH]; intros H; simpl; [constructor|].
    inversion H as [|? ? Hx Hl]; subst. apply NoDup_app_intro; auto.
    - pose proof (succs_NoDup g n (wf_edges _ W)) as Hs. clear - Hs.
      induction (succs g n) as [|y l IHl]; simpl; [constructor|]. inversion Hs as [|? ? H1 H2]; subst.
      constructor; auto. rewrite in_map_iff. intros [z [E Hz]]. inversion E; subst. auto.
    - intros [x y] H1 H2. apply in_map_iff in H1. destruct H1 as [z [E _]]. inversion E; subst.
      apply in_flat_map in H2. destruct H2 as [m [Hm H2]]. apply in_map_iff in H2. destruct H2 as [z' [E' _]].
      inversion E'; subst. auto.
  Qed.

  Lemma defrost_dag : forall b, wf (dag b) -> wf (dag (defrost b)) /\
    (forall x y, edge (dag (defrost b)) x y <-> edge (dag b) x y).
  Proof.
    intros b W. assert (E : forall x y, edge (dag (defrost b)) x y <-> edge (dag b) x y).
    { intros x y. unfold edge at 1. simpl. apply regroup_edge; auto. }
    split; auto. constructor.
    - apply W.
    - simpl. apply regroup_NoDup; auto.
    - intros x y H. apply E in H. change (In x (gnodes (dag b))). eapply wf_src; eauto.
    - intros x y H. apply E in H. change (In y (gnodes (dag b))). eapply wf_dst; eauto.
  Qed.

  (** successors keep their order, hence so does the topological order *)
  Lemma regroup_succs : forall g x, wf g -> succs (mkGraph (gnodes g) (regroup g)) x = succs g x.
  Proof.
    intros g x W. unfold succs at 1. simpl. unfold regroup.
    assert (G : forall ns, NoDup ns ->
      map snd (filter (fun e : name * name => String.eqb x (fst e)) (flat_map (fun n => map (pair n) (succs g n)) ns))
      = if mem x ns then succs g x else []).
    { induction ns as [|n ns IH]; intros H; auto. inversion H as [|? ? Hx Hl]; subst.
      cbn [flat_map]. rewrite filter_app, map_app, IH; auto. cbn [mem existsb].
      destruct (String.eqb x n) eqn:E.
      - apply String.eqb_eq in E. subst n. simpl orb. cbv iota.
        replace (mem x ns) with false by (symmetry; apply mem_false; auto). rewrite app_nil_r.
        rewrite filter_id.
        + rewrite map_map. simpl. apply map_id.
        + intros e He. apply in_map_iff in He. destruct He as [z [<- _]]. simpl. apply String.eqb_refl.
      - replace (filter (fun e : name * name => String.eqb x (fst e)) (map (pair n) (succs g n))) with (@nil (name * name)); auto.
        clear - E. induction (succs g n) as [|z l IHl]; simpl; auto. rewrite E. auto. }
    rewrite G by apply W. destruct (mem x (gnodes g)) eqn:E; auto.
    apply mem_false in E. destruct (succs g x) as [|y l] eqn:Es; auto.
    exfalso. apply E. assert (H : edge g x y) by (apply succs_In; rewrite Es; simpl; auto). eapply wf_src; eauto.
  Qed.

  Lemma regroup_in_degree : forall g x, wf g -> in_degree (mkGraph (gnodes g) (regroup g)) x = in_degree g x.
  Proof.
    intros g x W. unfold in_degree.
    apply Permutation_length. apply NoDup_Permutation.
    - apply preds_NoDup. simpl. apply regroup_NoDup; auto.
    - apply preds_NoDup. apply W.
    - intros y. rewrite !preds_In. unfold edge at 1. simpl. apply regroup_edge; auto.
  Qed.

  Lemma kahn_ext : forall fuel g g' indeg queue out, (forall x, succs g x = succs g' x) ->
    kahn fuel g indeg queue out = kahn fuel g' indeg queue out.
  Proof.
    induction fuel as [|f IH]; intros g g' indeg queue out H; simpl; destruct queue; auto.
    rewrite H. destruct (dec_children indeg (succs g' n)). apply IH; auto.
  Qed.

  Lemma regroup_order : forall g, wf g -> order (mkGraph (gnodes g) (regroup g)) = order g.
  Proof.
    intros g W. unfold order. cbn [gnodes].
    rewrite (kahn_ext _ _ g) by (intros; apply regroup_succs; auto).
    f_equal.
    - replace (filter (fun n => negb (in_degree {| gnodes := gnodes g; gedges := regroup g |} n =? 0)) (gnodes g))
        with (filter (fun n => negb (in_degree g n =? 0)) (gnodes g)).
      + apply map_ext. intros. rewrite regroup_in_degree; auto.
      + apply filter_ext. intros. rewrite regroup_in_degree; auto.
    - apply filter_ext. intros. rewrite regroup_in_degree; auto.
  Qed.

  Lemma defrost_coherent : forall b, coherent b -> coherent (defrost b).
  Proof.
    intros b C. destruct (defrost_dag b (co_wf _ C)) as [W E]. apply (coherent_ext b); auto.
  Qed.

  Lemma fresh_unfrozen : forall b, b_frozen b = false -> fresh b.
  Proof. intros b F H. congruence. Qed.

  (** views agree with the graph when fresh *)
  Lemma fresh_views : forall b, fresh b ->
    Order b = order (dag b) /\ Roots b = Ok (roots (dag b)) /\ RVRoots b = find_rv_roots b
    /\ Leaves b = Ok (leaves (dag b)) /\ Exo b = Ok (find_exo b).
  Proof.
    intros b H. unfold Order, Roots, RVRoots, Leaves, Exo, cached.
    destruct (b_frozen b) eqn:F; [|auto 10].
    destruct (H F) as [c [H1 [H2 [H3 [H4 [H5 [H6 H7]]]]]]]. rewrite H1, H2, H3, H4, H5, H6. auto.
  Qed.

  (** ** has_randomness *)

  Lemma has_randomness_none : forall b n, coherent b -> node b n ->
    exists r, has_randomness b n [] = Ok r /\ (r = true <-> random b n \/ exists a, path (dag b) a n /\ random b a).
  Proof.
    intros b n C Hn. unfold has_randomness. destruct (is_rv_ok b n Hn) as [r [Hr Hi]]. rewrite Hr. simpl.
    destruct r.
    - exists true. split; auto. split; auto. intros _. left. apply Hi; auto.
    - destruct (ancestors_spec (dag b) n (co_wf _ C)) as [anc [Ha _]]; [apply node_gnodes; auto|].
      destruct (ancestors_ok _ _ _ (co_wf _ C) (co_acyclic _ C) Ha) as [_ [_ Hanc]]. rewrite Ha. simpl.
      destruct (any_rv_ok b anc) as [q [Hq Hqi]].
      { intros m Hm. apply Hanc in Hm. apply node_gnodes. eapply path_src; eauto. apply C. }
      rewrite Hq. exists q. split; auto. rewrite Hqi. split.
      + intros [a [H1 H2]]. right. exists a. split; auto. apply Hanc; auto.
      + intros [H|[a [H1 H2]]]; [apply Hi in H; discriminate|]. exists a. split; auto. apply Hanc; auto.
  Qed.

  (** with given nodes: the ancestors that are not above a given ancestor *)
  Lemma has_randomness_given : forall b n given, coherent b -> node b n -> given <> [] ->
    exists r, has_randomness b n given = Ok r /\
      (r = true <-> random b n \/ exists a, path (dag b) a n /\ random b a /\ ~ In a given
                     /\ ~ exists s, In s given /\ path (dag b) s n /\ path (dag b) a s).
  Proof.
    intros b n given C Hn Hg. unfold has_randomness. destruct (is_rv_ok b n Hn) as [r [Hr Hi]]. rewrite Hr. simpl.
    destruct r.
    - exists true. split; auto. split; auto. intros _. left. apply Hi; auto.
    - destruct given as [|g0 given]; [congruence|].
      destruct (minimal_requirements_spec (dag b) n (g0 :: given) (co_wf _ C) (co_acyclic _ C)) as [l [Hl [[_ Hin] _]]];
        [apply node_gnodes; auto|].
      rewrite Hl. cbn [bind].
      destruct (any_rv_ok b (diff l (g0 :: given))) as [q [Hq Hqi]].
      { intros m Hm. apply diff_In in Hm. destruct Hm as [Hm _]. apply Hin in Hm. apply node_gnodes.
        eapply path_src; [apply C|]. apply Hm. }
      rewrite Hq. exists q. split; auto. rewrite Hqi. split.
      + intros [a [H1 H2]]. apply diff_In in H1. destruct H1 as [H1 H3]. apply Hin in H1.
        right. exists a. tauto.
      + intros [H|[a [H1 [H2 [H3 H4]]]]]; [apply Hi in H; discriminate|]. exists a. split; auto.
        apply diff_In. split; auto. apply Hin. auto.
  Qed.

  Lemma is_deterministic_spec : forall b n given, coherent b -> node b n ->
    exists r, is_deterministic b n given = Ok r /\
      (r = true <-> (exists l, holds b n l /\ is_value_l l = true)
        \/ (given <> [] /\ forall a, path (dag b) a n -> ~ In a given ->
              ~ (exists s, In s given /\ path (dag b) s n /\ path (dag b) a s) ->
              exists l, holds b a l /\ is_value_l l = true)).
  Proof.
    intros b n given C Hn. unfold is_deterministic. destruct (node_holds _ _ Hn) as [l Hl].
    rewrite (proj2 (bget_holds b n l) Hl). simpl. destruct (is_value_l l) eqn:Ev.
    - exists true. split; auto. split; auto. intros _. left. eauto.
    - destruct given as [|g0 given].
      + exists false. split; auto. split; [discriminate|]. intros [[l' [H1 H2]]|[H _]]; [|congruence].
        rewrite (holds_fun _ _ _ _ Hl H1) in Ev. congruence.
      + destruct (minimal_requirements_spec (dag b) n (g0 :: given) (co_wf _ C) (co_acyclic _ C)) as [rq [Hrq [[_ Hin] _]]];
          [apply node_gnodes; auto|].
        rewrite Hrq. cbn [bind].
        set (req := diff rq (g0 :: given)).
        assert (Hreq : forall a, In a req <-> path (dag b) a n /\ ~ In a (g0 :: given) /\
                  ~ (exists s, In s (g0 :: given) /\ path (dag b) s n /\ path (dag b) a s)).
        { intros a. unfold req. rewrite diff_In, Hin. tauto. }
        destruct (mapM_all_ok _ _ (bget b) req) as [ls Hls].
        { intros a Ha. apply Hreq in Ha. destruct Ha as [Ha _].
          assert (Hna : node b a) by (apply node_gnodes; eapply path_src; eauto; apply C).
          destruct (node_holds _ _ Hna) as [la Hla]. exists la. apply bget_holds; auto. }
        rewrite Hls. cbn [bind]. eexists. split; [reflexivity|].
        apply mapM_ok in Hls. split.
        * intros H. right. split; [discriminate|]. intros a H1 H2 H3.
          assert (Ha : In a req) by (apply Hreq; auto).
          clear - Hls H Ha. induction Hls as [|x y xs ys Hx Hl IH]; simpl in *; [tauto|].
          apply andb_true_iff in H. destruct H as [H1 H2]. destruct Ha as [->|Ha]; auto.
          exists y. split; auto. apply bget_holds; auto.
        * intros [[l' [H1 H2]]|[_ H]].
          { rewrite (holds_fun _ _ _ _ Hl H1) in Ev. congruence. }
          assert (H' : forall a, In a req -> exists l, holds b a l /\ is_value_l l = true).
          { intros a Ha. apply Hreq in Ha. apply H; tauto. }
          clear - Hls H'. induction Hls as [|x y xs ys Hx Hl IH]; simpl in *; auto.
          apply andb_true_iff. split; [|apply IH; intros; apply H'; auto].
          destruct (H' x) as [l' [H1 H2]]; auto. apply bget_holds in Hx. rewrite (holds_fun _ _ _ _ Hx H1). auto.
  Qed.
End Views.
