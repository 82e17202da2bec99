(** * Proofs about ModelBN *)

Require Import Verif.Base Verif.World Verif.ModelGraph Verif.ModelExpr Verif.ModelLoci Verif.ModelBN
        Verif.Spec Verif.SpecBN Verif.ProofBase Verif.ProofGraph.

Section ProofBN.
  Context {w : world}.
  Implicit Types b : bn w.

  (** ** The graph under the primitive edits *)

  Lemma dag_put : forall b l des, dag (put_node b l des) = add_node (dag b) (loci_name l).
  Proof. intros. unfold dag, put_node, set_attrs, add_node. simpl. rewrite dkeys_dset. auto. Qed.

  Lemma dag_drop : forall b n, dag (drop_node b n) = del_node (dag b) n.
  Proof. intros. unfold dag, drop_node, del_node. simpl. rewrite dkeys_ddel. auto. Qed.

  Lemma sadd_id : forall x l, In x l -> sadd x l = l.
  Proof. intros x l H. unfold sadd. apply mem_In in H. rewrite H. auto. Qed.

  Lemma dag_link : forall b p n, node b p -> node b n -> dag (link b p n) = add_edge (dag b) p n.
  Proof.
    intros b p n Hp Hn. unfold dag, link, set_edges, add_edge. simpl.
    unfold node in *. rewrite (sadd_id p); auto. rewrite (sadd_id n); auto.
  Qed.

  Lemma set_edges_id : forall b, set_edges b (gedges (dag b)) = b.
  Proof. intros []. reflexivity. Qed.

  Lemma in_dag_spec : forall b n, in_dag b n = true <-> node b n.
  Proof. intros. unfold in_dag. apply dmem_In. Qed.

  Lemma in_dag_false : forall b n, in_dag b n = false <-> ~ node b n.
  Proof. intros. rewrite <- in_dag_spec. destruct (in_dag b n); split; congruence. Qed.

  Lemma node_gnodes : forall b n, node b n <-> In n (gnodes (dag b)).
  Proof. intros. unfold node, dag. simpl. tauto. Qed.

  Lemma node_holds : forall b n, node b n -> exists l, holds b n l.
  Proof.
    intros b n H. apply dget_In in H. destruct H as [a Ha]. exists (a_loci a), a. auto.
  Qed.

  Lemma holds_node : forall b n l, holds b n l -> node b n.
  Proof. intros b n l [a [Ha _]]. apply dget_In. eauto. Qed.

  Lemma holds_fun : forall b n l l', holds b n l -> holds b n l' -> l = l'.
  Proof. intros b n l l' [a [H1 H2]] [a' [H3 H4]]. rewrite H1 in H3. inversion H3. congruence. Qed.

  Lemma edge_add_node : forall g n x y, edge (add_node g n) x y <-> edge g x y.
  Proof. intros. unfold edge, add_node. simpl. tauto. Qed.

  Lemma path_ext : forall g g', (forall x y, edge g x y <-> edge g' x y) ->
    forall x y, path g x y <-> path g' x y.
  Proof. intros g g' H x y. split; apply path_incl; intros; apply H; auto. Qed.

  Lemma acyclic_ext : forall g g', (forall x y, edge g x y <-> edge g' x y) -> (acyclic g <-> acyclic g').
  Proof. intros g g' H. split; intros A x Hx; apply (A x); eapply path_ext; eauto; intros; symmetry; auto. Qed.

  Lemma check_acyclic_ext : forall g g', wf g -> wf g' -> (forall x y, edge g x y <-> edge g' x y) ->
    check_acyclic g = check_acyclic g'.
  Proof.
    intros g g' W W' H. apply eq_true_iff_eq. rewrite !check_acyclic_spec; auto. apply acyclic_ext; auto.
  Qed.

  Lemma bget_holds : forall b n l, bget b n = Ok l <-> holds b n l.
  Proof.
    intros b n l. unfold bget, holds. destruct (dget (b_attrs b) n) as [a|] eqn:E.
    - split; intros H.
      + inversion H; subst. eauto.
      + destruct H as [a' [H1 H2]]. inversion H1; subst. auto.
    - split; [discriminate|]. intros [a [H _]]. discriminate.
  Qed.

  Lemma bget_missing : forall b n, ~ node b n -> bget b n = Err KeyError.
  Proof. intros b n H. unfold bget. apply dget_None in H. rewrite H. auto. Qed.

  (** put then drop of a new node is the identity *)
  Lemma ddel_dset_new : forall (A : Type) (d : dict A) k v, ~ In k (dkeys d) -> ddel (dset d k v) k = d.
  Proof.
    intros A d k v. unfold ddel. induction d as [|[k' v'] d IH]; simpl; intros H.
    - rewrite String.eqb_refl. auto.
    - destruct (String.eqb k k') eqn:E.
      + apply String.eqb_eq in E. subst. exfalso. auto.
      + simpl. rewrite E. simpl. rewrite IH; auto.
  Qed.

  Lemma filter_id : forall (A : Type) (f : A -> bool) l, (forall x, In x l -> f x = true) -> filter f l = l.
  Proof.
    intros A f l. induction l as [|x l IH]; intros H; simpl; auto.
    rewrite (H x), IH; simpl; auto. intros; apply H; simpl; auto.
  Qed.

  Lemma drop_put_new : forall b l des, wf (dag b) -> ~ node b (loci_name l) ->
    drop_node (put_node b l des) (loci_name l) = b.
  Proof.
    intros b l des W H. unfold drop_node. rewrite dag_put.
    unfold put_node, set_attrs. simpl. rewrite ddel_dset_new; auto.
    rewrite filter_id; [destruct b; reflexivity|].
    intros [x y] Hxy. simpl.
    assert (Hx : In x (gnodes (dag b))) by (eapply wf_src; eauto).
    assert (Hy : In y (gnodes (dag b))) by (eapply wf_dst; eauto).
    apply andb_true_iff. rewrite !negb_true_iff, !String.eqb_neq.
    split; intros E; apply H; apply node_gnodes; rewrite E; auto.
  Qed.

  (** appending an exogenous node under a new name *)
  Lemma append_exo_new : forall b p, wf (dag b) -> b_frozen b = false -> ~ node b p ->
    append_exo b (LExo p) = if check_acyclic (dag b) then (Ok tt, put_node b (LExo p) None)
                            else (Err AttributeError, b).
  Proof.
    intros b p W F H. unfold append_exo, append_body. rewrite F. simpl loci_name.
    rewrite dag_put. simpl loci_name.
    rewrite remove_in_edges_root.
    - simpl.
      replace (set_edges (put_node b (LExo p) None) (b_edges b)) with (put_node b (LExo p) None)
        by (destruct b; reflexivity).
      rewrite dag_put. simpl loci_name.
      rewrite (check_acyclic_ext (add_node (dag b) p) (dag b)); auto.
      + destruct (check_acyclic (dag b)); auto. simpl.
        change (drop_node (put_node b (LExo p) None) p)
          with (drop_node (put_node b (LExo p) None) (loci_name (@LExo w p))).
        rewrite drop_put_new; auto.
      + apply wf_add_node; auto.
      + intros. apply edge_add_node.
    - simpl. apply sadd_In. auto.
    - intros a Ha. apply edge_add_node in Ha. apply H. apply node_gnodes. eapply wf_dst; eauto.
  Qed.

  (** ** The loop over the parents *)

  Definition exo_attr (p : name) : name * attr w := (p, mkAttr (LExo p) None).

  Lemma put_new_attrs : forall b l des, ~ node b (loci_name l) ->
    b_attrs (put_node b l des) = b_attrs b ++ [(loci_name l, mkAttr l des)].
  Proof.
    intros b l des H. unfold put_node. simpl. unfold node in H.
    assert (G : forall d (v : attr w), ~ In (loci_name l) (dkeys d) -> dset d (loci_name l) v = d ++ [(loci_name l, v)]).
    { induction d as [|[k' v'] d IH]; intros v Hd; simpl; auto.
      destruct (String.eqb (loci_name l) k') eqn:E.
      - apply String.eqb_eq in E. subst. exfalso. apply Hd. simpl; auto.
      - rewrite IH; auto. intros Hi. apply Hd. simpl; auto. }
    rewrite G; auto. apply dget_None in H. rewrite H. destruct des; auto.
  Qed.

  (** state of the loop after the parents [pas] have been handled *)
  Record linked (b : bn w) (n : name) (pas added : list name) (b' : bn w) : Prop := mkLinked {
    lk_name : b_name b' = b_name b;
    lk_frozen : b_frozen b' = b_frozen b;
    lk_cache : b_cache b' = b_cache b;
    lk_udf : b_udf b' = b_udf b;
    lk_attrs : b_attrs b' = b_attrs b ++ map exo_attr added;
    lk_added : forall x, In x added <-> In x pas /\ ~ node b x;
    lk_nodup : NoDup added;
    lk_wf : wf (dag b');
    lk_edges : forall x y, edge (dag b') x y <-> edge (dag b) x y \/ (y = n /\ In x pas)
  }.

  Lemma dkeys_exo : forall l, dkeys (map exo_attr l) = l.
  Proof. intros l. unfold dkeys. rewrite map_map. simpl. apply map_id. Qed.

  Lemma linked_node : forall b n pas added b', linked b n pas added b' ->
    forall x, node b' x <-> node b x \/ In x added.
  Proof.
    intros b n pas added b' L x. unfold node. rewrite (lk_attrs _ _ _ _ _ L).
    unfold dkeys. rewrite map_app, in_app_iff. change (map fst (map exo_attr added)) with (dkeys (map exo_attr added)).
    rewrite dkeys_exo. tauto.
  Qed.

  Lemma linked_nil : forall b n, wf (dag b) -> linked b n [] [] b.
  Proof.
    intros b n W. constructor; auto; simpl.
    - rewrite app_nil_r; auto.
    - intuition.
    - constructor.
    - intros; tauto.
  Qed.

  Lemma linked_old : forall b n pas added b' p, linked b n pas added b' -> node b n -> node b' p ->
    linked b n (pas ++ [p]) added (link b' p n).
  Proof.
    intros b n pas added b' p L Hn Hp.
    assert (Hn' : node b' n) by (apply (linked_node _ _ _ _ _ L); auto).
    pose proof (linked_node _ _ _ _ _ L) as LN.
    destruct L as [L1 L2 L3 L4 L5 L6 L7 L8 L9].
    constructor; auto.
    - intros x. rewrite L6, in_app_iff. simpl. split; [intros [? ?]; auto|].
      intros [[H|[<-|[]]] H']; auto. split; auto. apply LN in Hp. destruct Hp as [Hp|Hp]; [tauto|]. apply L6 in Hp. tauto.
    - rewrite dag_link; auto. apply wf_add_edge; auto.
    - intros x y. rewrite dag_link; auto. rewrite add_edge_edge, L9, in_app_iff. simpl.
      intuition (subst; auto).
  Qed.

  Lemma linked_new : forall b n pas added b' p, linked b n pas added b' -> node b n -> ~ node b' p ->
    linked b n (pas ++ [p]) (added ++ [p]) (link (put_node b' (LExo p) None) p n).
  Proof.
    intros b n pas added b' p L Hn Hp.
    pose proof (linked_node _ _ _ _ _ L) as LN.
    set (b2 := put_node b' (LExo p) None).
    assert (HN2 : forall x, node b2 x <-> x = p \/ node b' x).
    { intros x. rewrite !node_gnodes. unfold b2. rewrite dag_put. simpl. rewrite sadd_In. tauto. }
    assert (Hn2 : node b2 n) by (apply HN2; right; apply LN; auto).
    assert (Hp2 : node b2 p) by (apply HN2; auto).
    destruct L as [L1 L2 L3 L4 L5 L6 L7 L8 L9].
    constructor; auto.
    - change (b_attrs (link b2 p n)) with (b_attrs b2). unfold b2.
      rewrite put_new_attrs; auto. rewrite L5, map_app, app_assoc. auto.
    - intros x. rewrite !in_app_iff, L6. simpl. split.
      + intros [[H H']|[<-|[]]]; auto. split; auto. intros Hx. apply Hp. apply LN. auto.
      + intros [[H|[<-|[]]] H']; auto.
    - apply NoDup_app_intro; auto; [constructor; auto; constructor|].
      intros x Hx [<-|[]]. apply Hp. apply LN. auto.
    - rewrite dag_link; auto. apply wf_add_edge. unfold b2. rewrite dag_put. apply wf_add_node; auto.
    - intros x y. rewrite dag_link; auto. rewrite add_edge_edge. unfold b2. rewrite dag_put, edge_add_node, L9, in_app_iff.
      simpl. intuition (subst; auto).
  Qed.

  (** Either all parents are linked, or the loop stops at an unknown parent because the
      graph is already cyclic; then the network keeps the links made so far. *)
  Lemma add_parents_loop : forall pas b n done added b1,
    linked b n done added b1 -> node b n -> b_frozen b = false ->
    (exists b' added', add_parents append_exo b1 n pas added = (Ok tt, b', added')
                      /\ linked b n (done ++ pas) added' b')
    \/ (exists pas1 pa pas2 b' added', pas = pas1 ++ pa :: pas2
          /\ add_parents append_exo b1 n pas added = (Err AttributeError, b', added')
          /\ linked b n (done ++ pas1) added' b' /\ ~ node b' pa /\ ~ acyclic (dag b')).
  Proof.
    induction pas as [|p pas IH]; intros b n done added b1 L Hn F.
    - left. exists b1, added. rewrite app_nil_r. auto.
    - simpl. destruct (in_dag b1 p) eqn:E.
      + apply in_dag_spec in E.
        pose proof (linked_old _ _ _ _ _ p L Hn E) as L'.
        destruct (IH _ _ _ _ _ L' Hn F) as [[b' [ad [H1 H2]]]|[p1 [pa [p2 [b' [ad [H0 [H1 [H2 H3]]]]]]]]].
        * left. exists b', ad. rewrite <- app_assoc in H2. auto.
        * right. exists (p :: p1), pa, p2, b', ad. rewrite <- app_assoc in H2. subst pas. splits; auto; apply H3.
      + apply in_dag_false in E.
        rewrite append_exo_new; auto; [|apply (lk_wf _ _ _ _ _ L)|rewrite (lk_frozen _ _ _ _ _ L); auto].
        destruct (check_acyclic (dag b1)) eqn:Ea.
        * pose proof (linked_new _ _ _ _ _ p L Hn E) as L'.
          destruct (IH _ _ _ _ _ L' Hn F) as [[b' [ad [H1 H2]]]|[p1 [pa [p2 [b' [ad [H0 [H1 [H2 H3]]]]]]]]].
          -- left. exists b', ad. rewrite <- app_assoc in H2. auto.
          -- right. exists (p :: p1), pa, p2, b', ad. rewrite <- app_assoc in H2. subst pas. splits; auto; apply H3.
        * right. exists [], p, pas, b1, added. rewrite app_nil_r. splits; auto.
          intros A. apply check_acyclic_spec in A; [congruence|]. apply (lk_wf _ _ _ _ _ L).
  Qed.

  Lemma add_parents_spec : forall pas b n, wf (dag b) -> node b n -> b_frozen b = false ->
    (exists b' added, add_parents append_exo b n pas [] = (Ok tt, b', added) /\ linked b n pas added b')
    \/ (exists pas1 pa pas2 b' added, pas = pas1 ++ pa :: pas2
          /\ add_parents append_exo b n pas [] = (Err AttributeError, b', added)
          /\ linked b n pas1 added b' /\ ~ node b' pa /\ ~ acyclic (dag b')).
  Proof. intros. apply (add_parents_loop pas b n [] [] b); auto. apply linked_nil; auto. Qed.

  (** ** Cycles created by a new definition *)

  (** graph [g'] is [g] plus edges from [ps] into [n] *)
  Lemma cycle_iff : forall g g' n ps, acyclic g ->
    (forall x y, edge g' x y <-> edge g x y \/ (y = n /\ In x ps)) ->
    ((exists x, path g' x x) <-> exists p, In p ps /\ (p = n \/ path g n p)).
  Proof.
    intros g g' n ps A H.
    assert (Inc : forall x y, path g x y -> path g' x y).
    { intros x y. apply path_incl. intros. apply H. auto. }
    split.
    - intros [x Hx].
      (* any path of g' is a path of g, or passes through n by a new edge *)
      assert (G : forall a d, path g' a d -> path g a d \/
                 exists p, In p ps /\ (a = p \/ path g a p) /\ (n = d \/ path g' n d)).
      { intros a d Hp. induction Hp as [a d He|a d c He Hp IH].
        - apply H in He. destruct He as [He|[-> Hi]]; [left; apply path_edge; auto|right].
          exists a. auto.
        - apply H in He. destruct He as [He|[-> Hi]].
          + destruct IH as [IH|[p [Hp1 [Hp2 Hp3]]]].
            * left. eapply path_step; eauto.
            * right. exists p. split; auto. split; auto. right. destruct Hp2 as [->|Hp2].
              -- apply path_edge; auto.
              -- eapply path_step; eauto.
          + right. exists a. splits; auto. }
      (* a path of g' from n: follow it to its first new edge *)
      destruct (G _ _ Hx) as [Hg|[p [Hp1 [Hp2 Hp3]]]]; [exfalso; apply (A x); auto|].
      assert (Hn : n = p \/ path g' n p).
      { destruct Hp3 as [->|Hp3]; destruct Hp2 as [->|Hp2]; auto.
        right. eapply path_trans; eauto. }
      destruct Hn as [->|Hn]; [exists p; auto|].
      destruct (G _ _ Hn) as [Hg|[q [Hq1 [Hq2 Hq3]]]].
      + exists p. auto.
      + exists q. split; auto. destruct Hq2; auto.
    - intros [p [Hp [->|Hpath]]].
      + exists n. apply path_edge. apply H. auto.
      + exists n. eapply path_snoc; [apply Inc; eauto|]. apply H. auto.
  Qed.

  Lemma not_acyclic_cycle : forall g, wf g -> (~ acyclic g <-> exists x, path g x x).
  Proof.
    intros g W. split.
    - intros H. destruct (acyclic_dec g W); tauto.
    - intros [x Hx] A. apply (A x); auto.
  Qed.

  (** ** append_loci *)

  (** the accepted definition *)
  Record defined (b : bn w) (l : loci w) (des : option string) (b' : bn w) : Prop := mkDefined {
    df_name : b_name b' = b_name b;
    df_frozen : b_frozen b' = false;
    df_cache : b_cache b' = b_cache b;
    df_udf : b_udf b' = b_udf b;
    df_wf : wf (dag b');
    df_nodes : forall x, node b' x <-> node b x \/ x = loci_name l \/ In x (loci_parents l);
    df_edges : forall x y, edge (dag b') x y <-> edge (dag b) x y \/ (y = loci_name l /\ In x (loci_parents l));
    df_attrs : forall x, dget (b_attrs b') x =
       if String.eqb x (loci_name l)
       then Some (mkAttr l (match des with
                            | Some d => Some d
                            | None => match dget (b_attrs b) x with Some a => a_des a | None => None end
                            end))
       else match dget (b_attrs b) x with
            | Some a => Some a
            | None => if mem x (loci_parents l) then Some (mkAttr (LExo x) None) else None
            end
  }.

  Lemma put_edges : forall b l des x y, edge (dag (put_node b l des)) x y <-> edge (dag b) x y.
  Proof. intros. rewrite dag_put. apply edge_add_node. Qed.

  Lemma put_wf : forall b l des, wf (dag b) -> wf (dag (put_node b l des)).
  Proof. intros. rewrite dag_put. apply wf_add_node; auto. Qed.

  Lemma put_node_node : forall b l des x, node (put_node b l des) x <-> x = loci_name l \/ node b x.
  Proof. intros. rewrite !node_gnodes, dag_put. simpl. apply sadd_In. Qed.

  Lemma dget_exo : forall added x, dget (map exo_attr added) x = if mem x added then Some (mkAttr (LExo x) None) else None.
  Proof.
    induction added as [|y added IH]; intros x; simpl; auto.
    destruct (String.eqb x y) eqn:E; simpl.
    - apply String.eqb_eq in E. subst. auto.
    - rewrite IH. auto.
  Qed.

  Lemma linked_defined : forall b l des added b', b_frozen b = false ->
    linked (put_node b l des) (loci_name l) (loci_parents l) added b' -> defined b l des b'.
  Proof.
    intros b l des added b' F L. constructor.
    - rewrite (lk_name _ _ _ _ _ L). auto.
    - rewrite (lk_frozen _ _ _ _ _ L). auto.
    - rewrite (lk_cache _ _ _ _ _ L). auto.
    - rewrite (lk_udf _ _ _ _ _ L). auto.
    - apply (lk_wf _ _ _ _ _ L).
    - intros x. rewrite (linked_node _ _ _ _ _ L), put_node_node, (lk_added _ _ _ _ _ L), put_node_node.
      destruct (In_dec_name x (dkeys (b_attrs b))) as [H|H].
      + change (node b x) in H. tauto.
      + change (~ node b x) in H. destruct (String.string_dec x (loci_name l)); tauto.
    - intros x y. rewrite (lk_edges _ _ _ _ _ L), put_edges. tauto.
    - intros x. rewrite (lk_attrs _ _ _ _ _ L), dget_app, dget_exo.
      assert (E : dget (b_attrs (put_node b l des)) x =
                  if String.eqb x (loci_name l)
                  then Some (mkAttr l (match des with
                     | Some d => Some d
                     | None => match dget (b_attrs b) x with Some a => a_des a | None => None end end))
                  else dget (b_attrs b) x).
      { unfold put_node. simpl. rewrite dget_dset. destruct (String.eqb x (loci_name l)) eqn:E; auto.
        apply String.eqb_eq in E. subst. auto. }
      rewrite E. destruct (String.eqb x (loci_name l)) eqn:E1; auto.
      destruct (dget (b_attrs b) x) as [a|] eqn:E2; auto.
      replace (mem x added) with (mem x (loci_parents l)); auto.
      apply eq_true_iff_eq. rewrite !mem_In, (lk_added _ _ _ _ _ L), put_node_node.
      apply String.eqb_neq in E1. apply dget_None in E2. change (~ node b x) in E2. tauto.
  Qed.

  (** what a rejected definition leaves behind (rejected for closing a cycle) *)
  Inductive rejected_cycle (b : bn w) (l : loci w) (des : option string) : bn w -> Prop :=
  | rc_removed : forall b3 added,
      linked (put_node b l des) (loci_name l) (loci_parents l) added b3 ->
      rejected_cycle b l des (fold_left drop_node added (drop_node b3 (loci_name l)))
  | rc_stuck : forall pas1 pa pas2 b3 added,
      loci_parents l = pas1 ++ pa :: pas2 ->
      linked (put_node b l des) (loci_name l) pas1 added b3 ->
      ~ node b3 pa -> ~ acyclic (dag b3) ->
      rejected_cycle b l des b3.

  Lemma append_loci_frozen : forall b l des, b_frozen b = true -> append_loci b l des = (Err AttributeError, b).
  Proof. intros b l des F. unfold append_loci, append_body. rewrite F. auto. Qed.

  Lemma append_loci_parents : forall b l des, wf (dag b) -> acyclic (dag b) -> b_frozen b = false ->
    has_parents b (loci_name l) -> append_loci b l des = (Err NetworkXError, put_node b l des).
  Proof.
    intros b l des W A F [p Hp]. unfold append_loci, append_body. rewrite F.
    rewrite (remove_in_edges_fails (dag (put_node b l des)) (loci_name l) p).
    - rewrite set_edges_id. auto.
    - apply put_wf; auto.
    - apply (acyclic_ext (dag b)); auto. intros. symmetry. apply put_edges.
    - apply put_edges; auto.
  Qed.

  Lemma append_loci_root : forall b l des, wf (dag b) -> acyclic (dag b) -> b_frozen b = false ->
    ~ has_parents b (loci_name l) ->
    (~ closes_cycle b l /\ exists b', append_loci b l des = (Ok tt, b') /\ defined b l des b' /\ acyclic (dag b'))
    \/ (closes_cycle b l /\ exists b', append_loci b l des = (Err AttributeError, b') /\ rejected_cycle b l des b').
  Proof.
    intros b l des W A F Hnp. unfold append_loci, append_body. rewrite F.
    assert (W1 : wf (dag (put_node b l des))) by (apply put_wf; auto).
    assert (N1 : node (put_node b l des) (loci_name l)) by (apply put_node_node; auto).
    rewrite (remove_in_edges_root (dag (put_node b l des)) (loci_name l)); auto.
    2:{ intros a Ha. apply put_edges in Ha. apply Hnp. exists a. auto. }
    rewrite set_edges_id.
    assert (Cyc : forall b3 pas added, linked (put_node b l des) (loci_name l) pas added b3 ->
              (~ acyclic (dag b3) <-> exists p, In p pas /\ (p = loci_name l \/ path (dag b) (loci_name l) p))).
    { intros b3 pas added L. rewrite not_acyclic_cycle by apply (lk_wf _ _ _ _ _ L).
      apply (cycle_iff (dag b)); auto. intros x y. rewrite (lk_edges _ _ _ _ _ L), put_edges. tauto. }
    destruct (add_parents_spec (loci_parents l) (put_node b l des) (loci_name l) W1 N1)
      as [[b3 [ad [H1 L]]]|[p1 [pa [p2 [b3 [ad [H0 [H1 [L [H3 H4]]]]]]]]]].
    - unfold put_node, set_attrs. simpl. auto.
    - rewrite H1. destruct (check_acyclic (dag b3)) eqn:E.
      + apply check_acyclic_spec in E; [|apply (lk_wf _ _ _ _ _ L)].
        left. split.
        * intros C. apply (Cyc _ _ _ L) in C; auto.
        * exists b3. splits; auto. eapply linked_defined; eauto.
      + right. split.
        * apply (Cyc _ _ _ L). intros A'. apply check_acyclic_spec in A'; [congruence|apply (lk_wf _ _ _ _ _ L)].
        * eexists. split; [reflexivity|]. econstructor; eauto.
    - rewrite H1. right. split.
      + apply (Cyc _ _ _ L) in H4. destruct H4 as [p [Hp Hc]]. exists p. split; auto.
        rewrite H0, in_app_iff. auto.
      + exists b3. split; auto. eapply rc_stuck; eauto.
  Qed.

  Lemma has_parents_dec : forall b n, has_parents b n \/ ~ has_parents b n.
  Proof.
    intros b n. destruct (preds (dag b) n) as [|p ps] eqn:E.
    - right. intros [p Hp]. apply preds_In in Hp. rewrite E in Hp. auto.
    - left. exists p. apply preds_In. rewrite E. simpl; auto.
  Qed.

  Lemma append_loci_ok : forall b l des b', wf (dag b) -> acyclic (dag b) ->
    append_loci b l des = (Ok tt, b') ->
    b_frozen b = false /\ ~ has_parents b (loci_name l) /\ ~ closes_cycle b l
    /\ defined b l des b' /\ acyclic (dag b').
  Proof.
    intros b l des b' W A H.
    destruct (b_frozen b) eqn:F; [rewrite append_loci_frozen in H; auto; discriminate|].
    destruct (has_parents_dec b (loci_name l)) as [Hp|Hp].
    - rewrite append_loci_parents in H; auto. discriminate.
    - destruct (append_loci_root b l des W A F Hp) as [[Hc [b2 [H1 [H2 H3]]]]|[Hc [b2 [H1 H2]]]];
        rewrite H in H1; inversion H1; subst. auto 10.
  Qed.

  Lemma append_loci_coherent : forall b l des b', coherent b -> append_loci b l des = (Ok tt, b') -> coherent b'.
  Proof.
    intros b l des b' C H. destruct C as [W A Cn Cp].
    destruct (append_loci_ok _ _ _ _ W A H) as [F [Hp [Hc [D A']]]].
    constructor; auto.
    - apply (df_wf _ _ _ _ D).
    - intros n l' [a [Ha Hl]]. rewrite (df_attrs _ _ _ _ D) in Ha.
      destruct (String.eqb n (loci_name l)) eqn:E.
      + inversion Ha; subst. simpl. apply String.eqb_eq in E. auto.
      + destruct (dget (b_attrs b) n) as [a0|] eqn:E0.
        * inversion Ha; subst. apply Cn. exists a. auto.
        * destruct (mem n (loci_parents l)); inversion Ha; subst. auto.
    - intros n l' [a [Ha Hl]] p. rewrite (df_attrs _ _ _ _ D) in Ha. rewrite (df_edges _ _ _ _ D).
      destruct (String.eqb n (loci_name l)) eqn:E.
      + apply String.eqb_eq in E. inversion Ha; subst. simpl. split; auto.
        intros [H0|[_ H0]]; auto. exfalso. apply Hp. exists p. auto.
      + apply String.eqb_neq in E. destruct (dget (b_attrs b) n) as [a0|] eqn:E0.
        * inversion Ha; subst. rewrite <- (Cp n (a_loci a)) by (exists a; auto). tauto.
        * destruct (mem n (loci_parents l)); inversion Ha; subst. simpl. split; [|tauto].
          intros [H0|[H0 _]]; auto. apply dget_None in E0. apply E0.
          change (In n (gnodes (dag b))). eapply wf_dst; eauto.
  Qed.

  Lemma append_from_js_ok : forall b j b', append_from_js b j = (Ok tt, b') ->
    exists l, loci_from_json j = Ok l /\ append_loci b l (j_des j) = (Ok tt, b').
  Proof.
    intros b j b' H. unfold append_from_js in H. destruct (loci_from_json j) as [l|e]; [|discriminate]. eauto.
  Qed.
End ProofBN.
