(** * Histories of edits: everything that can be built is coherent and its views are fresh *)

Require Import Verif.Base Verif.World Verif.ModelGraph Verif.ModelExpr Verif.ModelLoci Verif.ModelBN
        Verif.Spec Verif.SpecBN Verif.SpecExpr Verif.ProofBase Verif.ProofGraph Verif.ProofExpr Verif.ProofBN
        Verif.ProofBNViews Verif.ProofBNCopy.

Section Hist.
  Context {w : world}.
  Implicit Types b : bn w.

  (** Networks obtained by successful calls, in any order and number. *)
  Inductive built : bn w -> Prop :=
  | bt_new : forall nm, built (bn_new nm)
  | bt_append : forall b l des b', built b -> append_loci b l des = (Ok tt, b') -> built b'
  | bt_js : forall b j b', built b -> append_from_js b j = (Ok tt, b') -> built b'
  | bt_complete : forall b b', built b -> complete b = (Ok tt, b') -> built b'
  | bt_defrost : forall b, built b -> built (defrost b)
  | bt_udf : forall b fn f b', built b -> add_user_defined_func b fn f = (Ok tt, b') -> built b'
  | bt_copy : forall b nm b', built b -> copy b nm = Ok b' -> built b'
  | bt_extend : forall b nb ov b', built b -> (forall n, nb = Some n -> built n) ->
      extend b nb ov = (Ok tt, b') -> built b'
  | bt_json : forall js b, bayes_net_from_json js = Ok b -> built b.

  Lemma append_all_js_coherent : forall js b b', coherent b -> append_all_js b js = (Ok tt, b') ->
    coherent b' /\ (b_frozen b = false -> b_frozen b' = false).
  Proof.
    induction js as [|j js IH]; intros b b' C H; simpl in H.
    - inversion H; subst. auto.
    - destruct (append_from_js b j) as [[[]|e] b1] eqn:E; [|discriminate].
      destruct (append_from_js_ok _ _ _ E) as [l [_ E2]].
      destruct (append_loci_ok _ _ _ _ (co_wf _ C) (co_acyclic _ C) E2) as [F [_ [_ [D _]]]].
      apply IH in H; [|eapply append_loci_coherent; eauto].
      destruct H as [H1 H2]. split; auto. intros _. apply H2. apply (df_frozen _ _ _ _ D).
  Qed.

  Lemma fresh_udf : forall b u, fresh b -> fresh (set_udf b u).
  Proof.
    intros b u H F. destruct (H F) as [c [Q1 [Q2 [Q3 [Q4 Q5]]]]]. exists c. splits; auto; try apply Q5.
    rewrite <- Q4. unfold find_rv_roots. change (dag (set_udf b u)) with (dag b).
    destruct (order (dag b)); auto. simpl. apply rv_roots_of_ext; auto.
  Qed.

  Lemma complete_coherent : forall b b', coherent b -> complete b = (Ok tt, b') -> coherent b' /\ fresh b'.
  Proof.
    intros b b' C H. destruct (complete_ok b C) as [b2 [K1 [K2 [K3 [K4 [K5 [K6 K7]]]]]]]. rewrite H in K1.
    inversion K1; subst b2. split; auto. apply (coherent_same b); auto.
    change (gedges (dag b') = gedges (dag b)). rewrite K4. auto.
  Qed.

  Lemma copy_coherent : forall b nm b', copy b nm = Ok b' -> coherent b' /\ fresh b'.
  Proof.
    intros b nm b' H. unfold copy in H. fold (copy_name b nm) in H. apply bind_ok in H. destruct H as [b1 [H1 H2]].
    inversion H2; subst.
    assert (G : coherent b1 /\ fresh b1).
    { destruct (b_frozen b).
      - destruct (b_cache b) as [c|]; [|discriminate].
        destruct (append_all_js (bn_new (copy_name b nm)) (bj_nodes (c_json c))) as [[[]|e] b2] eqn:E; [|discriminate].
        apply append_all_js_coherent in E; [|apply coherent_new].
        destruct (complete b2) as [[[]|e] b3] eqn:E3; [|discriminate]. inversion H1; subst.
        eapply complete_coherent; [apply E|eauto].
      - destruct (append_all_js (bn_new (copy_name b nm)) (js_nodes b)) as [[[]|e] b2] eqn:E; [|discriminate].
        inversion H1; subst. apply append_all_js_coherent in E; [|apply coherent_new].
        destruct E as [E1 E2]. split; auto. apply fresh_unfrozen; auto. }
    destruct G as [G1 G2]. split; [apply (coherent_same b1); auto|apply fresh_udf; auto].
  Qed.

  Lemma extend_loop_coherent : forall od (nb : bn w) ext ov b', coherent nb ->
    extend_loop nb od ext ov = (Ok tt, b') -> coherent b'.
  Proof.
    induction od as [|n od IH]; intros nb ext ov b' C H; cbn [extend_loop] in H.
    - inversion H; subst. auto.
    - destruct (ov || negb (mem n ext)).
      + destruct (append_loci nb (LExo n) None) as [[[]|e] nb1] eqn:E; [|discriminate].
        eapply IH; [|eauto]. eapply append_loci_coherent; eauto.
      + eapply IH; eauto.
  Qed.

  Lemma built_coherent : forall b, built b -> coherent b /\ fresh b.
  Proof.
    intros b H. induction H as [nm|b l des b' _ [C F] E|b j b' _ [C F] E|b b' _ [C F] E|b _ [C F]|b fn f b' _ [C F] E
                               |b nm b' _ _ E|b nb ov b' _ [C F] Hnb IHnb E|js b E].
    - split; [apply coherent_new|apply fresh_unfrozen; auto].
    - split; [eapply append_loci_coherent; eauto|].
      destruct (append_loci_ok _ _ _ _ (co_wf _ C) (co_acyclic _ C) E) as [_ [_ [_ [D _]]]].
      apply fresh_unfrozen. apply (df_frozen _ _ _ _ D).
    - destruct (append_from_js_ok _ _ _ E) as [l [_ E2]].
      split; [eapply append_loci_coherent; eauto|].
      destruct (append_loci_ok _ _ _ _ (co_wf _ C) (co_acyclic _ C) E2) as [_ [_ [_ [D _]]]].
      apply fresh_unfrozen. apply (df_frozen _ _ _ _ D).
    - eapply complete_coherent; eauto.
    - split; [apply defrost_coherent; auto|apply fresh_unfrozen; auto].
    - unfold add_user_defined_func in E. destruct (dmem fn (b_udf b)); inversion E; subst.
      split; [apply (coherent_same b); auto|apply fresh_udf; auto].
    - eapply copy_coherent; eauto.
    - unfold extend in E.
      assert (Cn : coherent match nb with None => bn_new (b_name b) | Some n => defrost n end).
      { destruct nb as [n|]; [|apply coherent_new]. apply defrost_coherent. apply (IHnb n); auto. }
      destruct (match nb with None => Ok [] | Some _ => _ end); [|discriminate].
      destruct (Order b); [|discriminate].
      destruct (extend_loop _ _ _ _) as [[[]|e] nb1] eqn:E1; [|discriminate].
      eapply complete_coherent; [|eauto]. eapply extend_loop_coherent; eauto.
    - unfold bayes_net_from_json in E.
      destruct (append_all_js (bn_new (bj_name js)) (bj_nodes js)) as [[[]|e] b2] eqn:E1; [|discriminate].
      apply append_all_js_coherent in E1; [|apply coherent_new].
      destruct (bj_order js), (bj_roots js), (bj_rvroots js), (bj_leaves js), (bj_exo js); inversion E; subst.
      split; [apply E1|]. apply fresh_unfrozen. apply E1. auto.
  Qed.

  (** user functions are a dict: no name twice *)
  Lemma append_loci_udf : forall b l des b', coherent b -> append_loci b l des = (Ok tt, b') -> b_udf b' = b_udf b.
  Proof.
    intros b l des b' C E. destruct (append_loci_ok _ _ _ _ (co_wf _ C) (co_acyclic _ C) E) as [_ [_ [_ [D _]]]].
    apply (df_udf _ _ _ _ D).
  Qed.
  Lemma append_all_js_udf : forall js b b', coherent b -> append_all_js b js = (Ok tt, b') -> b_udf b' = b_udf b.
  Proof.
    induction js as [|j js IH]; intros b b' C H; simpl in H.
    - inversion H; subst. auto.
    - destruct (append_from_js b j) as [[[]|e] b1] eqn:E; [|discriminate].
      destruct (append_from_js_ok _ _ _ E) as [l [_ E2]]. apply IH in H; [|eapply append_loci_coherent; eauto].
      rewrite H. eapply append_loci_udf; eauto.
  Qed.
  Lemma complete_udf : forall b r b', complete b = (r, b') -> b_udf b' = b_udf b.
  Proof.
    intros b r b' H. unfold complete in H. destruct (order (dag b)) as [od|e]; [destruct (rv_roots_of b od)|]; inversion H; subst; auto.
  Qed.
  Lemma extend_loop_udf : forall od (nb : bn w) ext ov b', coherent nb ->
    extend_loop nb od ext ov = (Ok tt, b') -> b_udf b' = b_udf nb.
  Proof.
    induction od as [|n od IH]; intros nb ext ov b' C H; cbn [extend_loop] in H.
    - inversion H; subst. auto.
    - destruct (ov || negb (mem n ext)); [|eapply IH; eauto].
      destruct (append_loci nb (LExo n) None) as [[[]|e] nb1] eqn:E; [|discriminate].
      apply IH in H; [|eapply append_loci_coherent; eauto]. rewrite H. eapply append_loci_udf; eauto.
  Qed.
  Lemma built_udf : forall b, built b -> NoDup (dkeys (b_udf b)).
  Proof.
    intros b H. induction H as [nm|b l des b' B N E|b j b' B N E|b b' B N E|b B N|b fn f b' B N E
                               |b nm b' B N E|b nb ov b' B N Hnb IHnb E|js b E].
    - constructor.
    - rewrite (append_loci_udf _ _ _ _ (proj1 (built_coherent _ B)) E). auto.
    - destruct (append_from_js_ok _ _ _ E) as [l [_ E2]].
      rewrite (append_loci_udf _ _ _ _ (proj1 (built_coherent _ B)) E2). auto.
    - rewrite (complete_udf _ _ _ E). auto.
    - auto.
    - unfold add_user_defined_func in E. destruct (dmem fn (b_udf b)); inversion E; subst. simpl. apply NoDup_dset; auto.
    - unfold copy in E. fold (copy_name b nm) in E. apply bind_ok in E. destruct E as [b1 [H1 H2]]. inversion H2; subst.
      simpl. apply NoDup_dupdate. destruct (b_frozen b).
      + destruct (b_cache b) as [c|]; [|discriminate].
        destruct (append_all_js (bn_new (copy_name b nm)) (bj_nodes (c_json c))) as [[[]|e] b2] eqn:E; [|discriminate].
        apply append_all_js_udf in E; [|apply coherent_new].
        destruct (complete b2) as [[[]|e] b3] eqn:E3; [|discriminate]. inversion H1; subst.
        rewrite (complete_udf _ _ _ E3), E. constructor.
      + destruct (append_all_js (bn_new (copy_name b nm)) (js_nodes b)) as [[[]|e] b2] eqn:E; [|discriminate].
        inversion H1; subst. apply append_all_js_udf in E; [|apply coherent_new]. rewrite E. constructor.
    - unfold extend in E.
      assert (Cn : coherent match nb with None => bn_new (b_name b) | Some n => defrost n end
                   /\ NoDup (dkeys (b_udf match nb with None => bn_new (b_name b) | Some n => defrost n end))).
      { destruct nb as [n|]; [|split; [apply coherent_new|constructor]].
        split; [apply defrost_coherent, built_coherent; auto|]. apply (IHnb n); auto. }
      destruct (match nb with None => Ok [] | Some _ => _ end); [|discriminate].
      destruct (Order b); [|discriminate].
      destruct (extend_loop _ _ _ _) as [[[]|e] nb1] eqn:E1; [|discriminate].
      apply extend_loop_udf in E1; [|apply Cn]. rewrite (complete_udf _ _ _ E), E1. apply Cn.
    - unfold bayes_net_from_json in E.
      destruct (append_all_js (bn_new (bj_name js)) (bj_nodes js)) as [[[]|e] b2] eqn:E1; [|discriminate].
      apply append_all_js_udf in E1; [|apply coherent_new].
      destruct (bj_order js), (bj_roots js), (bj_rvroots js), (bj_leaves js), (bj_exo js); inversion E; subst.
      rewrite E1. constructor.
  Qed.

  (** deciding facts about concrete networks *)
  Lemma node_dec_true : forall b n, mem n (dkeys (b_attrs b)) = true -> node b n.
  Proof. intros b n. apply mem_In. Qed.
  Lemma node_dec_false : forall b n, mem n (dkeys (b_attrs b)) = false -> ~ node b n.
  Proof. intros b n. apply mem_false. Qed.
  Lemma edge_dec_true : forall b x y,
    existsb (fun e => String.eqb x (fst e) && String.eqb y (snd e)) (b_edges b) = true -> edge (dag b) x y.
  Proof.
    intros b x y H. apply existsb_exists in H. destruct H as [[a c] [H1 H2]]. apply andb_true_iff in H2. simpl in H2.
    destruct H2 as [H2 H3]. apply String.eqb_eq in H2. apply String.eqb_eq in H3. subst. auto.
  Qed.
  Lemma no_parents_dec : forall b n, existsb (fun e => String.eqb n (snd e)) (b_edges b) = false -> ~ has_parents b n.
  Proof.
    intros b n H [p Hp]. assert (E : existsb (fun e => String.eqb n (snd e)) (b_edges b) = true); [|congruence].
    apply existsb_exists. exists (p, n). split; auto. apply String.eqb_refl.
  Qed.

  Lemma holds_dec_all : forall b (P : loci w -> Prop), Forall (fun p => P (a_loci (snd p))) (b_attrs b) ->
    forall n l, holds b n l -> P l.
  Proof.
    intros b P H n l [a [Ha <-]]. rewrite Forall_forall in H. apply dget_in_pair in Ha. apply (H _ Ha).
  Qed.

  (** shorthand for examples: append a list of definitions *)
  Fixpoint defs (b : bn w) (ls : list (loci w)) : bn w :=
    match ls with [] => b | l :: ls' => defs (snd (append_loci b l None)) ls' end.
  Fixpoint all_ok (b : bn w) (ls : list (loci w)) : bool :=
    match ls with
    | [] => true
    | l :: ls' => match append_loci b l None with (Ok _, b') => all_ok b' ls' | _ => false end
    end.
  Lemma defs_built : forall ls b, built b -> all_ok b ls = true -> built (defs b ls).
  Proof.
    induction ls as [|l ls IH]; intros b B H; simpl in *; auto.
    destruct (append_loci b l None) as [[[]|e] b'] eqn:E; [|discriminate]. simpl. apply IH; auto.
    eapply bt_append; eauto.
  Qed.
End Hist.
