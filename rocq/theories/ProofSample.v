(** * Lemmas on sampling (fn.py) *)

Require Import Verif.Base Verif.World Verif.ModelGraph Verif.ModelExpr Verif.ModelLoci Verif.ModelBN Verif.ModelSample
        Verif.Spec Verif.SpecBN Verif.SpecExpr Verif.SpecSample
        Verif.ProofBase Verif.ProofGraph Verif.ProofExpr Verif.ProofBN Verif.ProofBNViews.

Section ProofSample.
  Context {w : world}.
  Implicit Types b : bn w.

  (** ** run *)

  Lemma run_keys : forall b ns d r d2 r2, run b ns d r d2 r2 -> dkeys d2 = dkeys d ++ ns.
  Proof.
    intros b ns d r d2 r2 H. induction H as [|n l ns d r v r1 d2 r2 H1 H2 H3 H4 H5 IH].
    - rewrite app_nil_r. auto.
    - rewrite IH, dkeys_dset. unfold sadd. rewrite (proj2 (mem_false _ _) H2), <- app_assoc. auto.
  Qed.
  Lemma below_dset : forall (d : dict (V w)) n v, ~ In n (dkeys d) -> below (dget d) (dget (dset d n v)).
  Proof.
    intros d n v H x u Hx. rewrite dget_dset. destruct (String.eqb x n) eqn:E; auto.
    apply String.eqb_eq in E. subst. apply dget_None in H. congruence.
  Qed.
  Lemma below_trans : forall (a c d : env w), below a c -> below c d -> below a d.
  Proof. unfold below. auto. Qed.
  Lemma below_refl : forall (a : env w), below a a.
  Proof. unfold below. auto. Qed.
  Lemma run_below : forall b ns d r d2 r2, run b ns d r d2 r2 -> below (dget d) (dget d2).
  Proof.
    intros b ns d r d2 r2 H. induction H as [|n l ns d r v r1 d2 r2 H1 H2 H3 H4 H5 IH]; [apply below_refl|].
    eapply below_trans; [|apply IH]. apply below_dset; auto.
  Qed.
  Lemma in_keys_some : forall (d : dict (V w)) k, In k (dkeys d) -> dget d k <> None.
  Proof. intros d k H E. apply dget_None in E. auto. Qed.
  Lemma run_produced : forall b ns d r d2 r2, run b ns d r d2 r2 -> forall n, In n ns -> produced b (dget d2) n.
  Proof.
    intros b ns d r d2 r2 H. induction H as [|n l ns d r v r1 d2 r2 H1 H2 H3 H4 H5 IH]; intros m Hm; [destruct Hm|].
    destruct Hm as [<-|Hm]; auto.
    exists l, (dget d), r, v, r1. splits; auto.
    - eapply below_trans; [apply (below_dset d n v); auto|]. eapply run_below; eauto.
    - apply dget_None; auto.
    - intros p Hp. apply in_keys_some; auto.
    - apply (run_below _ _ _ _ _ _ H5). rewrite dget_dset, String.eqb_refl. auto.
  Qed.
  Lemma run_safe : forall (P : name -> V w -> Prop) (scope : name -> Prop) b ns d r d2 r2, run b ns d r d2 r2 ->
    (forall n, In n ns -> scope n /\ total_node P scope b n) -> (forall k v, dget d k = Some v -> scope k /\ P k v) ->
    forall k v, dget d2 k = Some v -> scope k /\ P k v.
  Proof.
    intros P scope b ns d r d2 r2 H. induction H as [|n l ns d r v r1 d2 r2 H1 H2 H3 H4 H5 IH]; intros Ht Hd; auto.
    apply IH; [intros; apply Ht; simpl; auto|]. intros k u K. rewrite dget_dset in K.
    destruct (String.eqb_spec k n) as [->|]; [|apply Hd; auto]. injection K as <-.
    destruct (Ht n (or_introl eq_refl)) as [Hs T]. split; auto.
    destruct (T l (dget d) r) as (v' & r' & T1 & T2); auto; [|congruence].
    intros p Hp. apply in_keys_some. auto.
  Qed.
  Lemma run_det : forall b ns d r d2 r2 d3 r3, run b ns d r d2 r2 -> run b ns d r d3 r3 -> d2 = d3 /\ r2 = r3.
  Proof.
    intros b ns d r d2 r2 d3 r3 H. revert d3 r3.
    induction H as [|n l ns d r v r1 d2 r2 H1 H2 H3 H4 H5 IH]; intros d3 r3 K; inversion K; subst; auto.
    match goal with Hh : holds b n ?l0 |- _ => rewrite (holds_fun _ _ _ _ H1 Hh) in * end.
    match goal with Hr : render _ _ _ = Ok (?v0, ?r0) |- _ => rewrite H4 in Hr; inversion Hr; subst end. auto.
  Qed.

  (** ** the loop *)

  Definition todo (sel : name -> bool) (d : dict (V w)) (od : list name) : list name :=
    filter (fun n => sel n && negb (dmem n d)) od.
  Definition ready b (sel : name -> bool) (od : list name) (d : dict (V w)) : Prop :=
    NoDup od /\ (forall n, In n od -> node b n)
    /\ forall n p, In n od -> sel n = true -> ~ In n (dkeys d) -> edge (dag b) p n ->
         In p (dkeys d) \/ (sel p = true /\ before od p n).

  Lemma dmem_false : forall (d : dict (V w)) k, dmem k d = false <-> ~ In k (dkeys d).
  Proof. intros d k. rewrite <- dmem_In. destruct (dmem k d); split; congruence. Qed.

  Lemma todo_cons : forall sel n od d v, ~ In n od -> todo sel (dset d n v) od = todo sel d od.
  Proof.
    intros sel n od d v Hn. unfold todo. apply filter_ext_in. intros x Hx. f_equal. f_equal.
    unfold dmem. rewrite dget_dset. destruct (String.eqb x n) eqn:E; auto.
    apply String.eqb_eq in E. subst. destruct (Hn Hx).
  Qed.

  Lemma ready_skip : forall b sel n od d, ready b sel (n :: od) d -> sel n && negb (dmem n d) = false -> ready b sel od d.
  Proof.
    intros b sel n od d [H1 [H2 H3]] E. inversion H1 as [|? ? Hn Hod]; subst. unfold ready. splits; auto.
    - intros x Hx. apply H2. simpl. auto.
    - intros x p Hx Hs Hd He. destruct (H3 x p) as [K|[K1 K2]]; simpl; auto.
      apply before_cons in K2. destruct K2 as [[<- _]|K2]; auto.
      rewrite K1 in E. simpl in E. apply negb_false_iff, dmem_In in E. auto.
  Qed.
  Lemma ready_step : forall b sel n od d v, ready b sel (n :: od) d -> ready b sel od (dset d n v).
  Proof.
    intros b sel n od d v [H1 [H2 H3]]. inversion H1 as [|? ? Hn Hod]; subst. unfold ready. splits; auto.
    - intros x Hx. apply H2. simpl. auto.
    - intros x p Hx Hs Hd He. rewrite dkeys_dset in *. rewrite sadd_In in Hd. rewrite sadd_In.
      destruct (H3 x p) as [K|[K1 K2]]; simpl; auto.
      apply before_cons in K2. destruct K2 as [[<- _]|K2]; auto.
  Qed.
  Lemma ready_parents : forall b sel n od d l, coherent b -> ready b sel (n :: od) d ->
    sel n && negb (dmem n d) = true -> holds b n l -> forall p, In p (loci_parents l) -> In p (dkeys d).
  Proof.
    intros b sel n od d l C [H1 [H2 H3]] E Hl p Hp. apply andb_true_iff in E. destruct E as [E1 E2].
    apply negb_true_iff, dmem_false in E2.
    destruct (H3 n p) as [K|[_ K]]; simpl; auto.
    - apply (co_parents _ C _ _ Hl); auto.
    - exfalso. inversion H1 as [|? ? Hn Hod]; subst. apply before_cons in K. destruct K as [[_ K]|K]; auto.
      apply before_In in K. tauto.
  Qed.

  Lemma sample_loop_run : forall b sel, coherent b -> forall od d r, ready b sel od d ->
    match sample_loop b sel od d r with
    | (Ok _, d2, r2) => run b (todo sel d od) d r d2 r2
    | (Err e, d1, r1) => exists ns n l rest, todo sel d od = ns ++ n :: rest /\ run b ns d r d1 r1 /\ holds b n l
        /\ (forall p, In p (loci_parents l) -> In p (dkeys d1)) /\ render l (dget d1) r1 = Err e
    end.
  Proof.
    intros b sel C. induction od as [|n od IH]; intros d r R; cbn [sample_loop]; [constructor|].
    destruct (sel n && negb (dmem n d)) eqn:E.
    - assert (Hn : node b n) by (apply R; simpl; auto). destruct (node_holds _ _ Hn) as [l Hl].
      unfold node_render. rewrite (proj2 (bget_holds b n l) Hl). simpl.
      pose proof (ready_parents _ _ _ _ _ _ C R E Hl) as Hp.
      destruct (render l (dget d) r) as [[v r1]|e] eqn:Er.
      + pose proof (ready_step _ _ _ _ _ v R) as R2. specialize (IH _ r1 R2).
        assert (Hno : ~ In n od) by (destruct R as [R _]; inversion R; auto).
        rewrite (todo_cons sel n od d v Hno) in IH.
        assert (Hd : ~ In n (dkeys d)).
        { apply andb_true_iff in E. destruct E as [_ E2]. apply negb_true_iff, dmem_false in E2. auto. }
        destruct (sample_loop b sel od (dset d n v) r1) as [[[[]|e] d2] r2].
        * unfold todo in *. simpl. rewrite E. econstructor; eauto.
        * destruct IH as [ns [m [l' [rest [I1 [I2 [I3 [I4 I5]]]]]]]]. exists (n :: ns), m, l', rest. splits; auto.
          -- unfold todo in *. simpl. rewrite E. simpl. f_equal. exact I1.
          -- econstructor; eauto.
      + exists [], n, l. eexists. splits; eauto; [unfold todo; simpl; rewrite E; reflexivity|constructor].
    - specialize (IH d r (ready_skip _ _ _ _ _ R E)). unfold todo in *. simpl. rewrite E. exact IH.
  Qed.

  (** ** sample *)

  Lemma order_ready : forall b od d sel, coherent b -> order (dag b) = Ok od ->
    (forall n p, sel n = true -> ~ In n (dkeys d) -> edge (dag b) p n -> sel p = true) -> ready b sel od d.
  Proof.
    intros b od d sel C Ho Hs. destruct (order_ok (dag b) od (co_wf _ C) Ho) as [A [Hn [Hi Ht]]]. unfold ready. splits; auto.
    - intros n H. apply Hi in H. exact H.
    - intros n p H1 H2 H3 H4. right. split; [eauto|]. apply (topo_prefix_before (dag b)); auto.
  Qed.

  Lemma exo_missing : forall b cond, coherent b ->
    existsb (fun n => negb (dmem n cond)) (find_exo b) = true <->
    exists n, holds b n (LExo n) /\ ~ In n (dkeys (V:=V w) cond).
  Proof.
    intros b cond C. rewrite existsb_exists. destruct (find_exo_spec b C) as [_ Hx]. split.
    - intros [n [H1 H2]]. apply Hx in H1. destruct H1 as [l [Hl He]]. exists n. apply negb_true_iff, dmem_false in H2.
      split; auto. destruct l; try discriminate. pose proof (co_name _ C _ _ Hl) as E'. simpl in E'. subst. auto.
    - intros [n [H1 H2]]. exists n. split; [apply Hx; eauto|]. apply negb_true_iff, dmem_false. auto.
  Qed.

  Lemma sample_exo_missing : forall b cond r, coherent b -> fresh b ->
    (exists n, holds b n (LExo n) /\ ~ In n (dkeys cond)) -> sample b cond r = (Err ValueError, r).
  Proof.
    intros b cond r C F H. unfold sample. destruct (fresh_views b F) as [_ [_ [_ [_ ->]]]].
    rewrite (proj2 (exo_missing b cond C) H). auto.
  Qed.

  Lemma not_true_false : forall (t : bool), ~ t = true -> t = false.
  Proof. intros []; congruence. Qed.

  Lemma sample_run : forall b cond r, coherent b -> fresh b ->
    (forall n, holds b n (LExo n) -> In n (dkeys cond)) ->
    exists ns, topo (dag b) ns (fun n => node b n /\ ~ In n (dkeys cond)) /\
    match sample b cond r with
    | (Ok d2, r2) => run b ns cond r d2 r2
    | (Err e, r1) => exists ns1 n l rest d1, ns = ns1 ++ n :: rest /\ run b ns1 cond r d1 r1 /\ holds b n l
        /\ (forall p, In p (loci_parents l) -> In p (dkeys d1)) /\ render l (dget d1) r1 = Err e
    end.
  Proof.
    intros b cond r C F H. unfold sample. destruct (fresh_views b F) as [-> [_ [_ [_ ->]]]].
    rewrite (not_true_false _ (fun E => match proj1 (exo_missing b cond C) E with
       | ex_intro _ n (conj H1 H2) => H2 (H n H1) end)).
    destruct (order_total (dag b) (co_wf _ C) (co_acyclic _ C)) as [od Ho]. rewrite Ho.
    exists (todo (fun _ => true) cond od). split.
    - destruct (order_topo (dag b) od (co_wf _ C) Ho) as [[T1 T2] T3]. split; [split|].
      + apply NoDup_filter; auto.
      + intros x. unfold todo. rewrite filter_In, T2. simpl. rewrite negb_true_iff, dmem_false. reflexivity.
      + intros x y He Hx Hy. unfold todo in *. apply filter_In in Hx. apply filter_In in Hy.
        apply before_filter. splits; try tauto. apply T3; tauto.
    - pose proof (sample_loop_run b (fun _ => true) C od cond r) as L.
      destruct (sample_loop b (fun _ => true) od cond r) as [[[[]|e] d2] r2].
      + apply L. apply order_ready; auto.
      + destruct L as [ns [n [l [rest L]]]]; [apply order_ready; auto|]. exists ns, n, l, rest, d2. auto.
  Qed.

  (** ** produced values against the final assignment *)

  Lemma below_agree : forall (rho d : env w) x, below rho d -> rho x <> None -> rho x = d x.
  Proof. intros rho d x H Hx. destruct (rho x) as [v|] eqn:E; [|congruence]. symmetry. auto. Qed.

  Lemma produced_func : forall b d n e ps, produced b d n -> holds b n (LFunc n e ps) ->
    (forall p, In p ps -> d p <> None) /\
    exists v, execute e (fun x => if mem x ps then d x else None) = Ok v /\ d n = Some v.
  Proof.
    intros b d n e ps [l [rho [r1 [v [r2 [H1 [H2 [H3 [H4 [H5 H6]]]]]]]]]] Hl.
    rewrite (holds_fun _ _ _ _ H1 Hl) in *. simpl in H4.
    assert (Hp : forall p, In p ps -> rho p = d p) by (intros p Hp; apply below_agree; auto).
    split. { intros p Hp'. rewrite <- Hp; auto. }
    exists v. split; auto. simpl in H5. destruct (restrict_ok rho ps H4) as [dd [Ed Hd]]. rewrite Ed in H5.
    assert (Ee : execute e (fun x => if mem x ps then d x else None) = execute e (dget dd)).
    { apply eval_agree. intros x _. rewrite Hd. destruct (mem x ps) eqn:E; auto. apply mem_In in E. symmetry. auto. }
    rewrite Ee. destruct (execute e (dget dd)) as [v'|[]]; inversion H5; subst; auto.
  Qed.

  Lemma produced_dist : forall b d n f ps, produced b d n -> holds b n (LDist n f ps) ->
    (forall c x, @complete_def w f = Ok c -> mentions c x \/ calls c x -> In x ps \/ d x = None) ->
    exists D r1 v r2, get_distribution f d = Ok D /\ w_sample w D r1 = (v, r2) /\ d n = Some v.
  Proof.
    intros b d n f ps [l [rho [r1 [v [r2 [H1 [H2 [H3 [H4 [H5 H6]]]]]]]]]] Hl Hy.
    rewrite (holds_fun _ _ _ _ H1 Hl) in *. simpl in H4, H5.
    assert (Ea : get_distribution f rho = get_distribution f d).
    { apply get_distribution_agree. intros c x Hc Hx. destruct (Hy c x Hc Hx) as [Hp|Hp].
      - apply below_agree; auto.
      - destruct (rho x) as [u|] eqn:E; auto. apply H2 in E. congruence. }
    rewrite <- Ea. destruct (get_distribution f rho) as [D|e]; simpl in H5; [|discriminate].
    exists D, r1, v, r2. inversion H5; subst. auto.
  Qed.

  Lemma produced_value : forall b d n v, produced b d n -> holds b n (LValue n v) -> d n = Some v.
  Proof.
    intros b d n v [l [rho [r1 [u [r2 [H1 [H2 [H3 [H4 [H5 H6]]]]]]]]]] Hl.
    rewrite (holds_fun _ _ _ _ H1 Hl) in *. simpl in H5. inversion H5; subst. auto.
  Qed.
  Lemma produced_not_exo : forall b d n, produced b d n -> ~ holds b n (LExo n).
  Proof.
    intros b d n [l [rho [r1 [u [r2 [H1 [H2 [H3 [H4 [H5 H6]]]]]]]]]] Hl.
    rewrite (holds_fun _ _ _ _ H1 Hl) in *. simpl in H5. rewrite H3 in H5. discriminate.
  Qed.
  Lemma produced_not_pseudo : forall b d n ps, produced b d n -> ~ holds b n (LPseudo n ps).
  Proof.
    intros b d n ps [l [rho [r1 [u [r2 [H1 [H2 [H3 [H4 [H5 H6]]]]]]]]]] Hl.
    rewrite (holds_fun _ _ _ _ H1 Hl) in *. discriminate.
  Qed.

  (** ** sample_minimally *)

  Lemma minimally_run : forall b included cond r, coherent b -> fresh b ->
    incl included (dkeys (b_attrs b)) -> incl (dkeys cond) (dkeys (b_attrs b)) -> included <> [] ->
    (forall n, holds b n (LExo n) -> needed (dag b) included (dkeys cond) n -> In n (dkeys cond)) ->
    exists ns, topo (dag b) ns (fun n => needed (dag b) included (dkeys cond) n /\ ~ In n (dkeys cond)) /\
    match sample_minimally b included cond r with
    | (Ok (si, me), r2) => exists d2, run b ns cond r d2 r2
        /\ si = dfilter (fun k => mem k included) d2 /\ me = dfilter (fun k => negb (mem k included)) d2
    | (Err e, r1) => exists ns1 n l rest d1, ns = ns1 ++ n :: rest /\ run b ns1 cond r d1 r1 /\ holds b n l
        /\ (forall p, In p (loci_parents l) -> In p (dkeys d1)) /\ render l (dget d1) r1 = Err e
    end.
  Proof.
    intros b included cond r C F Hi Hg Hne H. unfold sample_minimally.
    destruct (get_sufficient_nodes_spec (dag b) included (dkeys cond) (co_wf _ C) Hi Hg Hne) as [suf [Es [Sn Ss]]].
    rewrite Es. destruct (fresh_views b F) as [-> [_ [_ [_ ->]]]].
    assert (Ex : existsb (fun n => mem n suf && negb (dmem n cond)) (find_exo b) = false).
    { apply not_true_false. intros E. apply existsb_exists in E. destruct E as [n [E1 E2]].
      apply andb_true_iff in E2. destruct E2 as [E2 E3]. apply mem_In, Ss in E2. apply negb_true_iff, dmem_false in E3.
      destruct (find_exo_spec b C) as [_ Hx]. apply Hx in E1. destruct E1 as [l [Hl He]]. apply E3. apply H; auto.
      destruct l; try discriminate. pose proof (co_name _ C _ _ Hl) as E'. simpl in E'. subst. auto. }
    rewrite Ex. destruct (order_total (dag b) (co_wf _ C) (co_acyclic _ C)) as [od Ho]. rewrite Ho.
    exists (todo (fun n => mem n suf) cond od). split.
    - destruct (order_topo (dag b) od (co_wf _ C) Ho) as [[T1 T2] T3]. split; [split|].
      + apply NoDup_filter; auto.
      + intros x. unfold todo. rewrite filter_In, T2, andb_true_iff, mem_In, Ss, negb_true_iff, dmem_false.
        split; [tauto|]. intros [K1 K2]. splits; auto.
        clear - K1 C Hi. induction K1 as [x Hx|x p Hx IH Hn He].
        * apply Hi; auto.
        * apply (wf_src _ (co_wf _ C) _ _ He).
      + intros x y He Hx Hy. unfold todo in *. apply filter_In in Hx. apply filter_In in Hy.
        apply before_filter. splits; try tauto. apply T3; tauto.
    - assert (R : ready b (fun n => mem n suf) od cond).
      { apply order_ready; auto. intros n p E1 E2 E3. apply mem_In in E1. apply Ss in E1. apply mem_In, Ss.
        eapply need_par; eauto. }
      pose proof (sample_loop_run b (fun n => mem n suf) C od cond r R) as L.
      destruct (sample_loop b (fun n => mem n suf) od cond r) as [[[[]|e] d2] r2].
      + exists d2. auto.
      + destruct L as [ns [n [l [rest L]]]]. exists ns, n, l, rest, d2. auto.
  Qed.
End ProofSample.
