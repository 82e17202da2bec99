(** * Properties C25-C29: sampling and evaluation (fn.py) *)

Require Import Verif.Base Verif.World Verif.ModelGraph Verif.ModelExpr Verif.ModelLoci Verif.ModelBN Verif.ModelSample
        Verif.Spec Verif.SpecBN Verif.SpecExpr Verif.SpecSample
        Verif.ProofBase Verif.ProofGraph Verif.ProofExpr Verif.ProofBN Verif.ProofBNViews Verif.ProofBNHist Verif.ProofSample
        Verif.ExWorld Verif.PropsBN.
Require Import Coq.ZArith.ZArith.

Definition excond : dict pv := [("a", PZ 1); ("s", PZ 2); ("other", PZ 7)].

(** ** C25 *)

(** Exactly the nodes that are not given are computed, each once and in topological order, from
    the given values and the values computed before. *)
Theorem C25_sample_run : forall w (b : bn w) cond r d r', built b -> sample b cond r = (Ok d, r') ->
  exists ns, topo (dag b) ns (fun n => node b n /\ ~ In n (dkeys cond)) /\ run b ns cond r d r'.
Proof.
  intros w b cond r d r' B H. destruct (built_coherent b B) as [C F].
  assert (Hx : forall n, holds b n (LExo n) -> In n (dkeys cond)).
  { intros n Hn. destruct (In_dec_name n (dkeys cond)); auto.
    rewrite sample_exo_missing in H; auto; [discriminate|]. eauto. }
  destruct (sample_run b cond r C F Hx) as [ns [T R]]. rewrite H in R. eauto.
Qed.
Print Assumptions C25_sample_run.

Theorem C25_complete : forall w (b : bn w) cond r d r', built b -> sample b cond r = (Ok d, r') ->
  (forall k, In k (dkeys d) <-> node b k \/ In k (dkeys cond))
  /\ (forall k v, dget cond k = Some v -> dget d k = Some v)
  /\ (forall n, node b n -> ~ In n (dkeys cond) -> produced b (dget d) n).
Proof.
  intros w b cond r d r' B H. destruct (C25_sample_run w b cond r d r' B H) as [ns [[[T1 T2] T3] R]]. splits.
  - intros k. rewrite (run_keys _ _ _ _ _ _ R), in_app_iff, T2. destruct (In_dec_name k (dkeys cond)); tauto.
  - apply (run_below _ _ _ _ _ _ R).
  - intros n H1 H2. eapply run_produced; eauto. apply T2. auto.
Qed.
Print Assumptions C25_complete.

(** Constants and functions in terms of the returned values. *)
Theorem C25_values : forall w (b : bn w) cond r d r' n v, built b -> sample b cond r = (Ok d, r') ->
  holds b n (LValue n v) -> ~ In n (dkeys cond) -> dget d n = Some v.
Proof.
  intros w b cond r d r' n v B H Hn Hc. eapply produced_value; eauto.
  apply (C25_complete w b cond r d r' B H); auto. eapply holds_node; eauto.
Qed.
Print Assumptions C25_values.

Theorem C25_functions : forall w (b : bn w) cond r d r' n, built b -> sample b cond r = (Ok d, r') ->
  ~ In n (dkeys cond) -> consistent b (dget d) n.
Proof.
  intros w b cond r d r' n B H Hc e ps Hn. eapply produced_func; eauto.
  apply (C25_complete w b cond r d r' B H); auto. eapply holds_node; eauto.
Qed.
Print Assumptions C25_functions.

(** A distribution node is a draw from the distribution its definition describes with the
    returned values, provided no returned value bears the name of a distribution it calls. *)
Theorem C25_distributions : forall w (b : bn w) cond r d r' n f ps, built b -> sample b cond r = (Ok d, r') ->
  holds b n (LDist n f ps) -> ~ In n (dkeys cond) ->
  (forall c x, @complete_def w f = Ok c -> mentions c x \/ calls c x -> In x ps \/ ~ In x (dkeys d)) ->
  exists D r1 v r2, get_distribution f (dget d) = Ok D /\ w_sample w D r1 = (v, r2) /\ dget d n = Some v.
Proof.
  intros w b cond r d r' n f ps B H Hn Hc Hy. eapply produced_dist; eauto.
  - apply (C25_complete w b cond r d r' B H); auto. eapply holds_node; eauto.
  - intros c x H1 H2. destruct (Hy c x H1 H2) as [K|K]; auto. right. apply dget_None. auto.
Qed.
Print Assumptions C25_distributions.

(** Sampling succeeds if every definition can be evaluated whenever its parents are known, only
    names that are nodes or given are known and their values are as P says (numbers, for example),
    and gives such a value itself; then all values returned are as P says. *)
Theorem C25_succeeds : forall w (b : bn w) cond r (P : name -> V w -> Prop), built b ->
  (forall n, holds b n (LExo n) -> In n (dkeys cond)) ->
  (forall k v, dget cond k = Some v -> P k v) ->
  (forall n, node b n -> ~ In n (dkeys cond) -> total_node P (fun k => node b k \/ In k (dkeys cond)) b n) ->
  exists d r', sample b cond r = (Ok d, r') /\ forall k v, dget d k = Some v -> P k v.
Proof.
  intros w b cond r P B Hx Hc Ht. destruct (built_coherent b B) as [C F].
  set (scope := fun k => node b k \/ In k (dkeys cond)) in *.
  assert (Hd : forall k v, dget cond k = Some v -> scope k /\ P k v).
  { intros k v K. split; [right; eapply dget_In; eauto|auto]. }
  destruct (sample_run b cond r C F Hx) as [ns [[[T1 T2] T3] R]].
  assert (Hs : forall n, In n ns -> scope n /\ total_node P scope b n).
  { intros n K. apply T2 in K. split; [left; tauto|apply Ht; tauto]. }
  destruct (sample b cond r) as [[d|e] r'] eqn:E.
  - exists d, r'. split; auto. intros k v K. apply (run_safe P scope b ns cond r d r' R Hs Hd k v K).
  - exfalso. destruct R as [ns1 [n [l [rest [d1 [-> [R1 [R2 [R3 R4]]]]]]]]].
    destruct (Hs n) as [Hn Hl]; [apply in_app_iff; simpl; auto|].
    destruct (Hl l (dget d1) r' R2) as [v [r2 [K _]]]; [| |congruence].
    + apply (run_safe P scope b ns1 cond r d1 r' R1); auto. intros k K. apply Hs. apply in_app_iff. auto.
    + intros p Hp. apply in_keys_some; auto.
Qed.
Print Assumptions C25_succeeds.

(** A node is never evaluated before its parents: every failure is that of one definition with
    all its parents known; the generator is where the nodes before have left it. *)
Theorem C25_failure : forall w (b : bn w) cond r e r', built b ->
  (forall n, holds b n (LExo n) -> In n (dkeys cond)) -> sample b cond r = (Err e, r') ->
  exists ns n l d1, run b ns cond r d1 r' /\ holds b n l /\ ~ In n (dkeys d1)
    /\ (forall p, In p (loci_parents l) -> In p (dkeys d1)) /\ render l (dget d1) r' = Err e.
Proof.
  intros w b cond r e r' B Hx H. destruct (built_coherent b B) as [C F].
  destruct (sample_run b cond r C F Hx) as [ns [[[T1 T2] T3] R]]. rewrite H in R.
  destruct R as [ns1 [n [l [rest [d1 [-> [R1 [R2 [R3 R4]]]]]]]]]. exists ns1, n, l, d1. splits; auto.
  rewrite (run_keys _ _ _ _ _ _ R1), in_app_iff. intros [K|K].
  - assert (Hn : node b n /\ ~ In n (dkeys cond)) by (apply T2; apply in_app_iff; simpl; auto). tauto.
  - apply NoDup_app_elim in T1. destruct T1 as [_ [_ T1]]. apply (T1 n K). simpl. auto.
Qed.
Print Assumptions C25_failure.

(** A pseudo node that is not given always makes sampling fail. *)
Theorem C25_pseudo_fails : forall w (b : bn w) cond r n ps, built b -> holds b n (LPseudo n ps) ->
  ~ In n (dkeys cond) -> forall d r', sample b cond r <> (Ok d, r').
Proof.
  intros w b cond r n ps B Hn Hc d r' H. eapply produced_not_pseudo; eauto.
  apply (C25_complete w b cond r d r' B H); auto. eapply holds_node; eauto.
Qed.
Print Assumptions C25_pseudo_fails.

Example C25_example : built exnet
  /\ sample exnet excond 5
     = (Ok [("a", PZ 1); ("s", PZ 2); ("other", PZ 7); ("k", PZ 2); ("x", PZ 6); ("y", PZ 8); ("z", PZ 256)], 6).
Proof. split; [apply exnet_built|vm_compute; reflexivity]. Qed.

(** the hypotheses of C25_distributions hold for x ~ norm(a, s) in this sample *)
Example C25_example_dist :
  holds exnet "x" lx /\ exists f ps, lx = LDist "x" f ps /\ @complete_def exw f = Ok f
   /\ (forall c x, @complete_def exw f = Ok c -> mentions c x \/ calls c x ->
        In x ps \/ ~ In x ["a"; "s"; "other"; "k"; "x"; "y"; "z"]).
Proof.
  split; [eexists; split; reflexivity|]. eexists _, _. splits; [reflexivity|reflexivity|].
  intros c x Hc Hx. inversion Hc; subst c. rewrite <- enames_spec in Hx. simpl in Hx.
  destruct Hx as [<-|[<-|[<-|[]]]]; simpl; auto; right; intuition discriminate.
Qed.

(** the hypotheses of C25_succeeds hold for exnet, with integers as values and s positive *)
Definition ex_safe (k : name) (v : V exw) : Prop := exists z, v = PZ z /\ (k = "s" -> (0 < z)%Z).
Example C25_example_safe : (forall n, holds exnet n (LExo n) -> In n (dkeys excond))
  /\ (forall k v, dget excond k = Some v -> ex_safe k v)
  /\ (forall n, node exnet n -> ~ In n (dkeys excond) -> total_node ex_safe (fun k => node exnet k \/ In k (dkeys excond)) exnet n).
Proof.
  splits.
  - intros n (a & H1 & H2). simpl in H1. repeat (match type of H1 with context[String.eqb n ?q] => destruct (String.eqb_spec n q) as [->|] end; [injection H1 as <-; simpl in H2; try discriminate H2; simpl; auto|]). discriminate.
  - intros k v H. simpl in H. unfold ex_safe.
    repeat (match type of H with context[String.eqb k ?q] => destruct (String.eqb_spec k q) as [->|] end; [injection H as <-; eexists; split; [reflexivity|first [intros _; reflexivity|intros Q; discriminate Q]]|]). discriminate.
  - intros n Hn Nn l rho r (a & H1 & H2) Hs Hp.
    assert (Val : forall p, In p (loci_parents l) -> exists z, rho p = Some (PZ z) /\ (p = "s" -> (0 < z)%Z)).
    { intros p K. specialize (Hp p K). destruct (rho p) as [v|] eqn:E; [|congruence]. destruct (Hs p v E) as [_ (z & -> & Z)]. eauto. }
    assert (Nnorm : rho "norm" = None).
    { destruct (rho "norm") as [v|] eqn:E; auto. destruct (Hs _ _ E) as [K _]. exfalso. unfold node in K. simpl in K. intuition discriminate. }
    assert (Nexp : rho "exp" = None).
    { destruct (rho "exp") as [v|] eqn:E; auto. destruct (Hs _ _ E) as [K _]. exfalso. unfold node in K. simpl in K. intuition discriminate. }
    simpl in H1. repeat (match type of H1 with context[String.eqb n ?q] => destruct (String.eqb_spec n q) as [->|] end; [injection H1 as <-; simpl in H2; subst l|]); try discriminate H1; try (exfalso; apply Nn; simpl; tauto).
    + destruct (Val "a") as (za & Ea & _); [simpl; auto|]. destruct (Val "s") as (zs & Es & Zs); [simpl; auto|].
      unfold render, get_distribution, parse_distribution. simpl. unfold get_blueprint, complete_def, lookup. simpl. unfold lookup. simpl. rewrite Ea, Es, Nnorm. simpl.
      destruct (Z.leb_spec zs 0); [specialize (Zs eq_refl); lia|]. simpl. do 2 eexists. split; [reflexivity|]. eexists. split; [reflexivity|discriminate].
    + do 2 eexists. split; [reflexivity|]. eexists. split; [reflexivity|discriminate].
    + destruct (Val "x") as (za & Ea & _); [simpl; auto|]. destruct (Val "k") as (zs & Es & _); [simpl; auto|].
      unfold render. simpl. rewrite Ea, Es. simpl. do 2 eexists. split; [reflexivity|]. eexists. split; [reflexivity|discriminate].
    + destruct (Val "y") as (za & Ea & _); [simpl; auto|]. destruct (Val "a") as (zs & Es & _); [simpl; auto|].
      unfold render. simpl. rewrite Ea, Es. simpl. do 2 eexists. split; [reflexivity|]. eexists. split; [reflexivity|discriminate].
Qed.

(** ** C26 *)

Theorem C26_missing_exo : forall w (b : bn w) cond r, built b ->
  (exists n, holds b n (LExo n) /\ ~ In n (dkeys cond)) -> sample b cond r = (Err ValueError, r).
Proof. intros w b cond r B H. destruct (built_coherent b B). apply sample_exo_missing; auto. Qed.
Print Assumptions C26_missing_exo.

(** ... and only then is ValueError raised, if no definition raises one itself. *)
Theorem C26_only_if : forall w (b : bn w) cond r r', built b ->
  (forall n l rho r0, holds b n l -> render l rho r0 <> Err ValueError) ->
  sample b cond r = (Err ValueError, r') -> exists n, holds b n (LExo n) /\ ~ In n (dkeys cond).
Proof.
  intros w b cond r r' B Hr H. destruct (built_coherent b B) as [C F].
  destruct (existsb (fun n => negb (dmem n cond)) (find_exo b)) eqn:E.
  - apply exo_missing; auto.
  - exfalso. assert (Hx : forall n, holds b n (LExo n) -> In n (dkeys cond)).
    { intros n Hn. destruct (In_dec_name n (dkeys cond)); auto.
      rewrite (proj2 (exo_missing b cond C)) in E; [discriminate|eauto]. }
    destruct (C25_failure w b cond r ValueError r' B Hx H) as [ns [n [l [d1 [_ [H1 [_ [_ H2]]]]]]]].
    apply (Hr n l _ _ H1 H2).
Qed.
Print Assumptions C26_only_if.

Example C26_example : built exnet /\ holds exnet "s" (LExo "s") /\ sample exnet [("a", PZ 1)] 5 = (Err ValueError, 5).
Proof. split; [apply exnet_built|]. split; [eexists; split; reflexivity|vm_compute; reflexivity]. Qed.

(** ** C27 *)

Theorem C27_minimal : forall w (b : bn w) included cond r si me r', built b ->
  sample_minimally b included cond r = (Ok (si, me), r') ->
  exists ns d, topo (dag b) ns (fun n => needed (dag b) included (dkeys cond) n /\ ~ In n (dkeys cond))
    /\ run b ns cond r d r'
    /\ (forall n, In n included -> In n (dkeys d))
    /\ (forall k v, dget si k = Some v <-> dget d k = Some v /\ In k included)
    /\ (forall k v, dget me k = Some v <-> dget d k = Some v /\ ~ In k included)
    /\ (forall n, holds b n (LExo n) -> needed (dag b) included (dkeys cond) n -> In n (dkeys cond)).
Proof.
  intros w b included cond r si me r' B H. destruct (built_coherent b B) as [C F].
  assert (Hs : exists suf, get_sufficient_nodes (dag b) included (dkeys cond) = Ok suf).
  { unfold sample_minimally in H. destruct (get_sufficient_nodes (dag b) included (dkeys cond)); eauto. discriminate. }
  destruct Hs as [suf Es]. destruct (get_sufficient_nodes_ok (dag b) included (dkeys cond) suf (co_wf _ C) Es) as [K1 [K2 [K3 K4]]].
  assert (Hx : forall n, holds b n (LExo n) -> needed (dag b) included (dkeys cond) n -> In n (dkeys cond)).
  { intros n Hn Hd. destruct (In_dec_name n (dkeys cond)) as [|Hc]; auto. exfalso.
    unfold sample_minimally in H. rewrite Es in H. destruct (fresh_views b F) as [_ [_ [_ [_ Ex]]]]. rewrite Ex in H.
    assert (E : existsb (fun n => mem n suf && negb (dmem n cond)) (find_exo b) = true).
    { apply existsb_exists. exists n. destruct (find_exo_spec b C) as [_ Hf]. split; [apply Hf; eauto|].
      apply andb_true_iff. split; [apply mem_In, K4; auto|apply negb_true_iff, dmem_false; auto]. }
    rewrite E in H. discriminate. }
  destruct (minimally_run b included cond r C F K1 K2 K3 Hx) as [ns [T R]]. rewrite H in R.
  destruct R as [d [R1 [-> ->]]]. exists ns, d. splits; auto.
  - intros n Hn. rewrite (run_keys _ _ _ _ _ _ R1), in_app_iff. destruct (In_dec_name n (dkeys cond)); auto.
    right. apply T. split; auto. constructor; auto.
  - intros k v. rewrite dget_dfilter. destruct (mem k included) eqn:E.
    + apply mem_In in E. tauto.
    + apply mem_false in E. split; [discriminate|tauto].
  - intros k v. rewrite dget_dfilter. destruct (mem k included) eqn:E; simpl.
    + apply mem_In in E. split; [discriminate|tauto].
    + apply mem_false in E. tauto.
Qed.
Print Assumptions C27_minimal.

(** Consistency of what is returned, the two dicts taken together. *)
Theorem C27_consistent : forall w (b : bn w) included cond r si me r', built b ->
  sample_minimally b included cond r = (Ok (si, me), r') ->
  let d := fun k => match dget si k with Some v => Some v | None => dget me k end in
  (forall k v, dget cond k = Some v -> d k = Some v)
  /\ (forall k, d k <> None <-> In k (dkeys cond) \/ needed (dag b) included (dkeys cond) k)
  /\ (forall n, needed (dag b) included (dkeys cond) n -> ~ In n (dkeys cond) -> produced b d n /\ consistent b d n).
Proof.
  intros w b included cond r si me r' B H. destruct (C27_minimal w b included cond r si me r' B H)
    as [ns [d0 [[[T1 T2] T3] [R [H1 [H2 [H3 H4]]]]]]]. intros d.
  assert (E : forall k, d k = dget d0 k).
  { intros k. unfold d. destruct (dget si k) as [v|] eqn:E1.
    - apply H2 in E1. symmetry. tauto.
    - destruct (dget me k) as [v|] eqn:E2; [apply H3 in E2; symmetry; tauto|].
      destruct (dget d0 k) as [v|] eqn:E3; auto. destruct (In_dec_name k included) as [Hi|Hi].
      + assert (X : dget si k = Some v) by (apply H2; auto). congruence.
      + assert (X : dget me k = Some v) by (apply H3; auto). congruence. }
  splits.
  - intros k v Hk. rewrite E. apply (run_below _ _ _ _ _ _ R). auto.
  - intros k. rewrite E, (dget_None d0 k), (run_keys _ _ _ _ _ _ R), in_app_iff, T2. split.
    + intros Hk. destruct (In_dec_name k (dkeys cond)); auto.
      destruct (In_dec_name k ns) as [K|K]; [apply T2 in K; tauto|]. exfalso. apply Hk. rewrite T2 in K. tauto.
    + intros Hk Hn. apply Hn. destruct (In_dec_name k (dkeys cond)); tauto.
  - intros n Hn Hc. assert (P : produced b (dget d0) n) by (eapply run_produced; eauto; apply T2; auto).
    assert (P' : produced b d n).
    { destruct P as [l [rho [r1 [v [r2 [P1 [P2 [P3 [P4 [P5 P6]]]]]]]]]]. exists l, rho, r1, v, r2. splits; auto.
      - intros x u Hx. rewrite E. auto.
      - rewrite E. auto. }
    split; auto. intros e ps Hl. eapply produced_func; eauto.
Qed.
Print Assumptions C27_consistent.

(** A needed exogenous node that is not given: ValueError and no draw; others are not asked for. *)
Theorem C27_missing_exo : forall w (b : bn w) included cond r, built b ->
  (forall n, In n included -> node b n) -> (forall n, In n (dkeys cond) -> node b n) -> included <> [] ->
  (exists n, holds b n (LExo n) /\ needed (dag b) included (dkeys cond) n /\ ~ In n (dkeys cond)) ->
  sample_minimally b included cond r = (Err ValueError, r).
Proof.
  intros w b included cond r B Hi Hg Hne [n [H1 [H2 H3]]]. destruct (built_coherent b B) as [C F].
  unfold sample_minimally.
  destruct (get_sufficient_nodes_spec (dag b) included (dkeys cond) (co_wf _ C) Hi Hg Hne) as [suf [-> [Sn Ss]]].
  destruct (fresh_views b F) as [_ [_ [_ [_ ->]]]].
  assert (E : existsb (fun n => mem n suf && negb (dmem n cond)) (find_exo b) = true); [|rewrite E; auto].
  apply existsb_exists. exists n. destruct (find_exo_spec b C) as [_ Hf]. split; [apply Hf; eauto|].
  apply andb_true_iff. split; [apply mem_In, Ss; auto|apply negb_true_iff, dmem_false; auto].
Qed.
Print Assumptions C27_missing_exo.

Lemma needed_node : forall w (b : bn w) included given n, coherent b -> (forall m, In m included -> node b m) ->
  needed (dag b) included given n -> node b n.
Proof. intros w b included given n C Hi H. induction H as [x H|x p H IH N E]; auto. apply node_gnodes. eapply wf_src; [apply C|eauto]. Qed.
Theorem C27_succeeds : forall w (b : bn w) included cond r (P : name -> V w -> Prop), built b ->
  (forall n, In n included -> node b n) -> (forall n, In n (dkeys cond) -> node b n) -> included <> [] ->
  (forall n, holds b n (LExo n) -> needed (dag b) included (dkeys cond) n -> In n (dkeys cond)) ->
  (forall k v, dget cond k = Some v -> P k v) ->
  (forall n, needed (dag b) included (dkeys cond) n -> ~ In n (dkeys cond) -> total_node P (node b) b n) ->
  exists si me r', sample_minimally b included cond r = (Ok (si, me), r').
Proof.
  intros w b included cond r P B Hi Hg Hne Hx Hc Ht. destruct (built_coherent b B) as [C F].
  assert (Hd : forall k v, dget cond k = Some v -> node b k /\ P k v).
  { intros k v K. split; [apply Hg; eapply dget_In; eauto|auto]. }
  destruct (minimally_run b included cond r C F Hi Hg Hne Hx) as [ns [[[T1 T2] T3] R]].
  destruct (sample_minimally b included cond r) as [[[si me]|e] r'] eqn:E; eauto. exfalso.
  destruct R as [ns1 [n [l [rest [d1 [-> [R1 [R2 [R3 R4]]]]]]]]].
  assert (Hs : forall m, In m (ns1 ++ n :: rest) -> node b m /\ total_node P (node b) b m).
  { intros m K. apply T2 in K. split; [apply (needed_node w b included (dkeys cond)); tauto|apply Ht; tauto]. }
  destruct (Hs n) as [Hn Hl]; [apply in_app_iff; simpl; auto|].
  destruct (Hl l (dget d1) r' R2) as [v [r2 [K _]]]; [| |congruence].
  - apply (run_safe P (node b) b ns1 cond r d1 r' R1); auto. intros k K. apply Hs. apply in_app_iff. auto.
  - intros p Hp. apply in_keys_some; auto.
Qed.
Print Assumptions C27_succeeds.

(** Unlike sample, a given key that is no node is an error. *)
Theorem C27_unknown_key : forall w (b : bn w) included cond r k, built b -> In k (dkeys cond) -> ~ node b k ->
  sample_minimally b included cond r = (Err NetworkXError, r).
Proof.
  intros w b included cond r k B H1 H2. destruct (built_coherent b B) as [C F]. unfold sample_minimally.
  unfold get_sufficient_nodes. rewrite (cut_all_missing (dkeys cond) (dag b) k (co_wf _ C) H1 H2). auto.
Qed.
Print Assumptions C27_unknown_key.

Example C27_example : built exnet
  /\ sample_minimally exnet ["y"] [("x", PZ 3)] 5 = (Ok ([("y", PZ 5)], [("x", PZ 3); ("k", PZ 2)]), 5)
  /\ sample_minimally exnet ["z"] [("x", PZ 3)] 5 = (Err ValueError, 5).
Proof. split; [apply exnet_built|]. split; vm_compute; reflexivity. Qed.

(** ** C28 *)

Theorem C28_sum : forall w (b : bn w) pars s, evaluate_nodes b pars = Ok s ->
  exists ks ts, (forall k, In k ks <-> In k (dkeys pars) /\ node b k)
    /\ (forall x y, before ks x y -> before (dkeys pars) x y)
    /\ (NoDup (dkeys pars) -> NoDup ks)
    /\ Forall2 (fun k t => exists l, holds b k l /\ evaluate l (dget pars) = Ok t) ks ts
    /\ s = (let total := fold_left (lp_add w) ts (lp_zero w) in if lp_isnan w total then lp_ninf w else total).
Proof.
  intros w b pars s H. unfold evaluate_nodes in H. apply bind_ok in H. destruct H as [ts [H1 H2]].
  exists (filter (in_dag b) (dkeys pars)), ts. splits.
  - intros k. rewrite filter_In. rewrite in_dag_spec. tauto.
  - intros x y Hb. apply before_filter in Hb. tauto.
  - intros Hn. apply NoDup_filter. auto.
  - apply mapM_ok in H1. clear H2. induction H1 as [|k t ks ts Hk Hs IH]; constructor; auto.
    apply bind_ok in Hk. destruct Hk as [l [K1 K2]]. exists l. split; auto. apply bget_holds. auto.
  - unfold lp_sum in H2. cbv zeta. inversion H2; auto.
Qed.
Print Assumptions C28_sum.

(** Only distribution nodes contribute. *)
Theorem C28_terms : forall w (b : bn w) n l (pars : env w) t, coherent b -> holds b n l -> evaluate l pars = Ok t ->
  match l with
  | LDist _ f _ => (exists D v, get_distribution f pars = Ok D /\ pars n = Some v /\ t = w_logpdf w D v)
                   \/ (get_distribution f pars = Err ValidationError /\ t = lp_ninf w)
  | _ => t = lp_zero w
  end.
Proof.
  intros w b n l pars t C Hn H. pose proof (co_name _ C _ _ Hn) as E. destruct l as [m v|m|m f ps|m e ps|m ps]; simpl in *; try congruence.
  subst m. destruct (get_distribution f pars) as [D|e].
  - destruct (pars n) as [v|]; [|discriminate]. left. exists D, v. inversion H; auto.
  - destruct e; try discriminate. right. inversion H; auto.
Qed.
Print Assumptions C28_terms.

Theorem C28_never_nan : forall w (b : bn w) pars s, lp_isnan w (lp_ninf w) = false ->
  evaluate_nodes b pars = Ok s -> lp_isnan w s = false.
Proof.
  intros w b pars s N H. unfold evaluate_nodes in H. apply bind_ok in H. destruct H as [ts [_ H]].
  inversion H. destruct (lp_isnan w (lp_sum ts)) eqn:E; auto.
Qed.
Print Assumptions C28_never_nan.

(** Keys outside the network are irrelevant, unless one bears the name of a distribution or
    function that is called in a definition of [b]. *)
Theorem C28_unknown_keys : forall w (b : bn w) pars, coherent b ->
  (forall n f ps c x, holds b n (LDist n f ps) -> @complete_def w f = Ok c -> mentions c x \/ calls c x ->
     In x (dkeys pars) -> node b x) ->
  evaluate_nodes b pars = evaluate_nodes b (dfilter (in_dag b) pars).
Proof.
  intros w b pars C Hy. unfold evaluate_nodes.
  assert (Ek : filter (in_dag b) (dkeys (dfilter (in_dag b) pars)) = filter (in_dag b) (dkeys pars)).
  { rewrite dkeys_dfilter. clear. induction (dkeys pars) as [|k ks IH]; [reflexivity|]. cbn [filter].
    destruct (in_dag b k) eqn:E; cbn [filter]; [rewrite E, IH; reflexivity|exact IH]. }
  rewrite Ek. f_equal. apply mapM_ext_in. intros k Hk. apply filter_In in Hk. destruct Hk as [K1 K2].
  destruct (bget b k) as [l|e] eqn:E; simpl; auto. apply bget_holds in E.
  assert (G : forall x, (In x (dkeys pars) -> node b x) -> dget pars x = dget (dfilter (in_dag b) pars) x).
  { intros x Hx. rewrite dget_dfilter. destruct (in_dag b x) eqn:Ei; auto. apply dget_None. intros Hi.
    apply Hx in Hi. apply in_dag_spec in Hi. congruence. }
  pose proof (co_name _ C _ _ E) as En. destruct l as [m v|m|m f ps|m e ps|m ps]; simpl in *; auto. subst m.
  rewrite (get_distribution_agree f (dget pars) (dget (dfilter (in_dag b) pars))).
  - rewrite <- (G k); auto. intros _. apply in_dag_spec. auto.
  - intros c x Hc Hx. apply G. intros Hi. eapply Hy; eauto.
Qed.
Print Assumptions C28_unknown_keys.

(** The exception of a failing evaluation is that of one of the nodes. *)
Theorem C28_failure : forall w (b : bn w) pars e, evaluate_nodes b pars = Err e ->
  exists k l, In k (dkeys pars) /\ holds b k l /\ evaluate l (dget pars) = Err e.
Proof.
  intros w b pars e H. unfold evaluate_nodes in H.
  destruct (mapM _ _) as [ts|x] eqn:E; [discriminate|]. simpl in H. inversion H; subst x.
  apply mapM_err in E. destruct E as [k [K1 K2]]. apply filter_In in K1. destruct K1 as [K1 K3].
  apply in_dag_spec in K3. destruct (node_holds _ _ K3) as [l Hl]. exists k, l. splits; auto.
  rewrite (proj2 (bget_holds b k l) Hl) in K2. auto.
Qed.
Print Assumptions C28_failure.

Example C28_example : lp_isnan exw (lp_ninf exw) = false
  /\ evaluate_nodes exnet [("a", PZ 1); ("s", PZ 2); ("other", PZ 7); ("x", PZ 6); ("y", PZ 8)] = Ok (LZ (-5))
  /\ evaluate_nodes exnet [("a", PZ 1); ("s", PZ 0); ("x", PZ 6)] = Ok LNinf
  /\ evaluate_nodes exnet [("a", PZ 1); ("s", PZ 1); ("x", PS "?")] = Ok LNinf
  /\ evaluate_nodes exnet [("x", PZ 6)] = Err NameError.
Proof. splits; vm_compute; reflexivity. Qed.

(** ** C29 *)

Theorem C29_sample_chromosome : forall w (b : bn w) cond r c r', sample_chromosome b cond r = (Ok c, r') <->
  sample b cond r = (Ok (ch_locus c), r') /\ evaluate_nodes b (ch_locus c) = Ok (ch_lp c).
Proof.
  intros w b cond r c r'. unfold sample_chromosome. split.
  - intros H. destruct (sample b cond r) as [[d|e] r1]; [|discriminate].
    destruct (evaluate_nodes b d) as [lp|e] eqn:E; inversion H; subst. simpl. auto.
  - intros [-> ->]. destruct c; auto.
Qed.
Print Assumptions C29_sample_chromosome.

Theorem C29_evaluated : forall w (b : bn w) cond r c r', lp_isnan w (lp_ninf w) = false ->
  sample_chromosome b cond r = (Ok c, r') -> ch_evaluated c = true.
Proof.
  intros w b cond r c r' N H. apply C29_sample_chromosome in H. destruct H as [_ H].
  unfold ch_evaluated. rewrite (C28_never_nan w b _ _ N H). auto.
Qed.
Print Assumptions C29_evaluated.

(** A failure is one of sampling or of the evaluation of the sample, with the generator where
    sampling has left it. *)
Theorem C29_failure : forall w (b : bn w) cond r e r', sample_chromosome b cond r = (Err e, r') <->
  sample b cond r = (Err e, r') \/ exists d, sample b cond r = (Ok d, r') /\ evaluate_nodes b d = Err e.
Proof.
  intros w b cond r e r'. unfold sample_chromosome. destruct (sample b cond r) as [[d|e'] r1].
  - destruct (evaluate_nodes b d) as [lp|x] eqn:E; split.
    + discriminate.
    + intros [H|[d' [H1 H2]]]; [discriminate|]. inversion H1; subst. congruence.
    + intros H. inversion H; subst. right. eauto.
    + intros [H|[d' [H1 H2]]]; [discriminate|]. inversion H1; subst. congruence.
  - split.
    + intros H. inversion H; subst. auto.
    + intros [H|[d' [H1 H2]]]; congruence.
Qed.
Print Assumptions C29_failure.

Example C29_example : sample_chromosome exnet excond 5
  = (Ok (mkChrom (w:=exw) [("a", PZ 1); ("s", PZ 2); ("other", PZ 7); ("k", PZ 2); ("x", PZ 6); ("y", PZ 8); ("z", PZ 256)] (LZ (-5))), 6).
Proof.
  assert (E : (match fst (sample_chromosome exnet excond 5) with Ok c => Some (ch_locus c, ch_lp c) | Err _ => None end,
     snd (sample_chromosome exnet excond 5)) = (Some ([("a", PZ 1); ("s", PZ 2); ("other", PZ 7); ("k", PZ 2); ("x", PZ 6); ("y", PZ 8); ("z", PZ 256)], LZ (-5)), 6))
    by (vm_compute; reflexivity).
  destruct (sample_chromosome exnet excond 5) as [[[l p]|e] r]; simpl in E; inversion E; reflexivity.
Qed.
