(** * Property C80: from a script to a sample *)

Require Import Verif.Base Verif.World Verif.ModelGraph Verif.ModelExpr Verif.ModelLoci Verif.ModelBN Verif.ModelSample
        Verif.ModelScript Verif.Spec Verif.SpecBN Verif.SpecExpr Verif.SpecSample Verif.ProofBase Verif.ProofExpr Verif.ProofBN Verif.ProofBNViews Verif.ProofBNHist
        Verif.ProofSample Verif.ProofScript Verif.ExWorld Verif.PropsBN Verif.PropsSample Verif.PropsScript.
Require Import Coq.ZArith.ZArith Coq.Sorting.Permutation.
Local Open Scope nat_scope.

(** ** A network read from a script is one that could have been put together by hand *)

Lemma append_lines_built : forall w (y : syntax w) ls b b', built b -> append_lines y b ls = Ok b' -> built b'.
Proof.
  intros w y ls. induction ls as [|l ls IH]; intros b b' B H; cbn [append_lines] in H; [injection H as <-; auto|].
  destruct (built_coherent b B) as [C _].
  unfold append_from_definition in H. destruct (parse_loci y l) as [[lo des]|e].
  - change (match des with [] => None | _ => Some (S_ des) end) with (note des) in H.
    destruct (append_loci b lo (note des)) as [[[]|e] b1] eqn:E; [apply (IH b1 b'); auto; eapply bt_append; eauto|].
    exfalso. destruct (b_frozen b) eqn:F; [rewrite append_loci_frozen in E by auto; injection E as <- <-; discriminate H|].
    destruct (has_parents_dec b (loci_name lo)) as [Hp|Hp].
    + rewrite (append_loci_parents b lo (note des) (co_wf _ C) (co_acyclic _ C) F Hp) in E. injection E as <- <-. discriminate H.
    + destruct (append_loci_root b lo (note des) (co_wf _ C) (co_acyclic _ C) F Hp) as [[_ (b2 & E2 & _)]|[_ (b2 & E2 & _)]]; rewrite E2 in E; [discriminate E|].
      injection E as <- <-. discriminate H.
  - destruct e; try discriminate H. apply (IH b b'); auto.
Qed.

(** All that is proved of networks built by calls holds of networks read from scripts. *)
Theorem C80_built : forall w (y : syntax w) t s, bayes_net_from_script y t = Ok s -> built (sn_bn s).
Proof.
  intros w y t s H. unfold bayes_net_from_script in H. apply bind_ok in H. destruct H as (n & _ & H). apply bind_ok in H. destruct H as (b & H1 & H2).
  destruct (complete b) as [[[]|e] b'] eqn:E; [|discriminate H2]. injection H2 as <-. cbn [sn_bn]. eapply bt_complete; [|exact E].
  eapply append_lines_built; [|exact H1]. constructor.
Qed.
Print Assumptions C80_built.

(** ** Sampling a script *)

(** The value of [d] for the defined name is what the definition gives: rendered with values of
    [d] for all names it mentions, and without a value for the name itself. *)
Definition made {w : world} (l : loci w) (d : env w) : Prop :=
  exists rho r1 v r2, below rho d /\ rho (loci_name l) = None /\ (forall p, In p (loci_parents l) -> rho p <> None)
    /\ render l rho r1 = Ok (v, r2) /\ d (loci_name l) = Some v.

(** The names a script leaves to be given: those on a line of their own, and those mentioned
    without a definition. *)
Definition left_open {w : world} (ds : list (loci w * text)) (k : name) : Prop :=
  (exists des, In (LExo k, des) ds) \/ (~ In k (dnames ds) /\ exists m, dep ds k m).

(** Reading a script and sampling, for every set of given values: on success every name of the
    script has a value, given values are kept, every definition of a name not given made the
    value; failure means that a name left open is not given, or that some definition cannot be evaluated although all names it mentions have values. *)
Theorem C80_sample : forall w (y : syntax w) (ls : list text) ds n, plain_lines ls -> defs_of y ls ds ->
  find_header (map unblank ls) = Ok n -> NoDup (dnames ds) -> loop_free ds ->
  exists s, bayes_net_from_script y (join [nl] ls) = Ok s /\ forall (cond : dict (V w)) r,
    match sample (sn_bn s) cond r with
    | (Ok d, _) => (forall k, In k (dkeys d) <-> In k (dnames ds) \/ (exists m, dep ds k m) \/ In k (dkeys cond))
        /\ (forall k v, dget cond k = Some v -> dget d k = Some v)
        /\ (forall k, left_open ds k -> In k (dkeys cond))
        /\ (forall l des, In (l, des) ds -> ~ In (loci_name l) (dkeys cond) -> made l (dget d))
    | (Err e, r') => (e = ValueError /\ r' = r /\ exists k, left_open ds k /\ ~ In k (dkeys cond))
        \/ exists l des d, In (l, des) ds /\ ~ In (loci_name l) (dkeys cond) /\ (forall k v, dget cond k = Some v -> dget d k = Some v)
             /\ (forall p, In p (loci_parents l) -> In p (dkeys d)) /\ render l (dget d) r' = Err e
    end.
Proof.
  intros w y ls ds n PL D Hh ND LF. destruct (C74_network w y ls ds n PL D Hh ND LF) as (s & E & _ & _ & C & F & N).
  pose proof (C80_built w y _ s E) as B. exists s. split; [exact E|]. intros cond r.
  assert (Def : forall l des, In (l, des) ds -> holds (sn_bn s) (loci_name l) l).
  { intros l des I. exists (mkAttr l (note des)). split; [apply (no_def _ _ N); auto|reflexivity]. }
  assert (Inv : forall k l, holds (sn_bn s) k l -> (exists des, In (l, des) ds /\ loci_name l = k) \/ l = LExo k /\ ~ In k (dnames ds) /\ exists m, dep ds k m).
  { intros k l (a & A1 & A2). destruct (in_dec string_dec k (dnames ds)) as [I|I].
    - left. unfold dnames in I. apply in_map_iff in I. destruct I as ([l' des] & K & I). cbn [fst] in K. subst k.
      rewrite (no_def _ _ N _ _ I) in A1. injection A1 as <-. cbn in A2. subst l'. eauto.
    - right. assert (Nk : node (sn_bn s) k) by (apply (holds_node _ _ l); exists a; auto).
      apply (no_node _ _ N) in Nk. destruct Nk as [Nk|[m Nk]]; [tauto|]. rewrite (no_exo _ _ N k m I Nk) in A1. injection A1 as <-. cbn in A2. splits; eauto. }
  assert (Opn : forall k, left_open ds k <-> holds (sn_bn s) k (LExo k)).
  { intros k. split.
    - intros [[des I]|[I [m K]]]; [exact (Def _ _ I)|]. exists (mkAttr (LExo k) None). split; [exact (no_exo _ _ N k m I K)|reflexivity].
    - intros H. destruct (Inv _ _ H) as [(des & I & _)|(_ & I & m & K)]; [left|right]; eauto. }
  destruct (sample (sn_bn s) cond r) as [[d|e] r'] eqn:S.
  - destruct (C25_complete w _ cond r d r' B S) as (K1 & K2 & K3).
    assert (X : forall k, left_open ds k -> In k (dkeys cond)).
    { intros k O. apply Opn in O. destruct (in_dec string_dec k (dkeys cond)) as [J|J]; auto. exfalso.
      exact (produced_not_exo _ _ _ (K3 k (holds_node _ _ _ O) J) O). }
    splits; auto.
    + intros k. rewrite K1, (no_node _ _ N). tauto.
    + intros l des I J. assert (Nk : node (sn_bn s) (loci_name l)).
      { apply (no_node _ _ N). left. apply (in_map (fun d => loci_name (fst d)) ds (l, des)). auto. }
      destruct (K3 _ Nk J) as (l' & rho & r1 & v & r2 & H1 & H2 & H3 & H4 & H5 & H6).
      rewrite (holds_fun _ _ _ _ H1 (Def l des I)) in *. exists rho, r1, v, r2. splits; auto.
  - destruct (Bool.bool_dec (existsb (fun k => negb (dmem k cond)) (find_exo (sn_bn s))) true) as [X|X].
    + left. apply (exo_missing _ cond C) in X. pose proof (sample_exo_missing _ cond r C F X) as M. rewrite S in M. injection M as -> ->.
      splits; auto. destruct X as (k & H1 & H2). exists k. split; [apply Opn; auto|auto].
    + right. assert (Hx : forall k, holds (sn_bn s) k (LExo k) -> In k (dkeys cond)).
      { intros k Hk. destruct (in_dec string_dec k (dkeys cond)) as [J|J]; auto. exfalso. apply X. apply (exo_missing _ cond C). eauto. }
      destruct (C25_failure w _ cond r e r' B Hx S) as (ns & k & l & d1 & R & H1 & H2 & H3 & H4).
      destruct (Inv _ _ H1) as [(des & I & <-)|(-> & _ & _)].
      * exists l, des, d1. splits; auto; [|apply (run_below _ _ _ _ _ _ R)]. intros J. apply H2. rewrite (run_keys _ _ _ _ _ _ R). apply in_app_iff. auto.
      * exfalso. apply H2. rewrite (run_keys _ _ _ _ _ _ R). apply in_app_iff. left. auto.
Qed.
Print Assumptions C80_sample.

(** ** What is random in a script, and what is not *)

(** The values of [e] follow the definitions of all names that [d] does not know. *)
Definition settled {w : world} (b : bn w) (d : dict (V w)) (e : env w) : Prop := forall n, ~ In n (dkeys d) ->
  (forall f ps, ~ holds b n (LDist n f ps)) /\ (forall ps, ~ holds b n (LPseudo n ps))
  /\ (forall v, holds b n (LValue n v) -> e n = Some v) /\ consistent b e n.

Lemma settled_dset : forall w (b : bn w) d e n v, settled b d e -> settled b (dset d n v) e.
Proof. intros w b d e n v S k H. apply S. intros K. apply H. apply dget_In in K. destruct K as [u K]. apply dget_In.
  rewrite dget_dset. destruct (String.eqb_spec k n); eauto. Qed.

(** one definition, rendered from values of [e], gives the value of [e] *)
Lemma settled_step : forall w (b : bn w) n l (d : dict (V w)) e r, coherent b -> settled b d e -> below (dget d) e ->
  holds b n l -> ~ In n (dkeys d) -> l <> LExo n -> (forall p, In p (loci_parents l) -> In p (dkeys d)) ->
  exists v, render l (dget d) r = Ok (v, r) /\ e n = Some v.
Proof.
  intros w b n l d e r C S Bl H Hn X Hp. destruct (S n Hn) as (S1 & S2 & S3 & S4). pose proof (co_name _ C _ _ H) as Nm.
  destruct l as [k v|k|k f ps|k ex ps|k ps]; cbn [loci_name] in Nm; subst k.
  - exists v. split; [reflexivity|auto].
  - congruence.
  - exfalso. exact (S1 _ _ H).
  - destruct (S4 _ _ H) as (_ & v & E1 & E2). exists v. split; auto. cbn [render].
    assert (Hp' : forall p, In p ps -> dget d p <> None).
    { intros p Ip K. apply dget_None in K. apply K. apply Hp. auto. }
    destruct (restrict_ok (dget d) ps Hp') as (dd & Ed & Hd). rewrite Ed.
    assert (Ee : execute ex (dget dd) = execute ex (fun x => if mem x ps then e x else None)).
    { apply eval_agree. intros x _. rewrite Hd. destruct (mem x ps) eqn:M; auto. apply mem_In in M. apply below_agree; auto. }
    rewrite Ee, E1. reflexivity.
  - exfalso. exact (S2 _ H).
Qed.

Lemma settled_run : forall w (b : bn w) ns d r d' r', coherent b -> run b ns d r d' r' -> forall e, settled b d e -> below (dget d) e ->
  below (dget d') e /\ r' = r /\ settled b d' e.
Proof.
  intros w b ns d r d' r' C R. induction R as [d r|n l ns d r v r1 d2 r2 H Hn Hp E R IH]; intros e S Bl; [auto|].
  assert (X : l <> LExo n).
  { intros ->. cbn [render] in E. apply dget_None in Hn. rewrite Hn in E. discriminate E. }
  destruct (settled_step w b n l d e r C S Bl H Hn X Hp) as (v' & E1 & E2). rewrite E1 in E. injection E as <- <-.
  apply IH; [apply settled_dset; auto|]. intros x u Hx. rewrite dget_dset in Hx. destruct (String.eqb_spec x n) as [->|]; [injection Hx as <-; auto|].
  apply Bl. auto.
Qed.

(** Once the values of all distributions are given, sampling is a function: two networks with
    the same definitions, however they were put together, agree on every name, draw nothing,
    and succeed or fail together. *)
Theorem C80_determined : forall w (b b' : bn w) (cond cond' : dict (V w)) r r' d r1, built b -> built b' -> same_net b b' ->
  (forall k, dget cond k = dget cond' k) -> (forall n f ps, holds b n (LDist n f ps) -> In n (dkeys cond)) ->
  sample b cond r = (Ok d, r1) ->
  r1 = r /\ exists d', sample b' cond' r' = (Ok d', r') /\ forall k, dget d' k = dget d k.
Proof.
  intros w b b' cond cond' r r' d r1 B B' (SN & SH & SE) Hc HD E.
  destruct (built_coherent b B) as [C F]. destruct (built_coherent b' B') as [C' F'].
  assert (Kc : forall k, In k (dkeys cond) <-> In k (dkeys cond')).
  { intros k. split; intros H; apply dget_In in H; destruct H as [v H]; apply dget_In; exists v; congruence. }
  destruct (C25_complete w b cond r d r1 B E) as (K1 & K2 & K3).
  assert (S : forall n, ~ In n (dkeys cond) -> (forall f ps, ~ holds b n (LDist n f ps)) /\ (forall ps, ~ holds b n (LPseudo n ps))
     /\ (forall v, holds b n (LValue n v) -> dget d n = Some v) /\ consistent b (dget d) n).
  { intros n Hn. split; [|split; [|split]].
    - intros f ps H. apply Hn. eauto.
    - intros ps H. exact (produced_not_pseudo _ _ _ _ (K3 n (holds_node _ _ _ H) Hn) H).
    - intros v H. exact (C25_values w b cond r d r1 n v B E H Hn).
    - exact (C25_functions w b cond r d r1 n B E Hn). }
  assert (S' : settled b' cond' (dget d)).
  { intros n Hn. rewrite <- Kc in Hn. destruct (S n Hn) as (S1 & S2 & S3 & S4). split; [|split; [|split]].
    - intros f ps H. apply SH in H. exact (S1 _ _ H).
    - intros ps H. apply SH in H. exact (S2 _ H).
    - intros v H. apply SH in H. auto.
    - intros ex ps H. apply SH in H. exact (S4 ex ps H). }
  assert (L' : below (dget cond') (dget d)) by (intros x v Hx; apply K2; congruence).
  assert (X : forall n, holds b n (LExo n) -> In n (dkeys cond)).
  { intros n H. destruct (in_dec string_dec n (dkeys cond)) as [J|J]; auto. exfalso. exact (produced_not_exo _ _ _ (K3 n (holds_node _ _ _ H) J) H). }
  assert (X' : forall n, holds b' n (LExo n) -> In n (dkeys cond')) by (intros n H; apply Kc, X, SH; auto).
  split.
  { destruct (C25_sample_run w b cond r d r1 B E) as (ns & _ & R).
    apply (settled_run w b ns cond r d r1 C R (dget d)); [exact S|exact K2]. }
  destruct (sample b' cond' r') as [[d'|e] r2] eqn:E'.
  - destruct (C25_sample_run w b' cond' r' d' r2 B' E') as (ns & _ & R).
    destruct (settled_run w b' ns cond' r' d' r2 C' R (dget d) S' L') as (G1 & G2 & _). subst r2. exists d'. split; auto.
    destruct (C25_complete w b' cond' r' d' r' B' E') as (K1' & _ & _). intros k.
    destruct (dget d' k) as [v|] eqn:Ek; [symmetry; auto|]. symmetry. apply dget_None. apply dget_None in Ek. intros K. apply Ek.
    apply K1'. apply K1 in K. rewrite <- SN, <- Kc. exact K.
  - exfalso. destruct (C25_failure w b' cond' r' e r2 B' X' E') as (ns & n & l & d1 & R & H1 & H2 & H3 & H4).
    destruct (settled_run w b' ns cond' r' d1 r2 C' R (dget d) S' L') as (G1 & G2 & G3).
    assert (Ne : l <> LExo n).
    { intros ->. apply H2. rewrite (run_keys _ _ _ _ _ _ R). apply in_app_iff. left. auto. }
    destruct (settled_step w b' n l d1 (dget d) r2 C' G3 G1 H1 H2 Ne H3) as (v & G & _). rewrite G in H4. discriminate H4.
Qed.
Print Assumptions C80_determined.

(** So the order of the lines of a script does not change what is sampled from it. *)
Theorem C80_line_order : forall w (y : syntax w) (ls ls' : list text) ds n n', plain_lines ls -> Permutation ls ls' -> defs_of y ls ds ->
  find_header (map unblank ls) = Ok n -> find_header (map unblank ls') = Ok n' -> NoDup (dnames ds) -> loop_free ds ->
  exists s s', bayes_net_from_script y (join [nl] ls) = Ok s /\ bayes_net_from_script y (join [nl] ls') = Ok s'
    /\ forall cond r r' d r1, (forall k f ps des, In (LDist k f ps, des) ds -> In k (dkeys cond)) ->
       sample (sn_bn s) cond r = (Ok d, r1) ->
       exists d', sample (sn_bn s') cond r' = (Ok d', r') /\ forall k, dget d' k = dget d k.
Proof.
  intros w y ls ls' ds n n' PL P D Hh Hh' ND LF.
  destruct (C74_line_order w y ls ls' ds n n' PL P D Hh Hh' ND LF) as (s & s' & E & E' & SN).
  destruct (C74_network w y ls ds n PL D Hh ND LF) as (s0 & E0 & _ & _ & C & F & N). rewrite E in E0. injection E0 as <-.
  exists s, s'. splits; auto. intros cond r r' d r1 HD HS.
  apply (C80_determined w (sn_bn s) (sn_bn s') cond cond r r' d r1); auto; [eapply C80_built; eauto|eapply C80_built; eauto|].
  intros k f ps (a & A1 & A2). destruct (in_dec string_dec k (dnames ds)) as [I|I].
  - unfold dnames in I. apply in_map_iff in I. destruct I as ([l des] & K & I). cbn [fst] in K. subst k.
    rewrite (no_def _ _ N _ _ I) in A1. injection A1 as <-. cbn [a_loci] in A2.
    apply (HD _ f ps des). rewrite <- A2. exact I.
  - exfalso. assert (Nk : node (sn_bn s) k) by (apply (holds_node _ _ (LDist k f ps)); exists a; auto).
    apply (no_node _ _ N) in Nk. destruct Nk as [Nk|[m Nk]]; [tauto|]. rewrite (no_exo _ _ N k m I Nk) in A1. injection A1 as <-. discriminate A2.
Qed.
Print Assumptions C80_line_order.

(** Examples: a script with a distribution, a function written before the constant it mentions,
    and a name left open *)
Example C80_example : exists s, bayes_net_from_script exy (join [nl] exlines2) = Ok s /\ built (sn_bn s)
  /\ left_open exdefs2 "s"
  /\ sample (sn_bn s) [] 5 = (Err ValueError, 5)
  /\ exists d, sample (sn_bn s) [("s", PZ 1)] 5 = (Ok d, 6) /\ dget d "a" = Some (PZ 3) /\ dget d "z" = Some (PZ 6)
     /\ dget d "x" = Some (PZ 8) /\ dget d "s" = Some (PZ 1).
Proof.
  destruct (C80_sample exw exy exlines2 exdefs2 (T "net") exlines2_plain exdefs2_of eq_refl exdefs2_nodup exdefs2_loop) as (s & E & _).
  exists s. split; [exact E|]. split; [exact (C80_built _ _ _ _ E)|]. split.
  { right. split; [unfold dnames, exdefs2; simpl; intuition discriminate|]. exists "x". do 2 eexists. split; [left; reflexivity|]. split; [reflexivity|]. simpl. auto. }
  assert (G : match bayes_net_from_script exy (join [nl] exlines2) with
              | Ok s => (sample (sn_bn s) [] 5, match sample (sn_bn s) [("s", PZ 1)] 5 with
                  | (Ok d, r) => Some (dget d "a", dget d "z", dget d "x", dget d "s", r) | _ => None end)
              | Err e => (Err e, 0, None) end = (Err ValueError, 5, Some (Some (PZ 3), Some (PZ 6), Some (PZ 8), Some (PZ 1), 6))) by exact_vm.
  rewrite E in G. destruct (sample (sn_bn s) [] 5) as [o r0]. destruct (sample (sn_bn s) [("s", PZ 1)] 5) as [[d|e] r1]; [|discriminate G].
  injection G as -> -> G1 G2 G3 G4 ->. split; [reflexivity|]. exists d. auto.
Qed.

(** with [x] given nothing is drawn, and the lines may as well be read backwards *)
Example C80_example_determined : exists s s', bayes_net_from_script exy (join [nl] exlines2) = Ok s
  /\ bayes_net_from_script exy (join [nl] (rev exlines2)) = Ok s'
  /\ exists d d', sample (sn_bn s) [("s", PZ 1); ("x", PZ 0)] 5 = (Ok d, 5) /\ sample (sn_bn s') [("s", PZ 1); ("x", PZ 0)] 9 = (Ok d', 9)
     /\ dget d "z" = Some (PZ 6) /\ forall k, dget d' k = dget d k.
Proof.
  destruct (C80_line_order exw exy exlines2 (rev exlines2) exdefs2 (T "net") (T "net") exlines2_plain (Permutation_rev _) exdefs2_of eq_refl eq_refl exdefs2_nodup exdefs2_loop)
    as (s & s' & E & E' & H).
  exists s, s'. split; [exact E|]. split; [exact E'|].
  assert (G : match bayes_net_from_script exy (join [nl] exlines2) with
              | Ok s => match sample (sn_bn s) [("s", PZ 1); ("x", PZ 0)] 5 with
                  | (Ok d, r) => Some (dget d "z", r) | _ => None end
              | Err e => None end = Some (Some (PZ 6), 5)) by exact_vm.
  rewrite E in G. specialize (H [("s", PZ 1); ("x", PZ 0)] 5 9).
  destruct (sample (sn_bn s) [("s", PZ 1); ("x", PZ 0)] 5) as [[d|e] r1]; [|discriminate G]. injection G as G ->.
  destruct (H d 5) as (d' & H1 & H2); [|reflexivity|].
  - intros k f ps des I. simpl in I. destruct I as [I|[I|[I|[]]]]; injection I; intros; subst; simpl; auto; discriminate.
  - exists d, d'. auto.
Qed.
