(** * Proofs about ModelExpr and ModelLoci *)

Require Import Verif.Base Verif.World Verif.ModelExpr Verif.ModelLoci Verif.SpecExpr Verif.ProofBase.

(** induction over expressions with nested lists *)
Section ExprInd.
  Variable P : expr -> Prop.
  Hypothesis Hnum : forall s, P (ENum s).
  Hypothesis Hstr : forall s, P (EStr s).
  Hypothesis Hname : forall x, P (EName x).
  Hypothesis Hop : forall op args, (forall a, In a args -> P a) -> P (EOp op args).
  Hypothesis Hcall : forall f args kws, (forall a, In a args -> P a) -> (forall k a, In (k, a) kws -> P a) ->
                     P (ECall f args kws).

  Fixpoint expr_ind' (e : expr) : P e.
  Proof.
    destruct e as [s|s|x|op args|f args kws].
    - apply Hnum.
    - apply Hstr.
    - apply Hname.
    - apply Hop. induction args as [|a args IH]; [intros a []|].
      intros b [<-|H]; [apply expr_ind'|apply IH; exact H].
    - apply Hcall.
      + induction args as [|a args IH]; [intros a []|].
        intros b [<-|H]; [apply expr_ind'|apply IH; exact H].
      + induction kws as [|[k a] kws IH]; [intros k a []|].
        intros k' b [E|H]; [|apply (IH k'); exact H].
        apply (eq_ind a (fun z => P z) (expr_ind' a) b). exact (f_equal snd E).
  Defined.
End ExprInd.

Lemma fnames_spec : forall e x, In x (fnames e) <-> calls e x.
Proof.
  induction e as [s|s|y|op args IH|f args kws IH1 IH2] using expr_ind'; intros x; simpl.
  - split; [tauto|]. intros H; inversion H.
  - split; [tauto|]. intros H; inversion H.
  - split; [tauto|]. intros H; inversion H.
  - rewrite in_flat_map. split.
    + intros [a [Ha Hx]]. apply IH in Hx; auto. eapply cl_op; eauto.
    + intros H. inversion H; subst. exists a. split; auto. apply IH; auto.
  - rewrite in_app_iff, !in_flat_map. split.
    + intros [<-|[[a [Ha Hx]]|[[k a] [Ha Hx]]]].
      * constructor.
      * apply IH1 in Hx; auto. eapply cl_arg; eauto.
      * simpl in Hx. apply (IH2 k) in Hx; auto. eapply cl_kw; eauto.
    + intros H. inversion H; subst; auto.
      * right. left. exists a. split; auto. apply IH1; auto.
      * right. right. exists (k, a). split; auto. simpl. apply (IH2 k); auto.
Qed.

Lemma enames_spec : forall e x, In x (enames e) <-> mentions e x \/ calls e x.
Proof.
  induction e as [s|s|y|op args IH|f args kws IH1 IH2] using expr_ind'; intros x; simpl.
  - split; [tauto|]. intros [H|H]; inversion H.
  - split; [tauto|]. intros [H|H]; inversion H.
  - split.
    + intros [<-|[]]. left. constructor.
    + intros [H|H]; inversion H; auto.
  - rewrite in_flat_map. split.
    + intros [a [Ha Hx]]. apply IH in Hx; auto. destruct Hx; [left; eapply mn_op|right; eapply cl_op]; eauto.
    + intros [H|H]; inversion H; subst; exists a; split; auto; apply IH; auto.
  - rewrite in_app_iff, !in_flat_map. split.
    + intros [<-|[[a [Ha Hx]]|[[k a] [Ha Hx]]]].
      * right. constructor.
      * apply IH1 in Hx; auto. destruct Hx; [left; eapply mn_arg|right; eapply cl_arg]; eauto.
      * simpl in Hx. apply (IH2 k) in Hx; auto. destruct Hx; [left; eapply mn_kw|right; eapply cl_kw]; eauto.
    + intros [H|H]; inversion H; subst; auto.
      * right. left. exists a. split; auto. apply IH1; auto.
      * right. right. exists (k, a). split; auto. simpl. apply (IH2 k); auto.
      * right. left. exists a. split; auto. apply IH1; auto.
      * right. right. exists (k, a). split; auto. simpl. apply (IH2 k); auto.
Qed.


Lemma evars_NoDup : forall e, NoDup (evars e).
Proof. intros e. unfold evars, diff. apply NoDup_filter. apply to_set_NoDup. Qed.

Lemma evars_In : forall e x, In x (evars e) <-> mentions e x /\ ~ calls e x.
Proof.
  intros e x. unfold evars. rewrite diff_In, to_set_In, enames_spec, fnames_spec. tauto.
Qed.

Section EvalProofs.
  Context {w : world}.

  (** named versions of the local loops of [eval] *)
  Definition evals (g loc : env w) : list expr -> res (list (V w)) :=
    fix evals l :=
    match l with
    | [] => Ok []
    | a :: l' => do v <- eval g loc a; do vs <- evals l'; Ok (v :: vs)
    end.
  Definition evalk (g loc : env w) : list (name * expr) -> res (list (name * V w)) :=
    fix evalk l :=
    match l with
    | [] => Ok []
    | (k, a) :: l' => do v <- eval g loc a; do vs <- evalk l'; Ok ((k, v) :: vs)
    end.

  Lemma eval_op : forall g loc op args, eval g loc (EOp op args) = do vs <- evals g loc args; w_op w op vs.
  Proof. reflexivity. Qed.
  Lemma eval_call : forall g loc f args kws, eval g loc (ECall f args kws) =
    do fv <- lookup g loc f; do vs <- evals g loc args; do ks <- evalk g loc kws; w_call w fv vs ks.
  Proof. reflexivity. Qed.

  Lemma lookup_agree : forall g (loc loc' : env w) x, loc x = loc' x -> lookup g loc x = lookup g loc' x.
  Proof. intros g loc loc' x H. unfold lookup. rewrite H. auto. Qed.

  (** evaluation reads nothing but the names of the expression *)
  Lemma eval_agree : forall g (loc loc' : env w) e,
    (forall x, mentions e x \/ calls e x -> loc x = loc' x) -> eval g loc e = eval g loc' e.
  Proof.
    intros g loc loc'. induction e as [s|s|y|op args IH|f args kws IH1 IH2] using expr_ind'; intros H; auto.
    - simpl. apply lookup_agree. apply H. left. constructor.
    - rewrite !eval_op. replace (evals g loc args) with (evals g loc' args); auto.
      assert (G : forall l, incl l args -> evals g loc' l = evals g loc l).
      { induction l as [|a l IHl]; intros Hl; simpl; auto. rewrite IHl by (intros z Hz; apply Hl; simpl; auto).
        rewrite (IH a); auto; [apply Hl; simpl; auto|].
        intros x [Hx|Hx]; apply H; [left; eapply mn_op|right; eapply cl_op]; eauto; apply Hl; simpl; auto. }
      apply G. apply incl_refl.
    - rewrite !eval_call. rewrite (lookup_agree g loc loc') by (apply H; right; constructor).
      replace (evals g loc args) with (evals g loc' args).
      + replace (evalk g loc kws) with (evalk g loc' kws); auto.
        assert (G : forall l, incl l kws -> evalk g loc' l = evalk g loc l).
        { induction l as [|[k a] l IHl]; intros Hl; simpl; auto. rewrite IHl by (intros z Hz; apply Hl; simpl; auto).
          rewrite (IH2 k a); auto; [apply Hl; simpl; auto|].
          intros x [Hx|Hx]; apply H; [left; eapply mn_kw|right; eapply cl_kw]; eauto; apply Hl; simpl; auto. }
        apply G. apply incl_refl.
      + assert (G : forall l, incl l args -> evals g loc' l = evals g loc l).
        { induction l as [|a l IHl]; intros Hl; simpl; auto. rewrite IHl by (intros z Hz; apply Hl; simpl; auto).
          rewrite (IH1 a); auto; [apply Hl; simpl; auto|].
          intros x [Hx|Hx]; apply H; [left; eapply mn_arg|right; eapply cl_arg]; eauto; apply Hl; simpl; auto. }
        apply G. apply incl_refl.
  Qed.

  (** evaluation only looks names up *)
  Lemma eval_scope : forall g g' (loc loc' : env w) e,
    (forall x, lookup g loc x = lookup g' loc' x) -> eval g loc e = eval g' loc' e.
  Proof.
    intros g g' loc loc' e L. induction e as [s|s|y|op args IH|f args kws IH1 IH2] using expr_ind'; auto.
    - apply L.
    - rewrite !eval_op. replace (evals g loc args) with (evals g' loc' args); auto.
      induction args as [|a args IHa]; auto. simpl. rewrite (IH a), IHa; simpl; auto. intros; apply IH; simpl; auto.
    - rewrite !eval_call, L. replace (evals g loc args) with (evals g' loc' args).
      + replace (evalk g loc kws) with (evalk g' loc' kws); auto.
        clear IH1. induction kws as [|[k a] kws IHk]; auto. simpl. rewrite (IH2 k a), IHk; simpl; auto.
        intros; eapply IH2; simpl; eauto.
      + clear IH2. induction args as [|a args IHa]; auto. simpl. rewrite (IH1 a), IHa; simpl; auto.
        intros; apply IH1; simpl; auto.
  Qed.

  (** if every name resolves, no NameError *)
  Lemma eval_no_name_error : forall g (loc : env w) e, quiet w ->
    (forall x, mentions e x \/ calls e x -> exists v, lookup g loc x = Ok v) -> eval g loc e <> Err NameError.
  Proof.
    intros g loc e [Q1 Q2]. induction e as [s|s|y|op args IH|f args kws IH1 IH2] using expr_ind'; intros H; try (simpl; congruence).
    - simpl. destruct (H y) as [v Hv]; [left; constructor|]. rewrite Hv. congruence.
    - rewrite eval_op.
      assert (G : forall l, incl l args -> evals g loc l <> Err NameError).
      { induction l as [|a l IHl]; intros Hl; simpl; [congruence|].
        assert (Ha : eval g loc a <> Err NameError).
        { apply IH; [apply Hl; simpl; auto|]. intros x [Hx|Hx]; apply H; [left; eapply mn_op|right; eapply cl_op]; eauto; apply Hl; simpl; auto. }
        destruct (eval g loc a) as [v|e]; simpl; [|congruence].
        specialize (IHl (fun z Hz => Hl z (or_intror Hz))).
        destruct (evals g loc l) as [vs|e]; simpl; congruence. }
      specialize (G args (incl_refl _)). destruct (evals g loc args) as [vs|e]; simpl; [apply Q1|congruence].
    - rewrite eval_call. destruct (H f) as [fv Hf]; [right; constructor|]. rewrite Hf. cbn [bind].
      assert (G : forall l, incl l args -> evals g loc l <> Err NameError).
      { induction l as [|a l IHl]; intros Hl; simpl; [congruence|].
        assert (Ha : eval g loc a <> Err NameError).
        { apply IH1; [apply Hl; simpl; auto|]. intros x [Hx|Hx]; apply H; [left; eapply mn_arg|right; eapply cl_arg]; eauto; apply Hl; simpl; auto. }
        destruct (eval g loc a) as [v|e]; simpl; [|congruence].
        specialize (IHl (fun z Hz => Hl z (or_intror Hz))).
        destruct (evals g loc l) as [vs|e]; simpl; congruence. }
      specialize (G args (incl_refl _)). destruct (evals g loc args) as [vs|e]; simpl; [|congruence].
      assert (K : forall l, incl l kws -> evalk g loc l <> Err NameError).
      { induction l as [|[k a] l IHl]; intros Hl; simpl; [congruence|].
        assert (Ha : eval g loc a <> Err NameError).
        { apply (IH2 k); [apply Hl; simpl; auto|]. intros x [Hx|Hx]; apply H; [left; eapply mn_kw|right; eapply cl_kw]; eauto; apply Hl; simpl; auto. }
        destruct (eval g loc a) as [v|e]; simpl; [|congruence].
        specialize (IHl (fun z Hz => Hl z (or_intror Hz))).
        destruct (evalk g loc l) as [ks|e]; simpl; congruence. }
      specialize (K kws (incl_refl _)). destruct (evalk g loc kws) as [ks|e]; simpl; [apply Q2|congruence].
  Qed.

  Lemma is_executable_spec : forall e (loc : env w), is_executable e loc = true <->
    (forall x, mentions e x -> ~ calls e x -> loc x <> None) /\ (forall f, calls e f -> w_math w f <> None).
  Proof.
    intros e loc. unfold is_executable. rewrite andb_true_iff, !forallb_forall. split; intros [H1 H2]; split.
    - intros x Hm Hc. specialize (H1 x (proj2 (evars_In e x) (conj Hm Hc))). destruct (loc x); congruence.
    - intros f Hf. specialize (H2 f (proj2 (fnames_spec e f) Hf)). destruct (w_math w f); congruence.
    - intros x Hx. apply evars_In in Hx. specialize (H1 x (proj1 Hx) (proj2 Hx)). destruct (loc x); congruence.
    - intros f Hf. apply fnames_spec in Hf. specialize (H2 f Hf). destruct (w_math w f); congruence.
  Qed.

  Lemma calls_dec : forall e x, calls e x \/ ~ calls e x.
  Proof. intros. rewrite <- fnames_spec. apply In_dec_name. Qed.

  Lemma executable_no_name_error : forall e (loc : env w), quiet w -> is_executable e loc = true ->
    execute e loc <> Err NameError.
  Proof.
    intros e loc Q H. apply is_executable_spec in H. destruct H as [H1 H2].
    apply eval_no_name_error; auto. intros x Hx. unfold lookup.
    destruct (loc x) as [v|] eqn:E; eauto. destruct (calls_dec e x) as [Hc|Hc].
    - specialize (H2 x Hc). destruct (w_math w x); [eauto|congruence].
    - destruct Hx as [Hx|Hx]; [|tauto]. specialize (H1 x Hx Hc). congruence.
  Qed.

  (** ** Function nodes *)

  Lemma restrict_err : forall (pas : env w) ps, (exists p, In p ps /\ pas p = None) <-> restrict pas ps = Err KeyError.
  Proof.
    intros pas ps. induction ps as [|p ps IH]; simpl.
    - split; [intros [p [[] _]]|discriminate].
    - destruct (pas p) as [v|] eqn:E.
      + split.
        * intros [q [[->|Hq] Hn]]; [congruence|]. rewrite (proj1 IH); auto. exists q. auto.
        * intros H. destruct (restrict pas ps) as [d|e]; simpl in H; [discriminate|].
          inversion H; subst. destruct (proj2 IH eq_refl) as [q [H1 H2]]. exists q. auto.
      + split; auto. intros _. exists p. auto.
  Qed.

  Lemma restrict_ok : forall (pas : env w) ps, (forall p, In p ps -> pas p <> None) ->
    exists d, restrict pas ps = Ok d /\ forall x, dget d x = if mem x ps then pas x else None.
  Proof.
    intros pas ps. induction ps as [|p ps IH]; intros H; simpl.
    - exists []. auto.
    - destruct (pas p) as [v|] eqn:E; [|exfalso; apply (H p); simpl; auto].
      destruct IH as [d [Hd Hi]]; [intros; apply H; simpl; auto|]. rewrite Hd. simpl. eexists. split; [reflexivity|].
      intros x. simpl. destruct (String.eqb x p) eqn:Ex; simpl.
      + apply String.eqb_eq in Ex. subst. auto.
      + rewrite Hi. auto.
  Qed.

  Lemma restrict_cases : forall (pas : env w) ps, (exists d, restrict pas ps = Ok d) \/ restrict pas ps = Err KeyError.
  Proof.
    intros pas ps. induction ps as [|p ps IH]; simpl; eauto.
    destruct (pas p); auto. destruct IH as [[d ->]| ->]; simpl; eauto.
  Qed.

  Lemma restrict_agree : forall (pas pas' : env w) ps, (forall p, In p ps -> pas p = pas' p) ->
    restrict pas ps = restrict pas' ps.
  Proof.
    intros pas pas' ps. induction ps as [|p ps IH]; intros H; simpl; auto.
    rewrite (H p), IH; simpl; auto. intros; apply H; simpl; auto.
  Qed.

  (** a node reads its parents, an exogenous node its own entry, a distribution every name of
      its (completed) definition *)
  Definition reads (l : loci w) (x : name) : Prop :=
    match l with
    | LValue _ _ | LPseudo _ _ => False
    | LExo n => x = n
    | LDist _ f _ => exists c, @complete_def w f = Ok c /\ (mentions c x \/ calls c x)
    | LFunc _ _ ps => In x ps
    end.

  Lemma get_distribution_agree : forall f (pas pas' : env w),
    (forall c x, @complete_def w f = Ok c -> mentions c x \/ calls c x -> pas x = pas' x) ->
    get_distribution f pas = get_distribution f pas'.
  Proof.
    intros f pas pas' H. unfold get_distribution, parse_distribution, get_blueprint.
    destruct (@complete_def w f) as [c|e] eqn:E; simpl; auto.
    rewrite (eval_agree _ pas pas' c); auto. intros x Hx. eapply H; eauto.
  Qed.

  Lemma render_agree : forall (l : loci w) pas pas' r, (forall x, reads l x -> pas x = pas' x) ->
    render l pas r = render l pas' r.
  Proof.
    intros l pas pas' r H. destruct l as [n v|n|n f ps|n e ps|n ps]; simpl; auto.
    - rewrite (H n); simpl; auto.
    - rewrite (get_distribution_agree f pas pas'); auto. intros c x Hc Hx. apply H. simpl. eauto.
    - rewrite (restrict_agree pas pas' ps); auto.
  Qed.

  Lemma render_func_missing : forall n e ps pas r, (exists p, In p ps /\ pas p = None) ->
    render (w:=w) (LFunc n e ps) pas r = Err KeyError.
  Proof. intros n e ps pas r H. simpl. rewrite (proj1 (restrict_err pas ps)); auto. Qed.
End EvalProofs.

(** ** parse_function *)

Lemma awalk_skip : forall xs fuel rest,
  awalk (length xs + fuel) (xs ++ rest) = xs ++ awalk fuel (rest ++ flat_map achildren xs).
Proof.
  induction xs as [|x xs IH]; intros fuel rest; simpl.
  - rewrite app_nil_r. auto.
  - rewrite <- app_assoc, IH, <- app_assoc. auto.
Qed.

Definition call_args (args : list expr) (kws : list (name * expr)) : list parg :=
  map (PArg None) args ++ map (fun p => PArg (Some (fst p)) (snd p)) kws.

Lemma parse_args_positional : forall args l, parse_args (map AE args ++ l) false = map (PArg None) args ++ parse_args l false.
Proof. induction args as [|a args IH]; intros l; simpl; auto. rewrite IH. auto. Qed.

Lemma parse_args_keywords : forall kws l b, parse_args (map (fun p => AKw (fst p) (snd p)) kws ++ l) b =
  map (fun p => PArg (Some (fst p)) (snd p)) kws ++ parse_args l (match kws with [] => b | _ => true end).
Proof.
  induction kws as [|[k a] kws IH]; intros l b; simpl; auto. rewrite IH. f_equal. destruct kws; auto.
Qed.

Lemma esize_pos : forall e, 1 <= esize e.
Proof. destruct e; simpl; lia. Qed.

Lemma fuel_call : forall args kws, exists k,
  3 + fold_right (fun a n => esize a + n) 0 args + fold_right (fun (p : name * expr) n => S (esize (snd p)) + n) 0 kws
  = S (S (length (map AE args ++ map (fun p : name * expr => AKw (fst p) (snd p)) kws) + S k)).
Proof.
  intros args kws. rewrite app_length, !map_length.
  assert (H1 : length args <= fold_right (fun a n => esize a + n) 0 args).
  { induction args as [|a args IH]; simpl; auto. pose proof (esize_pos a). lia. }
  assert (H2 : length kws <= fold_right (fun (p : name * expr) n => S (esize (snd p)) + n) 0 kws).
  { induction kws as [|p kws IH]; simpl in *; auto. lia. }
  exists (fold_right (fun a n => esize a + n) 0 args + fold_right (fun (p : name * expr) n => S (esize (snd p)) + n) 0 kws
          - length args - length kws). lia.
Qed.

Lemma walk_call : forall f args kws, exists rest,
  walk (ECall f args kws) = AE (ECall f args kws) :: AE (EName f) ::
     map AE args ++ map (fun p => AKw (fst p) (snd p)) kws ++ ALoad :: rest.
Proof.
  intros f args kws. unfold walk. cbn [esize].
  destruct (fuel_call args kws) as [k Hk]. rewrite Hk.
  cbn [awalk app]. cbn [achildren].
  set (xs := map AE args ++ map (fun p => AKw (fst p) (snd p)) kws).
  cbn [awalk app achildren]. rewrite awalk_skip. cbn [awalk app]. eexists. unfold xs. rewrite <- app_assoc. reflexivity.
Qed.

Lemma parse_function_call : forall f args kws,
  parse_function (ECall f args kws) = mkParsed (ECall f args kws) (Some f) (call_args args kws).
Proof.
  intros f args kws. unfold parse_function. destruct (walk_call f args kws) as [rest ->].
  cbn [parse_start]. rewrite parse_args_positional, parse_args_keywords. cbn [parse_args].
  rewrite app_nil_r. auto.
Qed.

Lemma first_call_call : forall f args kws, first_call (walk (ECall f args kws)) = Some (f, args, kws).
Proof. intros. destruct (walk_call f args kws) as [rest ->]. auto. Qed.

Lemma call_args_vars : forall args kws ls x, ls = map parg_vars (call_args args kws) ->
  ((exists s, In s ls /\ In x s) <->
   (exists a, In a args /\ In x (evars a)) \/ (exists k a, In (k, a) kws /\ In x (evars a))).
Proof.
  intros args kws ls x ->. unfold call_args. rewrite map_app, !map_map. split.
  - intros [s [Hs Hx]]. apply in_app_iff in Hs. destruct Hs as [Hs|Hs]; apply in_map_iff in Hs.
    + destruct Hs as [a [<- Ha]]. left. exists a. auto.
    + destruct Hs as [[k a] [<- Ha]]. right. exists k, a. auto.
  - intros [[a [Ha Hx]]|[k [a [Ha Hx]]]].
    + exists (evars a). split; auto. apply in_app_iff. left. apply in_map_iff. exists a. auto.
    + exists (evars a). split; auto. apply in_app_iff. right. apply in_map_iff. exists (k, a). auto.
Qed.

Lemma parsed_parents_call : forall f args kws, (args <> [] \/ kws <> []) ->
  exists ps, parsed_parents (parse_function (ECall f args kws)) = Ok ps /\ NoDup ps /\
    forall x, In x ps <-> (exists a, In a args /\ mentions a x /\ ~ calls a x)
                         \/ (exists k a, In (k, a) kws /\ mentions a x /\ ~ calls a x).
Proof.
  intros f args kws Hne. rewrite parse_function_call. unfold parsed_parents. simpl.
  destruct (set_union_star (map parg_vars (call_args args kws))) as [ps|e] eqn:E.
  - exists ps. split; auto. apply set_union_star_ok in E. destruct E as [_ [Hn Hi]]. split; auto.
    intros x. rewrite Hi, (call_args_vars args kws _ x eq_refl).
    split.
    + intros [[a [H1 H2]]|[k [a [H1 H2]]]]; [left; exists a|right; exists k, a]; apply evars_In in H2; tauto.
    + intros [[a [H1 H2]]|[k [a [H1 H2]]]]; [left; exists a|right; exists k, a]; rewrite evars_In; tauto.
  - exfalso. destruct args as [|a args]; [destruct kws as [|k kws]; [tauto|]|]; simpl in E; discriminate.
Qed.

(** the walk visits every node: more fuel changes nothing *)
Definition asize (n : anode) : nat :=
  match n with AE e => esize e | AKw _ e => S (esize e) | ALoad | AOp _ => 1 end.
Definition asizes (l : list anode) : nat := fold_right (fun n s => asize n + s) 0 l.

Lemma asizes_app : forall l m, asizes (l ++ m) = asizes l + asizes m.
Proof. intros l m. unfold asizes. induction l as [|x l IH]; simpl; auto. rewrite IH. lia. Qed.

Lemma asizes_args : forall l, asizes (map AE l) = fold_right (fun a n => esize a + n) 0 l.
Proof. induction l as [|a l IH]; unfold asizes in *; simpl in *; auto. Qed.

Lemma asizes_kws : forall l, asizes (map (fun p : name * expr => AKw (fst p) (snd p)) l)
                       = fold_right (fun (p : name * expr) n => S (esize (snd p)) + n) 0 l.
Proof. induction l as [|a l IH]; unfold asizes in *; simpl in *; auto. Qed.

Lemma asize_children : forall n, asize n = S (asizes (achildren n)).
Proof.
  intros [e|k e| |op]; try (simpl; lia).
  destruct e as [s|s|x|op args|f args kws]; try (simpl; lia).
  - destruct args as [|a [|c args]]; try (simpl; lia).
    change (achildren (AE (EOp op (a :: c :: args)))) with ([AE a; AOp op] ++ map AE (c :: args)).
    rewrite asizes_app, asizes_args. simpl. lia.
  - change (achildren (AE (ECall f args kws))) with
      ([AE (EName f)] ++ map AE args ++ map (fun p : name * expr => AKw (fst p) (snd p)) kws).
    rewrite !asizes_app, asizes_args, asizes_kws. unfold asizes. cbn [asize esize fold_right]. lia.
Qed.

Lemma awalk_enough : forall fuel todo, asizes todo <= fuel ->
  awalk fuel todo = awalk (asizes todo) todo /\ length (awalk fuel todo) = asizes todo.
Proof.
  induction fuel as [fuel IH] using lt_wf_ind. intros todo H.
  destruct todo as [|n todo].
  - unfold asizes. simpl. destruct fuel; simpl; auto.
  - pose proof (asize_children n) as Hc.
    assert (Hs : asizes (n :: todo) = S (asizes (todo ++ achildren n))).
    { unfold asizes at 1. simpl. change (fold_right (fun n s => asize n + s) 0 todo) with (asizes todo).
      rewrite asizes_app. lia. }
    rewrite Hs in *. destruct fuel as [|fuel]; [lia|]. simpl.
    destruct (IH fuel) with (todo := todo ++ achildren n) as [H1 H2]; try lia.
    split; [rewrite H1; auto|]. rewrite H2. auto.
Qed.

(** ** complete_def *)

Lemma fill_fields_ok : forall fields args out, fill_fields fields args = Ok out ->
  length out = length fields /\
  forall i k d, nth_error fields i = Some (k, d) ->
    exists e, nth_error out i = Some (k, e) /\ bound_value args i d = Some e.
Proof.
  induction fields as [|[k d] fields IH]; intros args out H; simpl in H.
  - inversion H; subst. split; auto. intros [|i] k d Hi; discriminate.
  - destruct args as [|a args].
    + destruct d as [t|]; [|discriminate].
      destruct (fill_fields fields []) as [rest|e] eqn:E; simpl in H; [|discriminate]. inversion H; subst.
      destruct (IH _ _ E) as [H1 H2]. split; [simpl; auto|]. intros [|i] k' d' Hi; simpl in Hi.
      * inversion Hi; subst. exists (ENum t). auto.
      * destruct (H2 _ _ _ Hi) as [e [He1 He2]]. exists e. split; auto.
        unfold bound_value in *. destruct i; auto.
    + destruct (fill_fields fields args) as [rest|e] eqn:E; simpl in H; [|discriminate]. inversion H; subst.
      destruct (IH _ _ E) as [H1 H2]. split; [simpl; auto|]. intros [|i] k' d' Hi; simpl in Hi.
      * inversion Hi; subst. exists (arg_text a). split; auto. unfold bound_value. simpl. destruct a; auto.
      * destruct (H2 _ _ _ Hi) as [e [He1 He2]]. exists e. split; auto.
Qed.

Lemma fill_fields_err : forall fields args e, fill_fields fields args = Err e ->
  e = KeyError /\ exists i k, nth_error fields i = Some (k, None) /\ length args <= i.
Proof.
  induction fields as [|[k d] fields IH]; intros args e H; simpl in H; [discriminate|].
  destruct args as [|a args].
  - destruct d as [t|].
    + destruct (fill_fields fields []) as [rest|e'] eqn:E; simpl in H; [discriminate|]. inversion H; subst.
      destruct (IH _ _ E) as [-> [i [k' [Hi Hl]]]]. split; auto. exists (S i), k'. split; auto; simpl; lia.
    + inversion H; subst. split; auto. exists 0, k. split; auto.
  - destruct (fill_fields fields args) as [rest|e'] eqn:E; simpl in H; [discriminate|]. inversion H; subst.
    destruct (IH _ _ E) as [-> [i [k' [Hi Hl]]]]. split; auto. exists (S i), k'. split; auto; simpl; lia.
Qed.

Lemma fill_fields_missing : forall fields args i k, nth_error fields i = Some (k, None) -> length args <= i ->
  fill_fields fields args = Err KeyError.
Proof.
  intros fields args i k Hi Hl. destruct (fill_fields fields args) as [out|e] eqn:E.
  - destruct (fill_fields_ok _ _ _ E) as [_ H]. destruct (H _ _ _ Hi) as [x [_ Hx]].
    unfold bound_value in Hx. rewrite (proj2 (nth_error_None args i) Hl) in Hx. discriminate.
  - apply fill_fields_err in E. destruct E as [-> _]. auto.
Qed.

Lemma fill_fields_keys : forall fields args out, fill_fields fields args = Ok out -> map fst out = map fst fields.
Proof.
  induction fields as [|[k d] fields IH]; intros args out H; simpl in H.
  - inversion H; auto.
  - destruct args as [|a args]; [destruct d as [t|]; [|discriminate]|];
      match type of H with bind ?m _ = _ => destruct m as [rest|e] eqn:E end; simpl in H; try discriminate;
      inversion H; subst; simpl; erewrite IH; eauto.
Qed.

Lemma fill_fields_extra : forall fields args extra, length fields <= length args ->
  fill_fields fields (args ++ extra) = fill_fields fields args.
Proof.
  induction fields as [|[k d] fields IH]; intros args extra H; simpl; auto.
  destruct args as [|a args]; simpl in *; [lia|]. rewrite IH; auto. lia.
Qed.

Section Complete.
  Context {w : world}.

  Definition unnamed (req : list (name * option string)) (kws : list (name * expr)) :=
    filter (fun p : name * option string => negb (mem (fst p) (map fst kws))) req.

  Lemma complete_def_call : forall tp args kws req, w_schema w tp = Some req ->
    @complete_def w (ECall tp args kws) =
      match unnamed req kws with
      | [] => Ok (ECall tp args kws)
      | _ => do temp <- fill_fields (unnamed req kws) args; Ok (ECall tp [] (temp ++ kws))
      end.
  Proof.
    intros tp args kws req H. unfold complete_def. rewrite first_call_call, H. reflexivity.
  Qed.

  Lemma complete_def_idem : forall e c, @complete_def w e = Ok c -> @complete_def w c = Ok c.
  Proof.
    intros e c H. unfold complete_def in H.
    destruct (first_call (walk e)) as [[[tp args] kws]|] eqn:E1; [|discriminate].
    destruct (w_schema w tp) as [req|] eqn:E2; [|discriminate].
    change (filter (fun p : name * option string => negb (mem (fst p) (map fst kws))) req) with (unnamed req kws) in H.
    destruct (unnamed req kws) as [|u us] eqn:E3.
    - inversion H; subst. unfold complete_def. rewrite E1, E2. fold (unnamed req kws).
      change (filter (fun p : name * option string => negb (mem (fst p) (map fst kws))) req) with (unnamed req kws).
      rewrite E3. auto.
    - destruct (fill_fields (u :: us) args) as [temp|e'] eqn:E4; simpl in H; [|discriminate].
      inversion H; subst. rewrite (complete_def_call _ _ _ req); auto.
      replace (unnamed req (temp ++ kws)) with (@nil (name * option string)); auto.
      apply fill_fields_keys in E4. unfold unnamed.
      symmetry. 
      assert (G : forall p, In p req -> mem (fst p) (map fst (temp ++ kws)) = true).
      { intros p Hp. apply mem_In. rewrite map_app, in_app_iff.
        destruct (mem (fst p) (map fst kws)) eqn:Em; [right; apply mem_In; auto|left].
        rewrite E4, <- E3. apply in_map. apply filter_In. split; auto. rewrite Em. auto. }
      clear - G. induction req as [|p req IH]; simpl; auto.
      rewrite (G p) by (simpl; auto). simpl. apply IH. intros; apply G; simpl; auto.
  Qed.

  (** ** JSON round trip *)

  Lemma loci_json_roundtrip : forall l : loci w, storable l -> loci_from_json (loci_to_json l) = Ok l.
  Proof.
    intros [n v|n|n f ps|n e ps|n ps] H; unfold loci_from_json; simpl in *.
    - unfold mk_value. rewrite H. auto.
    - auto.
    - unfold mk_dist. destruct H as [H1 H2]. rewrite H1. simpl. destruct ps as [|p ps]; auto.
      rewrite H2; auto.
    - unfold mk_func, or_else. destruct ps as [|p ps]; auto.
      replace (evars e) with (@nil name); auto.
      destruct (evars e) as [|x l] eqn:E; auto.
      assert (Hx : In x (evars e)) by (rewrite E; simpl; auto). apply evars_In in Hx. destruct Hx as [H1 H2].
      exfalso. apply H2. apply H; auto.
    - unfold mk_pseudo. destruct ps as [|p ps]; [congruence|auto].
  Qed.

  Lemma mk_func_storable : forall n e ps l, mk_func (w:=w) n e ps = Ok l -> storable l.
  Proof.
    intros n e ps l H. unfold mk_func, or_else in H. inversion H; subst. simpl. destruct ps as [|p ps]; [|discriminate].
    intros E x Hx. destruct (calls_dec e x) as [Hc|Hc]; auto.
    assert (Hi : In x (evars e)) by (apply evars_In; auto). rewrite E in Hi. destruct Hi.
  Qed.

  Lemma mk_value_storable : forall n v l, mk_value (w:=w) n v = Ok l ->
    (forall v', w_code w v = Some (Ok v') -> w_code w v' = None) -> storable l.
  Proof.
    intros n v l H Hc. unfold mk_value in H. destruct (w_code w v) as [r|] eqn:E.
    - destruct r as [v'|e]; simpl in H; [|discriminate]. inversion H; subst. simpl. auto.
    - inversion H; subst. simpl. auto.
  Qed.

  (** a distribution written as a call without text literals among its positional arguments *)
  Lemma mk_dist_storable : forall n tp args kws ps l,
    (forall a, In a args -> forall s, a <> EStr s) ->
    mk_dist (w:=w) n (ECall tp args kws) ps = Ok l -> storable l.
  Proof.
    intros n tp args kws ps l Hs H. unfold mk_dist in H.
    destruct (@complete_def w (ECall tp args kws)) as [c|e] eqn:Ec; simpl in H; [|discriminate].
    assert (Hidem : @complete_def w c = Ok c) by (eapply complete_def_idem; eauto).
    destruct ps as [|p ps].
    2:{ inversion H; subst. simpl. split; auto. discriminate. }
    destruct (parsed_parents (parse_function (ECall tp args kws))) as [qs|e] eqn:Ep; simpl in H; [|discriminate].
    inversion H; subst. simpl. split; auto. intros ->.
    unfold complete_def in Ec. rewrite first_call_call in Ec.
    destruct (w_schema w tp) as [req|]; [|discriminate].
    fold (unnamed req kws) in Ec.
    change (filter (fun p : name * option string => negb (mem (fst p) (map fst kws))) req) with (unnamed req kws) in Ec.
    destruct (unnamed req kws) as [|u us] eqn:E3.
    - inversion Ec; subst. auto.
    - destruct (fill_fields (u :: us) args) as [temp|e'] eqn:E4; simpl in Ec; [|discriminate].
      inversion Ec; subst. clear Ec.
      assert (Hne : args <> [] \/ kws <> []).
      { destruct args as [|a0 args]; [|left; discriminate]. destruct kws as [|k0 kws]; [|right; discriminate].
        rewrite parse_function_call in Ep. unfold parsed_parents in Ep. simpl in Ep. discriminate. }
      destruct (parsed_parents_call tp args kws Hne) as [ps [Hps [_ Hi]]]. rewrite Ep in Hps. inversion Hps; subst ps. clear Hps.
      assert (Hk : temp ++ kws <> []).
      { apply fill_fields_keys in E4. destruct temp; [discriminate|discriminate]. }
      destruct (parsed_parents_call tp [] (temp ++ kws)) as [ps [Hps [_ Hi2]]]; auto.
      rewrite Hps. f_equal. destruct ps as [|x ps]; auto. exfalso.
      destruct (proj1 (Hi2 x)) as [[a [[] _]]|[k [a [Ha [Hm Hc]]]]]; [simpl; auto|].
      apply in_app_iff in Ha. destruct Ha as [Ha|Ha].
      + (* from the completed fields *)
        apply In_nth_error in Ha. destruct Ha as [i Ha].
        destruct (fill_fields_ok _ _ _ E4) as [Hlen Hnth].
        destruct (nth_error (u :: us) i) as [[k' d]|] eqn:Eu.
        * destruct (Hnth _ _ _ Eu) as [e [He1 He2]]. rewrite Ha in He1. inversion He1; subst.
          unfold bound_value in He2. destruct (nth_error args i) as [a0|] eqn:Ea.
          -- assert (Hina : In a0 args) by (eapply nth_error_In; eauto).
             assert (e = a0).
             { destruct a0 as [s|s|y|o l|f l m]; try (inversion He2; auto; fail). exfalso. apply (Hs (EStr s) Hina s); auto. }
             subst. apply (in_nil (a:=x)). apply Hi. left. exists a0. auto.
          -- destruct d as [t|]; simpl in He2; [|discriminate]. inversion He2; subst. inversion Hm.
        * apply nth_error_None in Eu. assert (nth_error temp i = None) by (apply nth_error_None; lia). congruence.
      + apply (in_nil (a:=x)). apply Hi. right. exists k, a. auto.
  Qed.
End Complete.
