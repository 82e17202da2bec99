(** * Properties C30-C34 and C36: expressions, node definitions and their JSON form *)

Require Import Verif.Base Verif.World Verif.ModelExpr Verif.ModelLoci Verif.SpecExpr Verif.ProofBase Verif.ProofExpr
        Verif.ExWorld.
Require Import Coq.ZArith.ZArith Coq.micromega.Lia.

Definition e_sum (a b : expr) : expr := EOp "+" [a; b].
Definition exenv (l : dict pv) : env exw := fun n => dget l n.

(** ** C30 *)

Theorem C30_parents : forall e x, In x (fst (parse_parents e)) <-> mentions e x /\ ~ calls e x.
Proof. intros e x. apply evars_In. Qed.
Print Assumptions C30_parents.

Theorem C30_functions : forall e x, In x (snd (parse_parents e)) <-> calls e x.
Proof. intros e x. unfold parse_parents. simpl. rewrite to_set_In. apply fnames_spec. Qed.
Print Assumptions C30_functions.

Theorem C30_no_duplicates : forall e, NoDup (fst (parse_parents e)) /\ NoDup (snd (parse_parents e)).
Proof. intros e. split; [apply evars_NoDup|apply to_set_NoDup]. Qed.
Print Assumptions C30_no_duplicates.

Theorem C30_reads_only_its_names : forall w e (loc loc' : env w),
  (forall x, mentions e x \/ calls e x -> loc x = loc' x) -> execute e loc = execute e loc'.
Proof. intros w e loc loc' H. apply eval_agree; auto. Qed.
Print Assumptions C30_reads_only_its_names.

(** With the values of the parents alone, whatever else the environment holds. *)
Theorem C30_parents_suffice : forall w e (loc loc' : env w),
  (forall x, In x (fst (parse_parents e)) -> loc x = loc' x) ->
  (forall x, calls e x -> loc x = None /\ loc' x = None) ->
  execute e loc = execute e loc'.
Proof.
  intros w e loc loc' H1 H2. apply eval_agree. intros x [Hx|Hx].
  - destruct (calls_dec e x) as [Hc|Hc].
    + destruct (H2 x Hc). congruence.
    + apply H1. apply C30_parents. auto.
  - destruct (H2 x Hx). congruence.
Qed.
Print Assumptions C30_parents_suffice.

Theorem C30_executable : forall w e (loc : env w), is_executable e loc = true <->
  (forall x, mentions e x -> ~ calls e x -> loc x <> None) /\ (forall f, calls e f -> w_math w f <> None).
Proof. intros. apply is_executable_spec. Qed.
Print Assumptions C30_executable.

(** Missing: operators or called functions that raise NameError themselves. *)
Theorem C30_executable_no_name_error_partial : forall w e (loc : env w), quiet w -> is_executable e loc = true ->
  execute e loc <> Err NameError /\ forall t, math_call e loc <> Ok (inr t).
Proof.
  intros w e loc Q H. pose proof (executable_no_name_error e loc Q H) as N. split; auto.
  intros t Ht. unfold math_call in Ht. destruct (execute e loc) as [v|[]]; try discriminate. apply N. auto.
Qed.
Print Assumptions C30_executable_no_name_error_partial.

(** When execution does not find a name: a value or function that is neither in scope, nor a
    mathematical function, nor a builtin. *)
Theorem C30_name_error_reason : forall w e (loc : env w), quiet w -> execute e loc = Err NameError ->
  exists x, (mentions e x \/ calls e x) /\ loc x = None /\ w_math w x = None /\ w_builtin w x = None.
Proof.
  intros w e loc Q H.
  destruct (existsb (fun x => match @lookup w (w_math w) loc x with Ok _ => false | Err _ => true end) (enames e)) eqn:E.
  - apply existsb_exists in E. destruct E as [x [Hx Hl]]. apply enames_spec in Hx. exists x. split; auto.
    unfold lookup in Hl. destruct (loc x); [discriminate|]. destruct (w_math w x); [discriminate|].
    destruct (w_builtin w x); [discriminate|]. auto.
  - exfalso. apply (eval_no_name_error (w_math w) loc e Q); auto.
    intros x Hx. apply enames_spec in Hx.
    destruct (@lookup w (w_math w) loc x) as [v|] eqn:El; eauto.
    assert (T : existsb (fun x => match @lookup w (w_math w) loc x with Ok _ => false | Err _ => true end) (enames e) = true);
      [|congruence].
    apply existsb_exists. exists x. rewrite El. auto.
Qed.
Print Assumptions C30_name_error_reason.

(** is_executable is not complete: a builtin can be called, a function can be used as a value. *)
Theorem C30_executable_complete_refuted :
  exists (e : expr) (loc : env exw) v, execute e loc = Ok v /\ is_executable e loc = false.
Proof.
  exists (EName "abs"), (exenv []), (PFun "abs"). split; reflexivity.
Qed.
Print Assumptions C30_executable_complete_refuted.

Lemma exw_quiet : quiet exw.
Proof.
  split.
  - intros op [|[a|a|a| |a l] [|[b|b|b| |b m] [|c vs]]]; simpl; unfold ex_op;
      repeat match goal with |- context [if ?t then _ else _] => destruct t end; discriminate.
  - intros f vs ks. simpl. unfold ex_call. destruct f as [z|s|f| |tp fields]; try discriminate.
    + destruct (string_dec f "exp") as [->|N].
      * destruct vs as [|[a|a|a| |a l] [|b vs]], ks; discriminate.
      * destruct (string_dec f "max") as [->|N2].
        -- destruct vs as [|[a|a|a| |a l] [|[b|b|b| |b m] [|c vs]]], ks; discriminate.
        -- repeat (destruct f as [|[[] [] [] [] [] [] [] []] f]; try discriminate); congruence.
    + destruct fields; [destruct vs|]; discriminate.
Qed.

Example C30_example :
  let e := e_sum (ECall "exp" [EName "a"] []) (EName "b") in
  let loc := exenv [("a", PZ 3); ("b", PZ 2); ("c", PZ 0)] in
  parse_parents e = (["a"; "b"], ["exp"]) /\ quiet exw /\ is_executable e loc = true /\ execute e loc = Ok (PZ 10)
  /\ math_call e (exenv [("a", PZ 3)]) = Ok (inr e).
Proof. cbv zeta. splits; try reflexivity. apply exw_quiet. Qed.

(** ** C31 *)

Theorem C31_missing_parent : forall w n e ps (pas : env w) r, (exists p, In p ps /\ pas p = None) ->
  render (LFunc n e ps) pas r = Err KeyError.
Proof. intros. apply render_func_missing; auto. Qed.
Print Assumptions C31_missing_parent.

Theorem C31_parents_only : forall w n e ps (pas pas' : env w) r, (forall p, In p ps -> pas p = pas' p) ->
  render (LFunc n e ps) pas r = render (LFunc n e ps) pas' r.
Proof. intros w n e ps pas pas' r H. apply render_agree. auto. Qed.
Print Assumptions C31_parents_only.

(** The value is the value of the expression in the environment made of the parents only; no
    random number is consumed. *)
Theorem C31_value : forall w n e ps (pas : env w) r v r', render (LFunc n e ps) pas r = Ok (v, r') <->
  (forall p, In p ps -> pas p <> None) /\ r' = r
  /\ execute e (fun x => if mem x ps then pas x else None) = Ok v.
Proof.
  intros w n e ps pas r v r'. split.
  - intros H. assert (Hp : forall p, In p ps -> pas p <> None).
    { intros p Hp Hn. rewrite render_func_missing in H; [discriminate|eauto]. }
    split; auto. simpl in H. destruct (restrict_ok pas ps Hp) as [d [E Hd]]. rewrite E in H.
    assert (Ee : execute e (dget d) = execute e (fun x => if mem x ps then pas x else None)) by (apply eval_agree; auto).
    rewrite Ee in H. destruct (execute e _) as [v'|x]; [inversion H; subst; auto|destruct x; discriminate].
  - intros [Hp [-> H]]. simpl. destruct (restrict_ok pas ps Hp) as [d [E Hd]]. rewrite E.
    assert (Ee : execute e (dget d) = execute e (fun x => if mem x ps then pas x else None)) by (apply eval_agree; auto).
    rewrite Ee, H. auto.
Qed.
Print Assumptions C31_value.

(** A node built from its expression never lacks a value when its parents are given: the
    result, exception included, is that of the expression. *)
Theorem C31_default_parents : forall w n e l (pas : env w) r, quiet w -> mk_func n e [] = Ok l ->
  (forall p, mentions e p -> ~ calls e p -> pas p <> None) ->
  (forall f, calls e f -> w_math w f <> None) ->
  render l pas r = do v <- execute e (fun y => if mem y (evars e) then pas y else None); Ok (v, r).
Proof.
  intros w n e l pas r Q H Hp Hf. inversion H; subst. unfold or_else.
  assert (Hp' : forall p, In p (evars e) -> pas p <> None).
  { intros p Hi. apply evars_In in Hi. destruct Hi. auto. }
  simpl. destruct (restrict_ok pas _ Hp') as [d [Ed Hd]]. rewrite Ed.
  assert (Ee : execute e (dget d) = execute e (fun y => if mem y (evars e) then pas y else None)) by (apply eval_agree; auto).
  rewrite Ee. clear Ee.
  destruct (execute e (fun y => if mem y (evars e) then pas y else None)) as [v|x] eqn:E; [reflexivity|].
  destruct x; try reflexivity. exfalso.
  apply (executable_no_name_error e (fun y => if mem y (evars e) then pas y else None) Q); auto.
  apply is_executable_spec. split; auto. intros x Hx Hc.
  assert (Hi : In x (evars e)) by (apply evars_In; auto). rewrite (proj2 (mem_In _ _) Hi). auto.
Qed.
Print Assumptions C31_default_parents.

Example C31_example :
  let l := LFunc (w:=exw) "f" (e_sum (EName "a") (EName "b")) ["a"; "b"] in
  render l (exenv [("a", PZ 3)]) 0 = Err KeyError
  /\ render l (exenv [("a", PZ 3); ("b", PZ 4); ("c", PZ 9)]) 0 = Ok (PZ 7, 0)
  /\ mk_func (w:=exw) "f" (e_sum (EName "a") (EName "b")) [] = Ok l.
Proof. cbv zeta. splits; reflexivity. Qed.

(** ** C32 *)

(** Missing: pseudo nodes without parents, text constants and quoted text arguments, all false
    (C32_pseudo, C32_text_constant_refuted, C32_text_argument_refuted). *)
Theorem C32_round_trip_partial : forall w (l : loci w), storable l -> loci_from_json (loci_to_json l) = Ok l.
Proof. intros. apply loci_json_roundtrip; auto. Qed.
Print Assumptions C32_round_trip_partial.

(** What the constructors build can be stored, except texts and pseudo nodes without parents. *)
Theorem C32_built_values : forall w n v (l : loci w), w_code w v = None -> mk_value n v = Ok l ->
  loci_from_json (loci_to_json l) = Ok l /\ l = LValue n v.
Proof.
  intros w n v l Hc H. assert (E : l = LValue n v) by (unfold mk_value in H; rewrite Hc in H; congruence).
  split; auto. apply loci_json_roundtrip. subst. auto.
Qed.
Print Assumptions C32_built_values.

Theorem C32_built_functions : forall w n e ps (l : loci w), mk_func n e ps = Ok l -> loci_from_json (loci_to_json l) = Ok l.
Proof. intros w n e ps l H. apply loci_json_roundtrip. eapply mk_func_storable; eauto. Qed.
Print Assumptions C32_built_functions.

(** Distributions: exactly which calls come back different. A quoted text among the positional
    arguments loses its quotes (it becomes a name), and if no parents were noted the reader takes
    these names for the parents. *)
Theorem C32_built_distributions : forall w n tp args kws ps req (l : loci w), w_schema w tp = Some req -> mk_dist n (ECall tp args kws) ps = Ok l ->
  exists c qs qs', l = LDist n c qs /\ loci_from_json (loci_to_json l) = Ok (LDist n c qs')
  /\ (qs <> [] -> qs' = qs)
  /\ (qs = [] -> forall x, In x qs' <-> exists i, i < length (filter (fun p : name * option string => negb (mem (fst p) (map fst kws))) req) /\ nth_error args i = Some (EStr x)).
Proof.
  intros w n tp args kws ps req l S H.
  assert (K : forall c, @complete_def w (ECall tp args kws) = Ok c -> forall qs, l = LDist n c qs -> qs <> [] -> loci_from_json (loci_to_json l) = Ok l).
  { intros c Hc qs -> Hq. apply loci_json_roundtrip. simpl. split; [eapply complete_def_idem; eauto|congruence]. }
  unfold mk_dist in H. destruct (@complete_def w (ECall tp args kws)) as [c|e] eqn:Ec; simpl in H; [|discriminate].
  destruct ps as [|p ps].
  2:{ inversion H; subst. exists c, (p :: ps), (p :: ps). splits; auto; [|discriminate]. eapply K; eauto. discriminate. }
  destruct (parsed_parents (parse_function (ECall tp args kws))) as [qs|e] eqn:Ep; simpl in H; [|discriminate].
  inversion H; subst l. clear H. destruct qs as [|q qs].
  2:{ exists c, (q :: qs), (q :: qs). splits; auto; [|discriminate]. eapply K; eauto. discriminate. }
  exists c, []. unfold loci_from_json, loci_to_json. cbn. unfold mk_dist. rewrite (complete_def_idem _ _ Ec). cbn [bind].
  pose proof Ec as Ec'. rewrite (complete_def_call _ _ _ _ S) in Ec. fold (unnamed req kws).
  destruct (unnamed req kws) as [|u us] eqn:E3.
  - injection Ec as <-. rewrite Ep. cbn [bind]. exists []. splits; auto. intros _ x. split; [intros []|intros (i & I & _); simpl in I; lia].
  - destruct (fill_fields (u :: us) args) as [temp|e'] eqn:E4; [|discriminate]. cbn [bind] in Ec. injection Ec as <-.
    assert (Hne : args <> [] \/ kws <> []).
    { destruct args as [|a0 args]; [|left; discriminate]. destruct kws as [|k0 kws]; [|right; discriminate].
      rewrite parse_function_call in Ep. unfold parsed_parents in Ep. simpl in Ep. discriminate. }
    destruct (parsed_parents_call tp args kws Hne) as [ps [Hps [_ Hi]]]. rewrite Ep in Hps. inversion Hps; subst ps. clear Hps.
    assert (Hk : temp ++ kws <> []).
    { apply fill_fields_keys in E4. destruct temp; discriminate. }
    destruct (parsed_parents_call tp [] (temp ++ kws)) as [ps [Hps [_ Hi2]]]; auto.
    rewrite Hps. cbn [bind]. exists ps. splits; auto; [congruence|]. intros _ x. rewrite Hi2.
    destruct (fill_fields_ok _ _ _ E4) as [Hlen Hnth]. split.
    + intros [[a [[] _]]|[k [a [Ha [Hm Hc]]]]]. apply in_app_iff in Ha. destruct Ha as [Ha|Ha].
      2:{ exfalso. apply (in_nil (a:=x)). apply Hi. right. exists k, a. auto. }
      apply In_nth_error in Ha. destruct Ha as [i Ha].
      assert (Li : i < length (u :: us)) by (rewrite <- Hlen; apply nth_error_Some; congruence).
      destruct (nth_error (u :: us) i) as [[k' d]|] eqn:Eu; [|apply nth_error_None in Eu; lia].
      destruct (Hnth _ _ _ Eu) as [e [He1 He2]]. rewrite Ha in He1. injection He1 as <- <-.
      exists i. split; auto. unfold bound_value in He2. destruct (nth_error args i) as [a0|] eqn:Ea.
      * assert (Hina : In a0 args) by (eapply nth_error_In; eauto).
        destruct a0 as [s|s|y|o l|f l m];
          try (injection He2 as <-; exfalso; apply (in_nil (a:=x)); apply Hi; left; eexists; eauto; fail).
        injection He2 as <-. inversion Hm; subst. auto.
      * destruct d as [t|]; simpl in He2; [|discriminate]. injection He2 as <-. inversion Hm.
    + intros (i & Li & Hx). destruct (nth_error (u :: us) i) as [[k' d]|] eqn:Eu; [|apply nth_error_None in Eu; lia].
      destruct (Hnth _ _ _ Eu) as [e [He1 He2]]. unfold bound_value in He2. rewrite Hx in He2. injection He2 as <-.
      right. exists k', (EName x). split; [apply in_app_iff; left; eapply nth_error_In; eauto|]. split; [constructor|]. intros Q; inversion Q.
Qed.
Print Assumptions C32_built_distributions.

(** Without such arguments they come back the same. *)
Corollary C32_built_plain : forall w n tp args kws ps (l : loci w), (forall a, In a args -> forall s, a <> EStr s) ->
  mk_dist n (ECall tp args kws) ps = Ok l -> loci_from_json (loci_to_json l) = Ok l.
Proof. intros. apply loci_json_roundtrip. eapply mk_dist_storable; eauto. Qed.

(** A text argument: the node that is read back has a parent that the node written did not have. *)
Theorem C32_text_argument_refuted : exists w n tp args (l l' : loci w), mk_dist n (ECall tp args []) [] = Ok l
  /\ loci_from_json (loci_to_json l) = Ok l' /\ loci_parents l = [] /\ loci_parents l' = ["a"%string].
Proof.
  exists exw, "x", "norm", [EStr "a"; ENum "1"]. eexists _, _. split; [reflexivity|]. split; [reflexivity|]. split; reflexivity.
Qed.
Print Assumptions C32_text_argument_refuted.

Theorem C32_pseudo : forall w n ps, loci_from_json (loci_to_json (LPseudo (w:=w) n ps)) =
  match ps with [] => Err TypeError | _ => Ok (LPseudo n ps) end.
Proof. intros w n [|p ps]; reflexivity. Qed.
Print Assumptions C32_pseudo.

Theorem C32_text_constant_refuted : exists v v' : V exw, v <> v'
  /\ loci_from_json (loci_to_json (LValue (w:=exw) "c" v)) = Ok (LValue (w:=exw) "c" v').
Proof. exists (PS "1+1"), (PZ 2). split; [discriminate|reflexivity]. Qed.
Print Assumptions C32_text_constant_refuted.

Example C32_example : mk_dist (w:=exw) "x" (ECall "norm" [EName "a"] []) []
    = Ok (LDist "x" (ECall "norm" [] [("loc", EName "a"); ("scale", ENum "1")]) ["a"])
  /\ storable (LDist (w:=exw) "x" (ECall "norm" [] [("loc", EName "a"); ("scale", ENum "1")]) ["a"])
  /\ storable (LFunc (w:=exw) "f" (ENum "3") []).
Proof.
  splits; try reflexivity.
  - simpl. split; [reflexivity|discriminate].
  - simpl. intros _ x H. inversion H.
Qed.

(** ** C33 *)

(** The fields of the schema not given by keyword, in schema order. *)
Definition open_fields (req : list (name * option string)) (kws : list (name * expr)) :=
  filter (fun p => negb (mem (fst p) (map fst kws))) req.

Theorem C33_completed : forall w tp args kws req c, w_schema w tp = Some req -> open_fields req kws <> [] ->
  @complete_def w (ECall tp args kws) = Ok c ->
  exists temp, c = ECall tp [] (temp ++ kws) /\ map fst temp = map fst (open_fields req kws)
    /\ forall i k d, nth_error (open_fields req kws) i = Some (k, d) ->
         exists v, nth_error temp i = Some (k, v) /\ bound_value args i d = Some v.
Proof.
  intros w tp args kws req c Hs Hn H. rewrite (complete_def_call tp args kws req Hs) in H.
  unfold open_fields in *. unfold unnamed in H.
  destruct (filter (fun p : name * option string => negb (mem (fst p) (map fst kws))) req) as [|f fs] eqn:E; [congruence|].
  destruct (fill_fields (f :: fs) args) as [temp|e] eqn:F; cbn [bind] in H; [|discriminate].
  inversion H; subst. exists temp. splits; auto.
  - eapply fill_fields_keys; eauto.
  - destruct (fill_fields_ok _ _ _ F) as [_ K]. auto.
Qed.
Print Assumptions C33_completed.

(** Every field is then given exactly by keyword. *)
Theorem C33_all_fields : forall w tp args kws req c, w_schema w tp = Some req -> @complete_def w (ECall tp args kws) = Ok c ->
  exists args' kws', c = ECall tp args' kws' /\ (forall k d, In (k, d) req -> In k (map fst kws'))
    /\ (forall k e, In (k, e) kws -> In (k, e) kws') /\ (open_fields req kws <> [] -> args' = []).
Proof.
  intros w tp args kws req c Hs H. destruct (open_fields req kws) as [|f fs] eqn:E.
  - rewrite (complete_def_call tp args kws req Hs) in H. unfold unnamed in H. unfold open_fields in E. rewrite E in H.
    inversion H; subst. exists args, kws. splits; auto; [|congruence]. intros k d Hk.
    destruct (mem k (map fst kws)) eqn:M; [apply mem_In; auto|].
    assert (Hi : In (k, d) (filter (fun p : name * option string => negb (mem (fst p) (map fst kws))) req)).
    { apply filter_In. split; auto. simpl. rewrite M. auto. }
    rewrite E in Hi. destruct Hi.
  - destruct (C33_completed w tp args kws req c Hs) as [temp [-> [H1 H2]]]; auto; [congruence|].
    exists [], (temp ++ kws). splits; auto.
    + intros k d Hk. rewrite map_app, in_app_iff. destruct (mem k (map fst kws)) eqn:M; [right; apply mem_In; auto|left].
      rewrite H1. apply in_map_iff. exists (k, d). split; auto. apply filter_In. split; auto. simpl. rewrite M. auto.
    + intros k e Hk. apply in_app_iff. auto.
Qed.
Print Assumptions C33_all_fields.

Theorem C33_complete_already : forall w tp args kws req, w_schema w tp = Some req -> open_fields req kws = [] ->
  @complete_def w (ECall tp args kws) = Ok (ECall tp args kws).
Proof.
  intros w tp args kws req Hs H. rewrite (complete_def_call tp args kws req Hs). unfold unnamed. unfold open_fields in H.
  rewrite H. auto.
Qed.
Print Assumptions C33_complete_already.

Theorem C33_idempotent : forall w e c, @complete_def w e = Ok c -> @complete_def w c = Ok c.
Proof. intros. eapply complete_def_idem; eauto. Qed.
Print Assumptions C33_idempotent.

Theorem C33_surplus_dropped : forall w tp args extra kws req, w_schema w tp = Some req ->
  open_fields req kws <> [] -> length (open_fields req kws) <= length args ->
  @complete_def w (ECall tp (args ++ extra) kws) = @complete_def w (ECall tp args kws).
Proof.
  intros w tp args extra kws req Hs Hn H. rewrite !(complete_def_call tp _ kws req Hs).
  unfold open_fields in *. unfold unnamed. destruct (filter _ req) as [|f fs] eqn:E; [congruence|].
  rewrite fill_fields_extra; auto.
Qed.
Print Assumptions C33_surplus_dropped.

(** KeyError exactly for an unknown distribution or a field with neither value nor default. *)
Theorem C33_key_error : forall w tp args kws, 
  @complete_def w (ECall tp args kws) = Err KeyError <->
  match w_schema w tp with
  | None => True
  | Some req => exists i k, nth_error (open_fields req kws) i = Some (k, None) /\ length args <= i
  end.
Proof.
  intros w tp args kws. destruct (w_schema w tp) as [req|] eqn:Hs.
  - rewrite (complete_def_call tp _ kws req Hs). unfold open_fields, unnamed.
    destruct (filter _ req) as [|f fs] eqn:E.
    + split; [discriminate|]. intros [[|i] [k [H _]]]; discriminate.
    + split.
      * intros H. destruct (fill_fields (f :: fs) args) as [t|x] eqn:F; cbn [bind] in H; [discriminate|].
        apply fill_fields_err in F. apply F.
      * intros [i [k [H1 H2]]]. rewrite (fill_fields_missing _ _ _ _ H1 H2). auto.
  - split; auto. intros _. unfold complete_def. rewrite first_call_call, Hs. auto.
Qed.
Print Assumptions C33_key_error.

Theorem C33_no_other_error : forall w tp args kws e, @complete_def w (ECall tp args kws) = Err e -> e = KeyError.
Proof.
  intros w tp args kws e H. destruct (w_schema w tp) as [req|] eqn:Hs.
  - rewrite (complete_def_call tp _ kws req Hs) in H. destruct (unnamed req kws) as [|f fs] eqn:E; [discriminate|].
    destruct (fill_fields (f :: fs) args) as [t|x] eqn:F; cbn [bind] in H; [discriminate|].
    apply fill_fields_err in F. destruct F. congruence.
  - unfold complete_def in H. rewrite first_call_call, Hs in H. congruence.
Qed.
Print Assumptions C33_no_other_error.

(** The text around the first call is lost: 2*norm(0,1) becomes the call alone. *)
Theorem C33_context_lost_refuted : exists e c, @complete_def exw e = Ok c
  /\ (forall tp args kws, e <> ECall tp args kws) /\ exists tp args kws, c = ECall tp args kws.
Proof.
  exists (EOp "*" [ENum "2"; ECall "norm" [ENum "0"; ENum "1"] []]). eexists. splits; [reflexivity|discriminate|].
  repeat eexists.
Qed.
Print Assumptions C33_context_lost_refuted.

Example C33_example :
  @complete_def exw (ECall "norm" [EName "a"] [("scale", EName "s")])
    = Ok (ECall "norm" [] [("loc", EName "a"); ("scale", EName "s")])
  /\ @complete_def exw (ECall "norm" [EName "a"; EName "b"; EName "c"] [])
    = Ok (ECall "norm" [] [("loc", EName "a"); ("scale", EName "b")])
  /\ @complete_def exw (ECall "exp" [] []) = Err KeyError
  /\ open_fields [("loc", Some "0"); ("scale", Some "1")] [("scale", EName "s")] <> [].
Proof. splits; try reflexivity. discriminate. Qed.

(** ** C34 *)

Theorem C34_call : forall f args kws, parse_function (ECall f args kws)
  = mkParsed (ECall f args kws) (Some f)
      (map (PArg None) args ++ map (fun p => PArg (Some (fst p)) (snd p)) kws).
Proof. intros. apply parse_function_call. Qed.
Print Assumptions C34_call.

Theorem C34_parents : forall f args kws, args <> [] \/ kws <> [] ->
  exists ps, parsed_parents (parse_function (ECall f args kws)) = Ok ps /\ NoDup ps /\
    forall x, In x ps <-> (exists a, In a args /\ mentions a x /\ ~ calls a x)
                         \/ (exists k a, In (k, a) kws /\ mentions a x /\ ~ calls a x).
Proof. intros. apply parsed_parents_call; auto. Qed.
Print Assumptions C34_parents.

Theorem C34_no_arguments : forall f, parsed_parents (parse_function (ECall f [] [])) = Err TypeError.
Proof. intros f. rewrite parse_function_call. reflexivity. Qed.
Print Assumptions C34_no_arguments.

Example C34_example :
  let e := ECall "norm" [EName "a"; ECall "exp" [EName "b"] []] [("scale", e_sum (EName "s") (EName "a"))] in
  p_args (parse_function e) = [PArg None (EName "a"); PArg None (ECall "exp" [EName "b"] []);
                               PArg (Some "scale") (e_sum (EName "s") (EName "a"))]
  /\ parsed_parents (parse_function e) = Ok ["a"; "b"; "s"].
Proof. vm_compute. auto. Qed.

(** ** C36 *)

Theorem C36_variable_first : forall w g (loc : env w) x v, loc x = Some v -> eval g loc (EName x) = Ok v.
Proof. intros w g loc x v H. simpl. unfold lookup. rewrite H. auto. Qed.
Print Assumptions C36_variable_first.

(** also for the function of a call: a variable called like a function replaces it *)
Theorem C36_shadowed_call : forall w g (loc : env w) f e v, loc f = Some v ->
  eval g loc e = eval (fun x => if String.eqb x f then Some v else g x) (fun x => if String.eqb x f then None else loc x) e.
Proof.
  intros w g loc f e v Hf. apply eval_scope. intros x. unfold lookup. destruct (String.eqb x f) eqn:E; auto.
  apply String.eqb_eq in E. subst. rewrite Hf. auto.
Qed.
Print Assumptions C36_shadowed_call.

(** A missing variable named like a function is no NameError: the function is its value. *)
Theorem C36_missing_variable : forall w (loc : env w) x v, loc x = None -> w_math w x = Some v ->
  execute (EName x) loc = Ok v.
Proof. intros w loc x v H1 H2. unfold execute. simpl. unfold lookup. rewrite H1, H2. auto. Qed.
Print Assumptions C36_missing_variable.

(** In a distribution the functions in scope are the distributions, not the mathematical
    functions: exp(...) as an argument is the exponential distribution. *)
Theorem C36_distribution_scope : forall w (loc : env w) x v, loc x = None -> w_creator w x = Some v ->
  eval (w_creator w) loc (EName x) = Ok v.
Proof. intros w loc x v H1 H2. simpl. unfold lookup. rewrite H1, H2. auto. Qed.
Print Assumptions C36_distribution_scope.

Theorem C36_math_in_distribution_refuted : exists (e : expr) (loc : env exw) v,
  execute e loc = Ok v
  /\ parse_distribution (w:=exw) (ECall "norm" [ENum "0"; ENum "1"] []) loc = Ok (0%Z, 1%Z)
  /\ exists x, parse_distribution (w:=exw) (ECall "norm" [e; ENum "1"] []) loc = Err x.
Proof.
  exists (ECall "exp" [EName "a"] []), (exenv [("a", PZ 3)]), (PZ 8). splits; try reflexivity.
  exists TypeError. reflexivity.
Qed.
Print Assumptions C36_math_in_distribution_refuted.

Example C36_example : execute (w:=exw) (ECall "exp" [EName "a"] []) (exenv [("a", PZ 3); ("exp", PZ 1)]) = Err TypeError
  /\ execute (w:=exw) (EName "exp") (exenv []) = Ok (PFun "exp")
  /\ execute (w:=exw) (EName "exp") (exenv [("exp", PZ 1)]) = Ok (PZ 1).
Proof. splits; reflexivity. Qed.
