(** * Property C108: the arguments of parsed functions *)

Require Import Verif.Base Verif.World Verif.ModelExpr Verif.ModelLoci Verif.ModelArgs Verif.SpecExpr Verif.ProofBase Verif.ProofExpr
        Verif.ExWorld Verif.PropsExpr Verif.ProofNodeSet.
Require Import Coq.ZArith.ZArith.

(** the arguments of a call with their keys, in the order of the text *)
Definition cargs (args : list expr) (kws : list (name * expr)) : list (option name * expr) :=
  map (fun a => (None, a)) args ++ map (fun p => (Some (fst p), snd p)) kws.

Lemma mapM_iff : forall (A B : Type) (f : A -> res B) l r, mapM f l = r <->
  match r with
  | Ok ys => Forall2 (fun x y => f x = Ok y) l ys
  | Err e => exists before a rest, l = before ++ a :: rest /\ Forall (fun x => exists y, f x = Ok y) before /\ f a = Err e
  end.
Proof.
  intros A B f. induction l as [|x l IH]; intros r; simpl.
  - split.
    + intros <-. constructor.
    + destruct r as [ys|e]; intros H; [inversion H; reflexivity|]. destruct H as ([|b bs] & a & rest & H & _); discriminate H.
  - destruct (f x) as [y|e'] eqn:E; cbn [bind].
    + destruct r as [ys|e].
      * split.
        -- destruct (mapM f l) as [ys'|e'] eqn:M; cbn [bind]; [|discriminate]. intros H. injection H as <-. constructor; auto. apply (IH (Ok ys')). reflexivity.
        -- intros H. inversion H; subst. assert (y0 = y) by congruence. subst. match goal with K : Forall2 _ l _ |- _ => apply (IH (Ok _)) in K; rewrite K end. reflexivity.
      * split.
        -- destruct (mapM f l) as [ys'|e'] eqn:M; cbn [bind]; [discriminate|]. intros H. injection H as ->. destruct (proj1 (IH (Err e)) eq_refl) as (bs & a & rest & H1 & H2 & H3).
           exists (x :: bs), a, rest. split; [rewrite H1; reflexivity|]. split; [constructor; eauto|exact H3].
        -- intros (bs & a & rest & H1 & H2 & H3). destruct bs as [|b bs]; [injection H1 as -> ->; congruence|]. injection H1 as <- H1. inversion H2; subst.
           rewrite (proj2 (IH (Err e))); [reflexivity|]. exists bs, a, rest. auto.
    + split.
      * intros <-. exists [], x, l. split; [reflexivity|]. split; [constructor|exact E].
      * destruct r as [ys|e].
        -- intros H. inversion H; subst. congruence.
        -- intros (bs & a & rest & H1 & H2 & H3). destruct bs as [|b bs]; [injection H1 as -> ->; congruence|]. injection H1 as <- H1. inversion H2 as [|? ? [y K]]; subst. congruence.
Qed.
Lemma mapM_map : forall (A B C : Type) (f : B -> res C) (g : A -> B) l, mapM f (map g l) = mapM (fun x => f (g x)) l.
Proof. intros A B C f g. induction l as [|x l IH]; simpl; auto. destruct (f (g x)); simpl; auto. rewrite IH. reflexivity. Qed.
Lemma parsed_cargs : forall f args kws, p_args (parse_function (ECall f args kws)) = map (fun ka => PArg (fst ka) (snd ka)) (cargs args kws).
Proof. intros. rewrite C34_call. cbn [p_args]. unfold cargs. rewrite map_app, !map_map. reflexivity. Qed.

(** The arguments of a call are its positional and keyword arguments in order, each with the value of
    its text; the first one that cannot be evaluated decides the exception. *)
Theorem C108_arguments : forall w f args kws (loc : env w) r, get_arguments (parse_function (ECall f args kws)) loc = r <->
  match r with
  | Ok vs => Forall2 (fun ka kv => fst kv = fst ka /\ execute (snd ka) loc = Ok (snd kv)) (cargs args kws) vs
  | Err x => exists before ka rest, cargs args kws = before ++ ka :: rest
      /\ Forall (fun ka => exists v, execute (snd ka) loc = Ok v) before /\ execute (snd ka) loc = Err x
  end.
Proof.
  intros w f args kws loc r. unfold get_arguments. rewrite parsed_cargs, mapM_map, mapM_iff. destruct r as [vs|x].
  - split; intros H; (eapply Forall2_imp; [|exact H]); intros [k e] [k' v] K; cbn [fst snd] in *.
    + destruct (execute e loc) as [v0|]; cbn [bind] in K; [|discriminate K]. injection K as <- <-. auto.
    + destruct K as [-> ->]. reflexivity.
  - split; intros (before & ka & rest & E & F & X); exists before, ka, rest; (split; [exact E|]); split.
    + eapply Forall_impl; [|exact F]. intros [k e] [y K]. cbn [fst snd] in *. destruct (execute e loc); [eauto|discriminate K].
    + destruct (execute (snd ka) loc); cbn [bind] in X; congruence.
    + eapply Forall_impl; [|exact F]. intros [k e] [v K]. cbn [fst snd] in *. rewrite K. eexists. reflexivity.
    + rewrite X. reflexivity.
Qed.
Print Assumptions C108_arguments.

(** The JSON form never raises NameError: an argument with a missing name is given as text, the others
    as values. Another exception of an argument is raised. *)
Theorem C108_json : forall w f args kws (loc : env w) r, pf_json (parse_function (ECall f args kws)) loc = r <->
  match r with
  | Ok j => fj_source j = ECall f args kws /\ fj_type j = Some f
      /\ Forall2 (fun ka o => match o with
                              | inl v => execute (snd ka) loc = Ok v
                              | inr e => e = snd ka /\ execute (snd ka) loc = Err NameError
                              end) (cargs args kws) (fj_args j)
  | Err x => x <> NameError /\ exists before ka rest, cargs args kws = before ++ ka :: rest
      /\ Forall (fun ka => execute (snd ka) loc = Err NameError \/ exists v, execute (snd ka) loc = Ok v) before /\ execute (snd ka) loc = Err x
  end.
Proof.
  intros w f args kws loc r.
  assert (M : forall e o, math_call e loc = Ok o <-> match o with inl v => execute e loc = Ok v | inr e' => e' = e /\ execute e loc = Err NameError end).
  { intros e o. unfold math_call. destruct (execute e loc) as [v|x].
    - destruct o as [v'|e']; split; intros H; try congruence; destruct H as [_ H]; discriminate H.
    - destruct x, o as [v'|e']; split; intros H; try discriminate H; try (destruct H as [_ H]; discriminate H); [injection H as <-; auto|destruct H as [-> _]; reflexivity]. }
  assert (N : forall e x, math_call e loc = Err x <-> x <> NameError /\ execute e loc = Err x).
  { intros e x. unfold math_call. destruct (execute e loc) as [v|x']; [split; [discriminate|intros [_ H]; discriminate H]|].
    destruct x'; split; intros H; try discriminate H; try (injection H as <-; split; [discriminate|reflexivity]); destruct H as [H1 H2]; congruence. }
  unfold pf_json. rewrite parsed_cargs, mapM_map. cbn [fst snd].
  destruct (mapM (fun x => math_call (snd x) loc) (cargs args kws)) as [os|x] eqn:E; cbn [bind].
  - apply mapM_iff in E. destruct r as [j|x].
    + split.
      * intros H. injection H as <-. cbn [fj_source fj_type fj_args]. split; [reflexivity|]. split; [reflexivity|].
        eapply Forall2_imp; [|exact E]. intros ka o K. apply M. exact K.
      * destruct j as [s t os']. cbn [fj_source fj_type fj_args]. intros (-> & -> & F). rewrite C34_call. cbn [p_source p_fun]. repeat f_equal.
        assert (Q : mapM (fun x => math_call (snd x) loc) (cargs args kws) = Ok os') by (apply mapM_iff; eapply Forall2_imp; [|exact F]; intros ka o K; apply M; exact K).
        apply (mapM_iff _ _ _ _ (Ok os)) in E. congruence.
    + split; [discriminate|]. intros (X & before & ka & rest & E1 & E2 & E3).
      assert (Q : mapM (fun x => math_call (snd x) loc) (cargs args kws) = Err x).
      { apply mapM_iff. exists before, ka, rest. split; [exact E1|]. split; [|apply N; auto]. eapply Forall_impl; [|exact E2]. intros k [K|[v K]].
        - exists (inr (snd k)). apply M. auto.
        - exists (inl v). apply M. auto. }
      apply (mapM_iff _ _ _ _ (Ok os)) in E. congruence.
  - apply mapM_iff in E. destruct E as (before & ka & rest & E1 & E2 & E3). apply N in E3.
    assert (Q : x <> NameError /\ exists before ka rest, cargs args kws = before ++ ka :: rest
      /\ Forall (fun ka => execute (snd ka) loc = Err NameError \/ exists v, execute (snd ka) loc = Ok v) before /\ execute (snd ka) loc = Err x).
    { split; [tauto|]. exists before, ka, rest. split; [exact E1|]. split; [|tauto]. eapply Forall_impl; [|exact E2]. intros k [[v|e] K]; apply M in K; [right; eauto|tauto]. }
    destruct r as [j|x'].
    + split; [discriminate|]. intros (_ & _ & F). exfalso. rewrite E1 in F. apply Forall2_app_inv_l in F. destruct F as (l1 & l2 & _ & F & _). inversion F as [|? o ? ? K]; subst.
      destruct E3 as [E3 E4]. destruct o as [v|e]; [congruence|destruct K as [_ K]; congruence].
    + split; [intros H; injection H as <-; exact Q|]. intros (X & b2 & ka2 & rest2 & F1 & F2 & F3).
      assert (U : mapM (fun x => math_call (snd x) loc) (cargs args kws) = Err x').
      { apply mapM_iff. exists b2, ka2, rest2. split; [exact F1|]. split; [|apply N; auto]. eapply Forall_impl; [|exact F2]. intros k [K|[v K]].
        - exists (inr (snd k)). apply M. auto.
        - exists (inl v). apply M. auto. }
      assert (U2 : mapM (fun x => math_call (snd x) loc) (cargs args kws) = Err x).
      { apply mapM_iff. exists before, ka, rest. split; [exact E1|]. split; [exact E2|apply N; auto]. }
      congruence.
Qed.
Print Assumptions C108_json.

(** An evaluated function has the blueprint and the JSON form of the parsed one, with all arguments
    as values; it exists exactly if the JSON form has no text, and else NameError is raised. *)
Theorem C108_evaluated : forall w f args kws nm (loc : env w) j, let p := parse_function (ECall f args kws) in pf_json p loc = Ok j ->
  (forall e, evaluate_function p loc = Ok e -> pf_blueprint p nm loc = Ok (ef_blueprint e nm) /\ j = ef_json e)
  /\ (forall b, pf_blueprint p nm loc = Ok b -> exists e, evaluate_function p loc = Ok e /\ b = ef_blueprint e nm)
  /\ ((exists e, evaluate_function p loc = Ok e) <-> forall o, In o (fj_args j) -> exists v, o = inl v)
  /\ ((exists t, In (inr t) (fj_args j)) -> evaluate_function p loc = Err NameError /\ pf_blueprint p nm loc = Err NameError).
Proof.
  intros w f args kws nm loc j p J. pose proof (proj1 (C108_json w f args kws loc (Ok j)) J) as (J1 & J2 & J3). fold p in J1.
  unfold evaluate_function, pf_blueprint. pose proof (C108_arguments w f args kws loc (get_arguments p loc)) as [A _]. specialize (A eq_refl). fold p in A.
  assert (Ps : p_source p = ECall f args kws /\ p_fun p = Some f) by (unfold p; rewrite C34_call; auto). destruct Ps as [Ps Pf].
  assert (V : forall vs, Forall2 (fun ka kv => fst kv = fst ka /\ execute (snd ka) loc = Ok (snd kv)) (cargs args kws) vs -> fj_args j = map (fun kv => inl (snd kv)) vs).
  { clear - J3. revert J3. generalize (fj_args j). induction (cargs args kws) as [|ka l IH]; intros os F vs G; inversion F as [|? o ? ? H1 H2]; subst; inversion G as [|? kv ? ? H3 H4]; subst; simpl; auto.
    f_equal; auto. destruct o as [v|e]; [|destruct H1 as [_ H1]; destruct H3 as [_ H3]; congruence]. f_equal. destruct H3 as [_ H3]. congruence. }
  destruct (get_arguments p loc) as [vs|x] eqn:E; cbn [bind].
  - specialize (V vs A). splits.
    + intros e H. injection H as <-. split; [reflexivity|]. unfold ef_json. cbn [ef_source ef_fun ef_args]. rewrite <- V. destruct j; cbn in *. congruence.
    + intros b H. injection H as <-. eexists. split; reflexivity.
    + split; [|eauto]. intros _ o O. rewrite V in O. apply in_map_iff in O. destruct O as (kv & <- & _). eauto.
    + intros [t T]. rewrite V in T. apply in_map_iff in T. destruct T as (kv & T & _). discriminate T.
  - destruct A as (before & ka & rest & E1 & E2 & E3). rewrite E1 in J3. apply Forall2_app_inv_l in J3. destruct J3 as (l1 & l2 & _ & F & El). inversion F as [|? o ? ? K]; subst.
    destruct o as [v|t]; [congruence|]. destruct K as [K1 K2]. assert (x = NameError) by congruence. subst x. split; [intros e Z; discriminate Z|]. split; [intros b Z; discriminate Z|]. split; [|auto].
    split; [intros [e Z]; discriminate Z|]. intros Z. destruct (Z (inr t)) as [v Q]; [rewrite El; apply in_or_app; right; left; reflexivity|discriminate Q].
Qed.
Print Assumptions C108_evaluated.

(** The values of the parents decide everything, if the environment does not replace functions. *)
Theorem C108_parents : forall w f args kws ps nm (loc loc' : env w), let p := parse_function (ECall f args kws) in
  args <> [] \/ kws <> [] -> parsed_parents p = Ok ps -> (forall x, In x ps -> loc x = loc' x) ->
  (forall k a x, In (k, a) (cargs args kws) -> calls a x -> loc x = None /\ loc' x = None) ->
  get_arguments p loc = get_arguments p loc' /\ pf_blueprint p nm loc = pf_blueprint p nm loc' /\ pf_json p loc = pf_json p loc'.
Proof.
  intros w f args kws ps nm loc loc' p N P L F. destruct (C34_parents f args kws N) as (ps' & P' & _ & I). fold p in P'. assert (ps' = ps) by congruence. subst ps'.
  assert (X : forall ka, In ka (cargs args kws) -> execute (snd ka) loc = execute (snd ka) loc').
  { intros [k a] A. cbn [snd]. apply C30_parents_suffice; [|intros x; eapply F; eauto]. intros x Hx. apply C30_parents in Hx. apply L, I.
    unfold cargs in A. apply in_app_or in A. destruct A as [A|A]; apply in_map_iff in A; destruct A as (q & Q & A); inversion Q; subst.
    - left. exists a. tauto.
    - right. exists (fst q), (snd q). rewrite <- surjective_pairing. tauto. }
  assert (G : get_arguments p loc = get_arguments p loc').
  { unfold get_arguments, p. rewrite parsed_cargs, !mapM_map. apply mapM_ext_in. intros ka A. rewrite (X ka A). reflexivity. }
  split; [exact G|]. split; [unfold pf_blueprint; rewrite G; reflexivity|]. unfold pf_json, p. rewrite parsed_cargs, !mapM_map.
  erewrite mapM_ext_in; [reflexivity|]. intros ka A. cbn [fst snd]. unfold math_call. rewrite (X ka A). reflexivity.
Qed.
Print Assumptions C108_parents.

(** An argument as Python shows it: the text of a name is its characters. *)
Definition shown {w : world} (o : V w + expr) : option (V w) :=
  match o with inl v => Some v | inr (EName x) => Some (w_str w x) | inr _ => None end.
(** The JSON form does not tell a text from a missing name. *)
Theorem C108_json_ambiguous_refuted : exists w f a a' (loc : env w) j j' e, pf_json (parse_function (ECall f [a] [])) loc = Ok j
  /\ pf_json (parse_function (ECall f [a'] [])) loc = Ok j' /\ map shown (fj_args j) = map shown (fj_args j')
  /\ (forall o, In o (fj_args j) -> shown o <> None)
  /\ evaluate_function (parse_function (ECall f [a] [])) loc = Ok e /\ evaluate_function (parse_function (ECall f [a'] [])) loc = Err NameError.
Proof.
  exists exw, "my_func", (EStr "k"), (EName "k"), (exenv []). repeat eexists.
  intros o [<-|[]]. discriminate.
Qed.
Print Assumptions C108_json_ambiguous_refuted.

(** the call at the end of util.py: my_func(4*a, k, t=5) *)
Example C108_example : let p := parse_function (ECall "my_func" [EOp "*" [ENum "4"; EName "a"]; EName "k"] [("t", ENum "5")]) in
  get_arguments p (exenv [("k", PZ 7); ("a", PZ 10)]) = Ok [(None, PZ 40); (None, PZ 7); (Some "t", PZ 5)]
  /\ get_arguments p (exenv [("k", PZ 7)]) = Err NameError
  /\ (exists j, pf_json p (exenv [("k", PZ 7)]) = Ok j /\ fj_args j = [inr (EOp "*" [ENum "4"; EName "a"]); inl (PZ 7); inl (PZ 5)])
  /\ parsed_parents p = Ok ["a"; "k"].
Proof. cbv zeta. splits; try (vm_compute; reflexivity). eexists. split; vm_compute; reflexivity. Qed.
