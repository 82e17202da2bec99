(** * Property C118: the operators of the genetic algorithm are found by their names *)

Require Import Verif.Base Verif.World Verif.ModelExpr Verif.ModelScript Verif.ModelAtelier Verif.ModelRecipe Verif.SpecExpr Verif.ProofBase Verif.ProofExpr Verif.PropsAtelier Verif.ExWorld Coq.ZArith.ZArith.

(** ** Specification *)

(** the three kinds of operators, and what is offered under which name *)
Inductive kind := Cro | Mut | Sel.
Inductive offers : kind -> name -> op_class -> Prop :=
| offers_avg : offers Cro "average" CreAvg
| offers_shu : offers Cro "shuffle" CreShu
| offers_rw : offers Mut "rw" CreRw
| offers_tour : offers Sel "tour" CreTour
| offers_imp : offers Sel "importance" CreImp.

Definition centre (cs : centres) (k : kind) : workshop op_class :=
  match k with Cro => ct_cro cs | Mut => ct_mut cs | Sel => ct_sel cs end.

(** a name alone does not end with a closing parenthesis *)
Definition closed (s : text) : Prop := exists s', s = (s' ++ T ")")%list.

(** the operator: the class called with these arguments, and its product *)
Definition product {w : world} (cv : V w) (args : list (V w)) (kws : list (name * V w)) : res (Dist w) :=
  do b <- w_call w cv args kws; w_create w b.

Lemma ends_closed : forall s, ends_paren s = true <-> closed s.
Proof.
  unfold closed. induction s as [|a s IH]; [split; [discriminate|intros [s' E]; destruct s'; discriminate]|].
  destruct s as [|b s].
  - simpl. rewrite Ascii.eqb_eq. split; [intros ->; exists []; auto|]. intros [[|x [|z s']] E]; simpl in E; try discriminate. injection E as ->. auto.
  - change (ends_paren (a :: b :: s)) with (ends_paren (b :: s)). rewrite IH. split; intros [s' E].
    + exists (a :: s'). rewrite E. reflexivity.
    + destruct s' as [|x s']; simpl in E; [discriminate|]. injection E as -> E. exists s'. auto.
Qed.

Section C118.
  Context {w : world} (y : syntax w) (cls : op_class -> V w) (bdict : V w).
  Notation get := (get_operator y cls bdict).
  Notation made := (made y cls bdict).

  (** the workshops are those of the beginning, apart from '__builtins__' *)
  Definition kept (ws ws0 : workshop op_class) : Prop := ws = ws0 \/ ws = with_builtins ws0.

  Lemma twice : forall ws : workshop op_class, with_builtins (with_builtins ws) = with_builtins ws.
  Proof.
    intros ws. unfold with_builtins at 2 3. destruct (dmem "__builtins__" ws) eqn:E.
    - unfold with_builtins. rewrite E. auto.
    - unfold with_builtins. replace (dmem "__builtins__" (dset ws "__builtins__" Builtins)) with true; auto.
      symmetry. unfold dmem. rewrite dget_dset, String.eqb_refl. auto.
  Qed.

  Lemma get_kept : forall ws ws0 s, kept ws ws0 -> kept (snd (get ws s)) ws0.
  Proof.
    intros ws ws0 s K. unfold get_operator. destruct (read_expr y (recipe s)) as [e|x]; auto.
    unfold ws_create, ws_blueprint. destruct (ws_complete cls op_fields bdict ws e); simpl; auto.
    destruct K as [->| ->]; [right; auto|right; apply twice].
  Qed.

  Lemma made_kept : forall jobs k, kept (centre (made jobs) k) (centre centres_new k).
  Proof.
    intros jobs. unfold ModelRecipe.made. assert (G : forall cs, (forall k, kept (centre cs k) (centre centres_new k)) ->
      forall k, kept (centre (fold_left (fun cs j => snd (find_operators y cls bdict cs (fst (fst j)) (snd (fst j)) (snd j))) jobs cs) k) (centre centres_new k)).
    { induction jobs as [|[[c m] s] jobs IH]; intros cs H; auto. simpl. apply IH. intros k.
      pose proof (get_kept _ _ c (H Cro)) as Kc. pose proof (get_kept _ _ m (H Mut)) as Km. pose proof (get_kept _ _ s (H Sel)) as Ks.
      unfold find_operators. cbn [centre] in Kc, Km, Ks. destruct (get (ct_cro cs) c) as [[pc|xc] wc]; [|destruct k; simpl; auto; [exact (H Mut)|exact (H Sel)]].
      destruct (get (ct_mut cs) m) as [[pm|xm] wm]; [|destruct k; simpl; auto; exact (H Sel)].
      destruct (get (ct_sel cs) s) as [[ps|xs] wl]; destruct k; simpl; auto. }
    apply G. intros k. left. auto.
  Qed.

  Lemma offered : forall jobs k n c, offers k n c -> dget (centre (made jobs) k) n = Some (Creator c).
  Proof.
    intros jobs k n c O. destruct (made_kept jobs k) as [->| ->]; destruct O; reflexivity.
  Qed.

  Lemma not_offered : forall jobs k n, n <> "__builtins__"%string -> (forall c, ~ offers k n c) -> dget (centre (made jobs) k) n = None.
  Proof.
    intros jobs k n B N.
    assert (E : dget (centre centres_new k) n = None).
    { destruct k; cbn;
        repeat (match goal with |- context [String.eqb ?a ?b] => destruct (String.eqb_spec a b) as [->|_] end;
                [exfalso; first [exact (N _ offers_avg)|exact (N _ offers_shu)|exact (N _ offers_rw)|exact (N _ offers_tour)|exact (N _ offers_imp)]|]); reflexivity. }
    destruct (made_kept jobs k) as [->| ->]; auto. unfold with_builtins.
    destruct (dmem _ _); auto. rewrite dget_dset. apply String.eqb_neq in B. rewrite B. auto.
  Qed.

  Lemma creators_offered : forall jobs k n c, offers k n c -> creators cls bdict (with_builtins (centre (made jobs) k)) n = Some (cls c).
  Proof.
    intros jobs k n c O. unfold creators. replace (dget (with_builtins (centre (made jobs) k)) n) with (Some (Creator c)); auto.
    symmetry. pose proof (offered jobs k n c O) as D. unfold with_builtins. destruct (dmem _ _); auto. rewrite dget_dset.
    destruct (String.eqb_spec n "__builtins__") as [->|]; auto. inversion O.
  Qed.
End C118.

(** A name alone means the same as the name with (): the product and the workshop left behind. *)
Theorem C118_bare : forall w (y : syntax w) cls bdict ws s, ~ closed s ->
  get_operator y cls bdict ws s = get_operator y cls bdict ws (s ++ T "()").
Proof.
  intros w y cls bdict ws s H. unfold get_operator, recipe.
  destruct (ends_paren s) eqn:E; [apply ends_closed in E; tauto|].
  replace (ends_paren (s ++ T "()")) with true; auto. symmetry. apply ends_closed. exists (s ++ T "(")%list. rewrite <- app_assoc. reflexivity.
Qed.
Print Assumptions C118_bare.

(** After any number of algorithms made before, whatever their settings, an offered name alone gives
    the product of its class: called with K=3 for tournaments, without arguments for all others. *)
Theorem C118_offered : forall w (y : syntax w) cls bdict jobs k n c, offers k n c ->
  sy_parse y (T n ++ T "()") = Some (ECall n [] []) ->
  fst (get_operator y cls bdict (centre (made y cls bdict jobs) k) (T n))
  = product (cls c) [] (match c with CreTour => [("K"%string, w_num w "3")] | _ => [] end).
Proof.
  intros w y cls bdict jobs k n c O P.
  pose proof (offered y cls bdict jobs k n c O) as D. pose proof (creators_offered y cls bdict jobs k n c O) as R.
  set (ws := centre (made y cls bdict jobs) k) in *. unfold get_operator, recipe.
  replace (ends_paren (T n)) with false by (destruct O; reflexivity). unfold read_expr. rewrite P.
  unfold ws_create, ws_blueprint, ws_complete. rewrite first_call_call, D. unfold complete_def. rewrite first_call_call. cbn [in_shop w_schema]. rewrite D.
  destruct O; cbn [op_fields filter map mem negb fst fill_fields bind app existsb eval lookup]; unfold lookup; rewrite R; reflexivity.
Qed.
Print Assumptions C118_offered.

(** Numbers given: the first is the number of those that meet, any more are ignored without notice.
    The classes without fields are called with all of them. *)
Theorem C118_numbers : forall w (y : syntax w) cls bdict jobs k n c s ts, offers k n c ->
  sy_parse y (recipe s) = Some (ECall n (map ENum ts) []) ->
  fst (get_operator y cls bdict (centre (made y cls bdict jobs) k) s)
  = match c with
    | CreTour => product (cls c) [] [("K"%string, w_num w (hd "3"%string ts))]
    | _ => product (cls c) (map (w_num w) ts) []
    end.
Proof.
  intros w y cls bdict jobs k n c s ts O P.
  pose proof (offered y cls bdict jobs k n c O) as D. pose proof (creators_offered y cls bdict jobs k n c O) as R.
  set (ws := centre (made y cls bdict jobs) k) in *. unfold get_operator. unfold read_expr. rewrite P.
  unfold ws_create, ws_blueprint, ws_complete. rewrite first_call_call, D. unfold complete_def. rewrite first_call_call. cbn [in_shop w_schema]. rewrite D.
  assert (E : forall g l ts, (fix evals l0 := match l0 with
                                 | [] => Ok []
                                 | a :: l' => do v <- eval (w:=w) g l a; do vs <- evals l'; Ok (v :: vs)
                                 end) (map ENum ts) = Ok (map (w_num w) ts)).
  { intros g l. induction ts0 as [|t0 ts0 IH]; auto. cbn [map]. rewrite IH. reflexivity. }
  destruct O; cbn [op_fields filter map mem negb fst fill_fields bind app existsb eval]; unfold lookup; try (rewrite R, E; reflexivity).
  destruct ts as [|t ts]; cbn [map hd fill_fields bind app eval arg_text]; unfold lookup; rewrite R; reflexivity.
Qed.
Print Assumptions C118_numbers.

(** A call of anything not offered raises KeyError and changes nothing; no call at all AttributeError,
    what Python cannot read SyntaxError. *)
Theorem C118_unknown : forall w (y : syntax w) cls bdict jobs k s, let ws := centre (made y cls bdict jobs) k in
  (forall n args kws, sy_parse y (recipe s) = Some (ECall n args kws) -> n <> "__builtins__"%string -> (forall c, ~ offers k n c) ->
     get_operator y cls bdict ws s = (Err KeyError, ws))
  /\ (forall e, sy_parse y (recipe s) = Some e -> first_call (walk e) = None -> get_operator y cls bdict ws s = (Err AttributeError, ws))
  /\ (sy_parse y (recipe s) = None -> get_operator y cls bdict ws s = (Err SyntaxError, ws)).
Proof.
  intros w y cls bdict jobs k s ws. unfold get_operator, read_expr. splits.
  - intros n args kws P B N. rewrite P. unfold ws_create, ws_blueprint, ws_complete. rewrite first_call_call.
    pose proof (not_offered y cls bdict jobs k n B N) as D. fold ws in D. rewrite D. unfold complete_def. rewrite first_call_call. cbn [in_shop w_schema]. rewrite D. reflexivity.
  - intros e P F. rewrite P. unfold ws_create, ws_blueprint, ws_complete. rewrite F. unfold complete_def. rewrite F. reflexivity.
  - intros P. rewrite P. reflexivity.
Qed.
Print Assumptions C118_unknown.

(** What was made before does not matter, if '__builtins__' is not mentioned. *)
Theorem C118_independent : forall w (y : syntax w) cls bdict jobs jobs' k s,
  (forall e, sy_parse y (recipe s) = Some e -> ~ In "__builtins__"%string (names_in e)) ->
  fst (get_operator y cls bdict (centre (made y cls bdict jobs) k) s) = fst (get_operator y cls bdict (centre (made y cls bdict jobs') k) s).
Proof.
  intros w y cls bdict jobs jobs' k s H. unfold get_operator, read_expr. destruct (sy_parse y (recipe s)) as [e|]; auto.
  unfold ws_create.
  pose proof (blueprint_agree cls op_fields bdict (centre (made y cls bdict jobs) k) (centre (made y cls bdict jobs') k) e (fun _ => None) true) as A.
  destruct (ws_blueprint cls op_fields bdict (centre (made y cls bdict jobs) k) e (fun _ => None) true) as [b1 w1].
  destruct (ws_blueprint cls op_fields bdict (centre (made y cls bdict jobs') k) e (fun _ => None) true) as [b2 w2].
  simpl in *. rewrite A; auto. intros n Hn. assert (B : n <> "__builtins__"%string) by (intros ->; eapply H; eauto). split; auto.
  assert (G : forall js, dget (centre (made y cls bdict js) k) n = dget (centre centres_new k) n).
  { intros js. destruct (made_kept y cls bdict js k) as [->| ->]; auto. unfold with_builtins. destruct (dmem _ _); auto.
    rewrite dget_dset. apply String.eqb_neq in B. rewrite B. auto. }
  rewrite !G. auto.
Qed.
Print Assumptions C118_independent.

(** GeneticAlg(cro, mut, sel) has the three operators exactly if each can be found; otherwise the first
    exception, in this order, is raised. *)
Theorem C118_alg : forall w (y : syntax w) cls bdict cs cro mut sel,
  let oc := fst (get_operator y cls bdict (ct_cro cs) cro) in let om := fst (get_operator y cls bdict (ct_mut cs) mut) in
  let os := fst (get_operator y cls bdict (ct_sel cs) sel) in
  let out := fst (find_operators y cls bdict cs cro mut sel) in
  (forall c m s, out = Ok (c, m, s) <-> oc = Ok c /\ om = Ok m /\ os = Ok s)
  /\ (forall x, out = Err x <-> oc = Err x \/ (exists c, oc = Ok c) /\ (om = Err x \/ (exists m, om = Ok m) /\ os = Err x)).
Proof.
  intros w y cls bdict cs cro mut sel. unfold find_operators.
  destruct (get_operator y cls bdict (ct_cro cs) cro) as [[c|xc] wc]; cbn.
  - destruct (get_operator y cls bdict (ct_mut cs) mut) as [[m|xm] wm]; cbn.
    + destruct (get_operator y cls bdict (ct_sel cs) sel) as [[s|xs] wl]; cbn; split.
      * intros c0 m0 s0. split; [intros H; injection H as -> -> ->; auto|intros [H1 [H2 H3]]; congruence].
      * intros x. split; [discriminate|intros [H|[_ [H|[_ H]]]]; discriminate].
      * intros c0 m0 s0. split; [discriminate|intros [_ [_ H]]; discriminate].
      * intros x. split; [intros H; injection H as ->; right; split; [eauto|right; split; eauto]|intros [H|[_ [H|[_ H]]]]; congruence].
    + split.
      * intros c0 m0 s0. split; [discriminate|intros [_ [H _]]; discriminate].
      * intros x. split; [intros H; injection H as ->; right; split; eauto|intros [H|[_ [H|[[m H] _]]]]; congruence].
  - split.
    + intros c0 m0 s0. split; [discriminate|intros [H _]; discriminate].
    + intros x. split; [intros H; injection H as ->; auto|intros [H|[[c H] _]]; congruence].
Qed.
Print Assumptions C118_alg.

(** Python, as far as needed: the world of the other examples, where classes without fields can be used too *)
Definition opw : world :=
  mkWorld (V exw) (Dist exw) (RNG exw) (LP exw) (w_num exw) (w_str exw) (w_op exw) (w_call exw) (w_math exw) (w_builtin exw)
    (w_is_none exw) (w_none exw) (w_code exw) (w_creator exw) (w_schema exw)
    (fun b => match b with PBp _ [] => Ok (0, 1)%Z | _ => w_create exw b end) (w_sample exw) (w_logpdf exw) (lp_zero exw) (lp_add exw) (lp_ninf exw) (lp_nan exw) (lp_isnan exw).
Definition op_reader (t : text) : option expr :=
  let s := S_ t in
  if String.eqb s "tour()" then Some (ECall "tour" [] [])
  else if String.eqb s "tour(5)" then Some (ECall "tour" [ENum "5"] [])
  else if String.eqb s "tour(5,7)" then Some (ECall "tour" [ENum "5"; ENum "7"] [])
  else if String.eqb s "tour(0)" then Some (ECall "tour" [ENum "0"] [])
  else if String.eqb s "importance()" then Some (ECall "importance" [] [])
  else if String.eqb s "importance(2)" then Some (ECall "importance" [ENum "2"] [])
  else if String.eqb s "rw()" then Some (ECall "rw" [] [])
  else if String.eqb s "shuffle()" then Some (ECall "shuffle" [] [])
  else if String.eqb s "()" then Some (EStr "()")
  else None.
Definition op_syntax : syntax opw := mkSyntax opw op_reader (fun _ => []) (fun _ => []).
Definition op_cls (c : op_class) : V opw := PBp (match c with CreAvg => "avg" | CreShu => "shu" | CreRw => "rwm" | CreTour => "tou" | CreImp => "imp" end) [].
Notation op_made js := (made (w := opw) op_syntax op_cls PNone js).
Notation op_get js k s := (fst (get_operator (w := opw) op_syntax op_cls PNone (centre (op_made js) k) (T s))).

Example C118_example :
  op_get [] Sel "tour" = Ok (0, 3)%Z /\ op_get [] Sel "tour()" = Ok (0, 3)%Z /\ op_get [] Sel "tour(5)" = Ok (0, 5)%Z
  /\ op_get [] Sel "tour(5,7)" = Ok (0, 5)%Z /\ op_get [] Sel "tour(0)" = Err ValidationError
  /\ op_get [] Sel "importance(2)" = Err TypeError /\ op_get [] Mut "tour" = Err KeyError /\ op_get [] Cro "" = Err AttributeError
  /\ fst (find_operators (w := opw) op_syntax op_cls PNone (op_made [(T "shuffle", T "rw", T "tour(0)")]) (T "shuffle") (T "rw") (T "importance"))
     = Ok ((0, 1), (0, 1), (0, 1))%Z
  /\ ~ closed (T "tour") /\ offers Sel "tour" CreTour /\ sy_parse op_syntax (T "tour" ++ T "()") = Some (ECall "tour" [] []).
Proof.
  splits; try (vm_compute; reflexivity); try constructor.
  intros H. apply ends_closed in H. discriminate H.
Qed.
