(** * The search space made from a prior (C102) *)

Require Import Coq.Reals.Reals Coq.ZArith.ZArith Coq.micromega.Lra.
Require Import Verif.ModelNum Verif.ModelConverter Verif.ModelProb Verif.ModelSearch Verif.ProofBase Verif.PropsConverter Verif.PropsProb.
Open Scope R_scope.

(** where the density of a continuous family is positive, up to end points *)
Definition supported (d : sp) (v : R) : Prop :=
  match d with
  | SGamma _ _ | SExpon _ | SLognorm _ _ | SChi2 _ | SInvgamma _ _ => 0 < v
  | SUniform l s | STriang l s _ => l < v < l + s
  | SBeta _ _ => 0 < v < 1
  | SNorm _ _ => True
  | SConst _ | SBinom _ _ | SPoisson _ => False
  end.
(** distribution functions of three families on their supports *)
Definition cdf (d : sp) (v : R) : option R :=
  match d with
  | SUniform l s => Some ((v - l) / s)
  | SExpon s => Some (1 - exp (- v / s))
  | STriang l s c => let x := (v - l) / s in
      Some (if rltb x c then x ^ 2 / c else 1 - (1 - x) ^ 2 / (1 - c))
  | _ => None
  end.
Definition whole (v : R) : Prop := exists k : Z, v = IZR k.

Lemma sq_pos : forall x, 0 < x -> 0 < x ^ 2.
Proof. intros x H. simpl. rewrite Rmult_1_r. apply Rmult_lt_0_compat; auto. Qed.
Lemma ratio_pos : forall x y, 0 < x -> 0 < y -> 0 < x / y.
Proof. intros. apply Rdiv_lt_0_compat; auto. Qed.

(** the standard deviation of a continuous prior is positive *)
Lemma std_pos : forall c d, create c = Ok d -> (forall mn mx, c = CUniform mn mx -> mn < mx) -> is_integer d = false -> is_const d = false ->
  0 < sqrt (lib_var d).
Proof.
  intros c d H U I K. pose proof (C64_admissible_partial c d H U) as A. apply sqrt_lt_R0.
  assert (A2 : forall a s, d = SInvgamma a s -> 2 < a).
  { intros a s E. subst d. unfold create in H. destruct (fields_ok c) eqn:F; simpl in H; [|discriminate].
    destruct c; try discriminate; simpl in F; [inversion H; subst; tests; auto|].
    destruct (sort3 a0 m b) as [[x y] z]. destruct (reqb (z - x) 0); discriminate. }
  destruct d; simpl in A, I, K |- *; try discriminate.
  - destruct A. apply Rmult_lt_0_compat; auto. apply (sq_pos scale); auto.
  - apply (sq_pos scale); auto.
  - destruct A as [A1 _]. apply Rmult_lt_0_compat; [|apply exp_pos]. pose proof (sq_pos s A1) as P. simpl in P.
    pose proof (exp_increasing 0 _ P) as Q. rewrite exp_0 in Q. lra.
  - apply ratio_pos; [apply (sq_pos scale); auto|lra].
  - lra.
  - destruct A. apply ratio_pos; [apply Rmult_lt_0_compat; auto|]. apply Rmult_lt_0_compat; [apply (sq_pos (a + b)); lra|lra].
  - destruct A. specialize (A2 _ _ eq_refl). apply ratio_pos; [apply (sq_pos scale); auto|]. apply Rmult_lt_0_compat; [apply (sq_pos (a - 1)); lra|lra].
  - apply (sq_pos scale); auto.
  - destruct A as [A1 [A3 A4]]. apply ratio_pos; [|lra]. apply Rmult_lt_0_compat; [apply (sq_pos scale); auto|nra].
Qed.

(** For a root with a continuous prior the converter takes the open unit interval one to one onto
    the support of the prior, increasingly; 0 and 1 are taken to its ends. *)
Theorem C102_inside : forall c d, create c = Ok d -> (forall mn mx, c = CUniform mn mx -> mn < mx) -> is_integer d = false -> is_const d = false ->
  exists cv, search_converter d = Ok cv
    /\ (forall u, 0 < u < 1 -> exists v, uniform2value cv u = Fin v /\ supported d v /\ value2uniform cv v = Fin u)
    /\ (forall v, supported d v -> exists u, 0 < u < 1 /\ uniform2value cv u = Fin v)
    /\ (forall u1 u2 v1 v2, 0 < u1 < 1 -> 0 < u2 < 1 -> uniform2value cv u1 = Fin v1 -> uniform2value cv u2 = Fin v2 -> (u1 < u2 <-> v1 < v2))
    /\ (forall v, supported d v <-> flt_lt (uniform2value cv 0) (Fin v) /\ flt_lt (Fin v) (uniform2value cv 1)).
Proof.
  intros c d H U I K. pose proof (std_pos c d H U I K) as P. pose proof (C64_admissible_partial c d H U) as A.
  assert (G : exists cv, search_converter d = Ok cv /\ good cv /\ forall v, supported d v <-> inside cv v).
  { unfold search_converter, search_domain. set (s := sqrt (lib_var d)) in *. clearbody s.
    destruct d; simpl in I, K, A |- *; try discriminate; unfold get_converter; simpl; eexists; (split; [reflexivity|]); unfold inside; simpl; (split; [lra|]);
      intros v; tauto. }
  destruct G as [cv [E [Gd S]]]. exists cv. split; auto. splits.
  - intros u Hu. destruct (C53_uniform_round_trip_partial cv u Gd Hu) as [v [V1 [V2 V3]]]. exists v. splits; auto. apply S; auto.
  - intros v Hv. apply S in Hv. destruct (C53_value_round_trip_partial cv v Gd Hv) as [u [U1 [U2 U3]]]. exists u. auto.
  - intros. apply (C53_monotone_partial cv); auto.
  - intros v. destruct (C53_limits cv) as [L1 L2]. rewrite L1, L2. apply S.
Qed.
Print Assumptions C102_inside.

(** For unif and exp the converter is the quantile function of the prior, so a uniform design in
    the unit interval is a design by the prior. *)
Theorem C102_quantile : forall c d cv u v, create c = Ok d -> (exists mn mx, c = CUniform mn mx /\ mn < mx) \/ (exists r, c = CExp r) ->
  search_converter d = Ok cv -> 0 < u < 1 -> uniform2value cv u = Fin v -> cdf d v = Some u.
Proof.
  intros c d cv u v H [[mn [mx [-> L]]]|[r ->]] E Hu V; unfold create in H; simpl in H.
  - inversion H; subst. unfold search_converter, get_converter, search_domain, interval in E. simpl in E. inversion E; subst.
    simpl in V. inversion V; subst. simpl. f_equal. field. lra.
  - destruct (rltb 0 r) eqn:R; simpl in H; [|discriminate]. apply rltb_true in R. assert (D : d = SExpon (1 / r)) by congruence. subst d.
    unfold search_converter, get_converter, search_domain, interval in E. cbn [lib_interval is_integer fst snd d_lower d_upper d_scale lib_var] in E.
    assert (E2 : cv = CFI 0 (sqrt ((1 / r) ^ 2))) by congruence. subst cv. cbn [uniform2value] in V. assert (N : rleb 1 u = false) by (apply rleb_false; lra). rewrite N in V.
    assert (V2 : v = - ln (1 - u) * sqrt ((1 / r) ^ 2) + 0) by congruence. subst v.
    assert (P : 0 < 1 / r) by (apply inv_pos; auto).
    assert (Sq : sqrt ((1 / r) ^ 2) = 1 / r) by (apply sqrt_pow2; lra). cbn [cdf]. rewrite Sq. f_equal.
    replace (- (- ln (1 - u) * (1 / r) + 0) / (1 / r)) with (ln (1 - u)) by (field; lra). rewrite exp_ln by lra. lra.
Qed.
Print Assumptions C102_quantile.
Theorem C102_quantile_refuted : exists c d cv u v q, create c = Ok d /\ search_converter d = Ok cv /\ 0 < u < 1 /\ uniform2value cv u = Fin v
  /\ cdf d v = Some q /\ q < u.
Proof.
  exists (CTriangle 0 (1/2) 1), (STriang 0 (1 - 0) ((1/2 - 0) / (1 - 0))), (CFF 0 (0 + (1 - 0))), (1/4), (1/4), (1/8).
  assert (E : create (CTriangle 0 (1/2) 1) = Ok (STriang 0 (1 - 0) ((1/2 - 0) / (1 - 0)))).
  { unfold create. simpl. unfold sort3, rins, rleb. destruct (Rle_dec (1/2) 1); [|lra]. destruct (Rle_dec 0 (1/2)); [|lra].
    assert (N : reqb (1 - 0) 0 = false) by (apply reqb_false; lra). rewrite N. reflexivity. }
  split; [exact E|]. split; [reflexivity|]. split; [lra|]. split; [simpl; f_equal; lra|]. split; [|lra].
  simpl. assert (N : rltb ((1/4 - 0) / (1 - 0)) ((1/2 - 0) / (1 - 0)) = true) by (apply rltb_true; lra). rewrite N. f_equal. field.
Qed.
Print Assumptions C102_quantile_refuted.

(** A root that is constant is proposed as that constant. *)
Theorem C102_constant : forall k d cv u, create (CConst k) = Ok d -> search_converter d = Ok cv -> uniform2value cv u = Fin k.
Proof.
  intros k d cv u H E. unfold create in H. simpl in H. inversion H; subst. unfold search_converter, get_converter, search_domain, interval in E.
  simpl in E. inversion E; subst. simpl. f_equal. lra.
Qed.
Print Assumptions C102_constant.

(** a number between two numbers that is not whole *)
Lemma not_whole : forall a b, a < b -> exists v, a < v < b /\ ~ whole v.
Proof.
  intros a b L. destruct (archimed a) as [U1 U2]. set (k := up a) in *.
  assert (M : a < Rmin b (IZR k)) by (apply Rmin_glb_lt; lra).
  exists ((a + Rmin b (IZR k)) / 2). pose proof (Rmin_l b (IZR k)). pose proof (Rmin_r b (IZR k)). split; [lra|].
  intros [z Hz]. assert (X : IZR z < IZR k) by lra. assert (Y : IZR k - 1 < IZR z) by lra.
  rewrite <- minus_IZR in Y. apply lt_IZR in X. apply lt_IZR in Y. lia.
Qed.

(** For a root with an integer prior the limits are those of the prior, but in every part of the
    unit interval there are points for which the proposed value is not a whole number. *)
Theorem C102_integers : forall c d, create c = Ok d -> is_integer d = true ->
  exists cv, search_converter d = Ok cv
    /\ uniform2value cv 0 = Fin 0 /\ (forall n p, c = CBinom n p -> uniform2value cv 1 = Fin (IZR n)) /\ (forall l, c = CPois l -> uniform2value cv 1 = PInf)
    /\ (forall u, 0 < u < 1 -> exists v, uniform2value cv u = Fin v /\ 0 < v)
    /\ (forall a b, 0 < a -> a < b -> b < 1 -> exists u v, a < u < b /\ uniform2value cv u = Fin v /\ ~ whole v).
Proof.
  intros c d H I.
  assert (G : exists cv, search_converter d = Ok cv /\ good cv /\ lower cv = Fin 0
    /\ (forall n p, c = CBinom n p -> upper cv = Fin (IZR n)) /\ (forall l, c = CPois l -> upper cv = PInf)).
  { unfold create in H. destruct (fields_ok c) eqn:F; simpl in H; [|discriminate].
    destruct c; simpl in F; try (inversion H; subst; discriminate).
    - destruct (sort3 a m b) as [[x y] z]. destruct (reqb (z - x) 0); inversion H; subst; discriminate.
    - inversion H; subst. tests. unfold search_converter, get_converter, search_domain, interval. simpl. replace (-1 + 1) with 0 by lra.
      eexists. split; [reflexivity|]. simpl. splits; auto; [apply IZR_lt; auto|intros n p Q; inversion Q; auto|discriminate].
    - inversion H; subst. tests. unfold search_converter, get_converter, search_domain, interval. simpl. replace (-1 + 1) with 0 by lra.
      eexists. split; [reflexivity|]. simpl. splits; auto; [apply sqrt_lt_R0; auto|discriminate]. }
  destruct G as [cv [E [Gd [L [U1 U2]]]]]. destruct (C53_limits cv) as [L1 L2]. exists cv. splits; auto; try congruence.
  - intros n p Q. rewrite L2. eauto.
  - intros l Q. rewrite L2. eauto.
  - intros u Hu. destruct (C53_uniform_round_trip_partial cv u Gd Hu) as [v [V1 [[V2 _] _]]]. exists v. rewrite L in V2. simpl in V2. auto.
  - intros a b Ha Hab Hb.
    destruct (C53_uniform_round_trip_partial cv a Gd ltac:(lra)) as [va [A1 [[A2 _] _]]].
    destruct (C53_uniform_round_trip_partial cv b Gd ltac:(lra)) as [vb [B1 [[_ B2] _]]].
    assert (Lv : va < vb) by (apply (C53_monotone_partial cv a b va vb); auto; lra).
    destruct (not_whole va vb Lv) as [v [Hv W]].
    assert (In : inside cv v).
    { split; [rewrite L in *; simpl in *; lra|]. destruct (upper cv); simpl in *; auto; lra. }
    destruct (C53_value_round_trip_partial cv v Gd In) as [u [Q1 [Q2 Q3]]]. exists u, v. splits; auto.
    + apply (C53_monotone_partial cv a u va v); auto; lra.
    + apply (C53_monotone_partial cv u b v vb); auto; lra.
Qed.
Print Assumptions C102_integers.

Example C102_example : create (CUniform 2 10) = Ok (SUniform 2 (10 - 2)) /\ search_converter (SUniform 2 (10 - 2)) = Ok (CFF 2 (2 + (10 - 2)))
  /\ uniform2value (CFF 2 (2 + (10 - 2))) (1/4) = Fin 4 /\ create (CBinom 4 (1/2)) = Ok (SBinom 4 (1/2))
  /\ search_converter (SBinom 4 (1/2)) = Ok (CFF (-1 + 1) 4) /\ uniform2value (CFF (-1 + 1) 4) (3/8) = Fin (3/2) /\ ~ whole (3/2).
Proof.
  splits; try reflexivity.
  - simpl. f_equal. lra.
  - unfold create. simpl. assert (A : rleb 0 (1/2) = true) by (apply rleb_true; lra). assert (B : rleb (1/2) 1 = true) by (apply rleb_true; lra).
    rewrite A, B. reflexivity.
  - simpl. f_equal. lra.
  - intros [k Hk]. assert (X : IZR k < IZR 2) by (rewrite <- Hk; simpl; lra). assert (Y : IZR 1 < IZR k) by (rewrite <- Hk; simpl; lra).
    apply lt_IZR in X. apply lt_IZR in Y. lia.
Qed.
