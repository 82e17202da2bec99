(** * Property C53: converters between the unit interval and a parameter domain *)

Require Import Verif.ModelNum Verif.ModelConverter Verif.ProofBase.
Open Scope R_scope.

(** the parameters for which a converter makes sense *)
Definition good (c : conv) : Prop :=
  match c with CFF l h => l < h | CFI _ s | CIF _ s | CII s _ => 0 < s end.
(** limits of the values of a converter, and values strictly inside *)
Definition lower (c : conv) : flt := match c with CFF l _ | CFI l _ => Fin l | CIF _ _ | CII _ _ => NInf end.
Definition upper (c : conv) : flt := match c with CFF _ h | CIF h _ => Fin h | CFI _ _ | CII _ _ => PInf end.
Definition flt_lt (a b : flt) : Prop :=
  match a, b with
  | Fin x, Fin y => x < y
  | NInf, Fin _ | NInf, PInf | Fin _, PInf => True
  | _, _ => False
  end.
Definition inside (c : conv) (v : R) : Prop := flt_lt (lower c) (Fin v) /\ flt_lt (Fin v) (upper c).

Lemma rsign_pos : forall x, 0 < x -> rsign x = 1.
Proof. intros x H. unfold rsign. apply rltb_true in H. rewrite H. auto. Qed.
Lemma rsign_neg : forall x, x < 0 -> rsign x = -1.
Proof.
  intros x H. unfold rsign. assert (E : rltb 0 x = false) by (apply rltb_false; lra). rewrite E.
  apply rltb_true in H. rewrite H. auto.
Qed.
Lemma rsign_zero : rsign 0 = 0.
Proof. unfold rsign. assert (E : rltb 0 0 = false) by (apply rltb_false; lra). rewrite E. auto. Qed.

(** closed forms on the open unit interval *)
Lemma u2v_fi : forall l s u, u < 1 -> uniform2value (CFI l s) u = Fin (- ln (1 - u) * s + l).
Proof. intros l s u H. simpl. apply rleb_false in H. rewrite H. auto. Qed.
Lemma u2v_if : forall h s u, 0 < u -> uniform2value (CIF h s) u = Fin (ln u * s + h).
Proof. intros h s u H. simpl. apply rleb_false in H. rewrite H. auto. Qed.
Lemma u2v_ii_hi : forall s m u, 1 / 2 < u < 1 -> uniform2value (CII s m) u = Fin (- ln (2 * (1 - u)) * s + m).
Proof.
  intros s m u [H1 H2]. simpl. assert (A : 0 < u) by lra. apply rleb_false in H2, A. rewrite H2, A.
  rewrite rsign_pos by lra. rewrite Rabs_right by lra. do 2 f_equal. f_equal.
  replace (1 - 2 * (u - 1 / 2)) with (2 * (1 - u)) by lra. lra.
Qed.
Lemma u2v_ii_lo : forall s m u, 0 < u < 1 / 2 -> uniform2value (CII s m) u = Fin (ln (2 * u) * s + m).
Proof.
  intros s m u [H1 H2]. simpl. assert (A : u < 1) by lra. apply rleb_false in H1, A. rewrite H1, A.
  rewrite rsign_neg by lra. rewrite Rabs_left by lra. do 2 f_equal. f_equal.
  replace (1 - 2 * - (u - 1 / 2)) with (2 * u) by lra. lra.
Qed.
Lemma u2v_ii_mid : forall s m, uniform2value (CII s m) (1 / 2) = Fin m.
Proof.
  intros s m. simpl. assert (A : rleb 1 (1 / 2) = false) by (apply rleb_false; lra).
  assert (B : rleb (1 / 2) 0 = false) by (apply rleb_false; lra). rewrite A, B.
  replace (1 / 2 - 1 / 2) with 0 by lra. rewrite rsign_zero. f_equal. lra.
Qed.

Lemma ln_neg : forall x, 0 < x < 1 -> ln x < 0.
Proof. intros x [H1 H2]. rewrite <- ln_1. apply ln_increasing; lra. Qed.
Lemma exp_lt_1 : forall x, x < 0 -> exp x < 1.
Proof. intros x H. rewrite <- exp_0. apply exp_increasing. auto. Qed.
Lemma mul_pos : forall a b, 0 < a -> 0 < b -> 0 < a * b.
Proof. intros. apply Rmult_lt_0_compat; auto. Qed.
Lemma div_neg : forall a s, a < 0 -> 0 < s -> a / s < 0.
Proof. intros a s H1 H2. unfold Rdiv. apply Rinv_0_lt_compat in H2. rewrite <- (Rmult_0_l (/ s)). apply Rmult_lt_compat_r; auto. Qed.

(** From the unit interval and back. *)
(** Missing: single-valued domains, for which it is false (C53_degenerate_refuted). *)
Theorem C53_uniform_round_trip_partial : forall c u, good c -> 0 < u < 1 ->
  exists v, uniform2value c u = Fin v /\ inside c v /\ value2uniform c v = Fin u.
Proof.
  intros c u G [H1 H2]. destruct c as [l h|l s|h s|s m]; simpl in G.
  - exists (u * (h - l) + l). splits; auto.
    + split; simpl.
      * assert (0 < u * (h - l)) by (apply mul_pos; lra). lra.
      * assert (0 < (1 - u) * (h - l)) by (apply mul_pos; lra). lra.
    + simpl. rewrite fdiv_fin by lra. f_equal. field. lra.
  - exists (- ln (1 - u) * s + l). splits; [apply u2v_fi; auto| |].
    + split; simpl; auto. assert (0 < - ln (1 - u) * s) by (apply mul_pos; auto; pose proof (ln_neg (1 - u)); lra). lra.
    + simpl. f_equal. replace ((l - (- ln (1 - u) * s + l)) / s) with (ln (1 - u)) by (field; lra).
      rewrite exp_ln by lra. lra.
  - exists (ln u * s + h). splits; [apply u2v_if; auto| |].
    + split; simpl; auto. assert (0 < - ln u * s) by (apply mul_pos; auto; pose proof (ln_neg u); lra). lra.
    + simpl. f_equal. replace ((ln u * s + h - h) / s) with (ln u) by (field; lra). apply exp_ln. auto.
  - destruct (Rtotal_order u (1 / 2)) as [L|[->|L]].
    + exists (ln (2 * u) * s + m). splits; [apply u2v_ii_lo; lra|split; simpl; auto|]. simpl.
      assert (N : ln (2 * u) * s < 0).
      { assert (0 < - ln (2 * u) * s) by (apply mul_pos; auto; pose proof (ln_neg (2 * u)); lra). lra. }
      assert (E : rltb 0 (ln (2 * u) * s + m - m) = false) by (apply rltb_false; lra). rewrite E. f_equal.
      replace ((ln (2 * u) * s + m - m) / s) with (ln (2 * u)) by (field; lra). rewrite exp_ln by lra. lra.
    + exists m. splits; [apply u2v_ii_mid|split; simpl; auto|]. simpl.
      assert (E : rltb 0 (m - m) = false) by (apply rltb_false; lra). rewrite E. f_equal.
      replace ((m - m) / s) with 0 by (field; lra). rewrite exp_0. lra.
    + exists (- ln (2 * (1 - u)) * s + m). splits; [apply u2v_ii_hi; lra|split; simpl; auto|]. simpl.
      assert (P : 0 < - ln (2 * (1 - u)) * s) by (apply mul_pos; auto; pose proof (ln_neg (2 * (1 - u))); lra).
      assert (E : rltb 0 (- ln (2 * (1 - u)) * s + m - m) = true) by (apply rltb_true; lra). rewrite E. f_equal.
      replace (- (- ln (2 * (1 - u)) * s + m - m) / s) with (ln (2 * (1 - u))) by (field; lra). rewrite exp_ln by lra. lra.
Qed.
Print Assumptions C53_uniform_round_trip_partial.

(** From the domain and back. *)
(** Missing: single-valued domains, for which it is false (C53_degenerate_refuted). *)
Theorem C53_value_round_trip_partial : forall c v, good c -> inside c v ->
  exists u, value2uniform c v = Fin u /\ 0 < u < 1 /\ uniform2value c u = Fin v.
Proof.
  intros c v G [H1 H2]. destruct c as [l h|l s|h s|s m]; simpl in G, H1, H2.
  - exists ((v - l) / (h - l)). splits.
    + simpl. apply fdiv_fin. lra.
    + apply Rdiv_lt_0_compat; lra.
    + apply Rmult_lt_reg_r with (h - l); [lra|]. unfold Rdiv. rewrite Rmult_assoc, Rinv_l by lra. lra.
    + simpl. f_equal. field. lra.
  - assert (K : 0 < exp ((l - v) / s) < 1) by (split; [apply exp_pos|apply exp_lt_1, div_neg; lra]).
    exists (1 - exp ((l - v) / s)). split; [reflexivity|]; split; [lra|]. rewrite u2v_fi by lra. f_equal.
    replace (1 - (1 - exp ((l - v) / s))) with (exp ((l - v) / s)) by lra. rewrite ln_exp. field. lra.
  - assert (K : 0 < exp ((v - h) / s) < 1) by (split; [apply exp_pos|apply exp_lt_1, div_neg; lra]).
    exists (exp ((v - h) / s)). split; [reflexivity|]; split; [lra|]. rewrite u2v_if by lra. f_equal. rewrite ln_exp. field. lra.
  - simpl. destruct (Rtotal_order v m) as [L|[->|L]].
    + assert (K : 0 < exp ((v - m) / s) < 1) by (split; [apply exp_pos|apply exp_lt_1, div_neg; lra]).
      assert (E : rltb 0 (v - m) = false) by (apply rltb_false; lra). rewrite E.
      exists (exp ((v - m) / s) / 2). split; [reflexivity|]; split; [lra|]. fold (uniform2value (CII s m) (exp ((v - m) / s) / 2)).
      rewrite u2v_ii_lo by lra. f_equal. replace (2 * (exp ((v - m) / s) / 2)) with (exp ((v - m) / s)) by lra.
      rewrite ln_exp. field. lra.
    + assert (E : rltb 0 (m - m) = false) by (apply rltb_false; lra). rewrite E.
      replace ((m - m) / s) with 0 by (field; lra). rewrite exp_0. exists (1 / 2). split; [reflexivity|]; split; [lra|].
      apply u2v_ii_mid.
    + assert (K : 0 < exp (- (v - m) / s) < 1) by (split; [apply exp_pos|apply exp_lt_1, div_neg; lra]).
      assert (E : rltb 0 (v - m) = true) by (apply rltb_true; lra). rewrite E.
      exists (1 - exp (- (v - m) / s) / 2). split; [reflexivity|]; split; [lra|]. fold (uniform2value (CII s m) (1 - exp (- (v - m) / s) / 2)).
      rewrite u2v_ii_hi by lra. f_equal.
      replace (2 * (1 - (1 - exp (- (v - m) / s) / 2))) with (exp (- (v - m) / s)) by lra. rewrite ln_exp. field. lra.
Qed.
Print Assumptions C53_value_round_trip_partial.

(** Strictly increasing, on the open interval and hence (with the limits) everywhere. *)
(** Missing: single-valued domains, for which it is false (C53_degenerate_refuted). *)
Theorem C53_monotone_partial : forall c u1 u2 v1 v2, good c -> 0 < u1 < 1 -> 0 < u2 < 1 ->
  uniform2value c u1 = Fin v1 -> uniform2value c u2 = Fin v2 -> (u1 < u2 <-> v1 < v2).
Proof.
  assert (Dir : forall c u1 u2 v1 v2, good c -> 0 < u1 -> u1 < u2 -> u2 < 1 ->
    uniform2value c u1 = Fin v1 -> uniform2value c u2 = Fin v2 -> v1 < v2).
  { intros c u1 u2 v1 v2 G H1 H2 H3 E1 E2. destruct c as [l h|l s|h s|s m]; simpl in G.
    - inversion E1; inversion E2; subst. assert (0 < (u2 - u1) * (h - l)) by (apply mul_pos; lra). lra.
    - rewrite u2v_fi in E1, E2 by lra. inversion E1; inversion E2; subst.
      assert (ln (1 - u2) < ln (1 - u1)) by (apply ln_increasing; lra).
      assert (0 < (ln (1 - u1) - ln (1 - u2)) * s) by (apply mul_pos; lra). lra.
    - rewrite u2v_if in E1, E2 by lra. inversion E1; inversion E2; subst.
      assert (ln u1 < ln u2) by (apply ln_increasing; lra).
      assert (0 < (ln u2 - ln u1) * s) by (apply mul_pos; lra). lra.
    - assert (Lo : forall u v, 0 < u < 1 / 2 -> uniform2value (CII s m) u = Fin v -> v < m /\ v = ln (2 * u) * s + m).
      { intros u v Hu E. rewrite u2v_ii_lo in E by auto. inversion E; subst. split; auto.
        assert (0 < - ln (2 * u) * s) by (apply mul_pos; auto; pose proof (ln_neg (2 * u)); lra). lra. }
      assert (Hi : forall u v, 1 / 2 < u < 1 -> uniform2value (CII s m) u = Fin v -> m < v /\ v = - ln (2 * (1 - u)) * s + m).
      { intros u v Hu E. rewrite u2v_ii_hi in E by auto. inversion E; subst. split; auto.
        assert (0 < - ln (2 * (1 - u)) * s) by (apply mul_pos; auto; pose proof (ln_neg (2 * (1 - u))); lra). lra. }
      assert (Mi : forall v, uniform2value (CII s m) (1 / 2) = Fin v -> v = m).
      { intros v E. rewrite u2v_ii_mid in E. inversion E. auto. }
      destruct (Rtotal_order u1 (1 / 2)) as [A|[A|A]]; destruct (Rtotal_order u2 (1 / 2)) as [B|[B|B]]; try lra; subst.
      + destruct (Lo u1 v1) as [_ ->]; auto; try lra. destruct (Lo u2 v2) as [_ ->]; auto; try lra.
        assert (ln (2 * u1) < ln (2 * u2)) by (apply ln_increasing; lra).
        assert (0 < (ln (2 * u2) - ln (2 * u1)) * s) by (apply mul_pos; lra). lra.
      + rewrite (Mi v2 E2). apply (Lo u1 v1); auto; lra.
      + destruct (Lo u1 v1); auto; try lra. destruct (Hi u2 v2); auto; lra.
      + rewrite (Mi v1 E1). apply (Hi u2 v2); auto; lra.
      + destruct (Hi u1 v1) as [_ ->]; auto; try lra. destruct (Hi u2 v2) as [_ ->]; auto; try lra.
        assert (ln (2 * (1 - u2)) < ln (2 * (1 - u1))) by (apply ln_increasing; lra).
        assert (0 < (ln (2 * (1 - u1)) - ln (2 * (1 - u2))) * s) by (apply mul_pos; lra). lra. }
  intros c u1 u2 v1 v2 G H1 H2 E1 E2. split; intros H.
  - apply (Dir c u1 u2); auto; lra.
  - destruct (Rtotal_order u1 u2) as [L|[L|L]]; auto.
    + subst. rewrite E1 in E2. inversion E2. lra.
    + assert (v2 < v1) by (apply (Dir c u2 u1); auto; lra). lra.
Qed.
Print Assumptions C53_monotone_partial.

(** The ends of the unit interval go to the limits of the domain. *)
Theorem C53_limits : forall c, uniform2value c 0 = lower c /\ uniform2value c 1 = upper c.
Proof.
  assert (A : rleb 1 1 = true) by (apply rleb_true; lra). assert (B : rleb 0 0 = true) by (apply rleb_true; lra).
  assert (C : rleb 1 0 = false) by (apply rleb_false; lra).
  intros [l h|l s|h s|s m]; simpl.
  - split; f_equal; lra.
  - rewrite A, C. split; auto. f_equal. rewrite Rminus_0_r, ln_1. lra.
  - rewrite B, C. split; auto. f_equal. rewrite ln_1. lra.
  - rewrite A, B, C. auto.
Qed.
Print Assumptions C53_limits.

(** get_converter picks the class from the finiteness of the limits, so the limits of the
    converter are those of the domain (an infinite limit always counts as unbounded). *)
Theorem C53_select : forall d, d_lower d <> NaN -> d_upper d <> NaN ->
  exists c, get_converter d = Ok c
    /\ (lower c = if isfinite (d_lower d) then d_lower d else NInf)
    /\ (upper c = if isfinite (d_upper d) then d_upper d else PInf)
    /\ (0 < d_scale d -> flt_lt (lower c) (upper c) -> good c)
    /\ (forall s m, c = CII s m -> uniform2value c (1 / 2) = Fin (d_loc d)).
Proof.
  intros [[l| | |] [h| | |] m s] H1 H2; simpl in *; try congruence; eexists; (split; [reflexivity|]); simpl; splits; auto;
    intros; try discriminate; exact (u2v_ii_mid s m).
Qed.
Print Assumptions C53_select.

(** Values outside a bounded domain leave the unit interval (nothing clamps them). *)
Theorem C53_outside : forall c v, good c ->
  (flt_lt (Fin v) (lower c) -> exists u, value2uniform c v = Fin u /\ u < 0)
  /\ (flt_lt (upper c) (Fin v) -> exists u, value2uniform c v = Fin u /\ 1 < u).
Proof.
  intros c v G. destruct c as [l h|l s|h s|s m]; simpl in *; split; intros H; try contradiction.
  - rewrite fdiv_fin by lra. eexists. split; [reflexivity|]. apply div_neg; lra.
  - rewrite fdiv_fin by lra. eexists. split; [reflexivity|]. apply Rmult_lt_reg_r with (h - l); [lra|].
    unfold Rdiv. rewrite Rmult_assoc, Rinv_l by lra. lra.
  - eexists. split; [reflexivity|]. assert (exp 0 < exp ((l - v) / s)) by (apply exp_increasing; apply Rdiv_lt_0_compat; lra).
    rewrite exp_0 in *. lra.
  - eexists. split; [reflexivity|]. assert (exp 0 < exp ((v - h) / s)) by (apply exp_increasing; apply Rdiv_lt_0_compat; lra).
    rewrite exp_0 in *. lra.
Qed.
Print Assumptions C53_outside.

(** A domain with a single value (the constant distribution) has no inverse. *)
Theorem C53_degenerate_refuted : exists d c, get_converter d = Ok c /\ d_lower d = d_upper d
  /\ (forall u, uniform2value c u = d_lower d) /\ forall v, isfinite (value2uniform c v) = false.
Proof.
  exists (mkDom (Fin 3) (Fin 3) 3 0), (CFF 3 3). splits; auto.
  - intros u. simpl. f_equal. lra.
  - intros v. simpl. unfold fdiv. assert (E : reqb (3 - 3) 0 = true) by (apply reqb_true; lra). rewrite E.
    destruct (reqb (v - 3) 0); auto. destruct (rltb 0 (v - 3)); auto.
Qed.
Print Assumptions C53_degenerate_refuted.

Example C53_example : let d := mkDom (Fin (-7)) PInf 0 30 in
  exists c, get_converter d = Ok c /\ good c /\ 0 < 1 / 4 < 1 /\ inside c 5 /\ lower c = Fin (-7) /\ upper c = PInf.
Proof. exists (CFI (-7) 30). simpl. unfold inside. simpl. splits; auto; lra. Qed.
