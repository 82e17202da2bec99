(** * Property C66: survival times *)

Require Import Verif.ModelNum Verif.ModelReg Verif.ModelHazard Verif.ProofBase.
Open Scope R_scope.

Definition proper (h : hazard) : Prop := match h with HExp r => 0 < r | HWeibull l k => 0 < l /\ 0 < k end.

Lemma fpow_0 : forall y, y <> 0 -> fpow 0 y = 0.
Proof. intros y H. unfold fpow. assert (E : reqb 0 0 = true) by (apply reqb_true; auto). apply reqb_false in H. rewrite E, H. auto. Qed.
Lemma fpow_pos : forall x y, 0 < x -> fpow x y = Rpower x y.
Proof. intros x y H. unfold fpow. assert (E : reqb x 0 = false) by (apply reqb_false; lra). rewrite E. auto. Qed.
Lemma Rpower_pos : forall x y, 0 < Rpower x y.
Proof. intros. apply exp_pos. Qed.
Lemma fpow_inv : forall x y, 0 <= x -> 0 < y -> fpow (fpow x y) (1 / y) = x.
Proof.
  intros x y [H| <-] Hy.
  - rewrite (fpow_pos x) by auto. rewrite fpow_pos by apply Rpower_pos. rewrite Rpower_mult.
    replace (y * (1 / y)) with 1 by (field; lra). apply Rpower_1; auto.
  - assert (0 < 1 / y) by (apply Rdiv_lt_0_compat; lra). rewrite (fpow_0 y) by lra. apply fpow_0. lra.
Qed.
Lemma fpow_mono : forall x x' y, 0 <= x -> x < x' -> 0 < y -> fpow x y < fpow x' y.
Proof.
  intros x x' y [H| <-] L Hy.
  - rewrite !fpow_pos by lra. unfold Rpower. apply exp_increasing. apply Rmult_lt_compat_l; auto. apply ln_increasing; auto.
  - rewrite fpow_0 by lra. rewrite fpow_pos by lra. apply Rpower_pos.
Qed.
Lemma fpow_nonneg : forall x y, 0 <= x -> 0 <= fpow x y.
Proof.
  intros x y [H| <-]; [rewrite fpow_pos by auto; left; apply Rpower_pos|]. unfold fpow. destruct (reqb 0 0); [destruct (reqb y 0); lra|].
  left. apply Rpower_pos.
Qed.

(** The two functions are inverse, and increase. *)
Theorem C66_inverse : forall h, proper h ->
  (forall t, 0 <= t -> 0 <= cum_hazard h t /\ inv_cum_hazard h (cum_hazard h t) = t)
  /\ (forall x, 0 <= x -> 0 <= inv_cum_hazard h x /\ cum_hazard h (inv_cum_hazard h x) = x).
Proof.
  intros [r|l k] P; simpl in P; simpl; split.
  - intros t H. split; [apply Rmult_le_pos; lra|field; lra].
  - intros x H. split; [apply Rmult_le_pos; [auto|left; apply Rinv_0_lt_compat; auto]|field; lra].
  - destruct P as [L K]. intros t H. assert (0 <= l * t) by (apply Rmult_le_pos; lra). split; [apply fpow_nonneg; auto|].
    rewrite fpow_inv by auto. field. lra.
  - destruct P as [L K]. intros x H. assert (Q : 0 < 1 / k) by (apply Rdiv_lt_0_compat; lra).
    assert (N : 0 <= fpow x (1 / k)) by (apply fpow_nonneg; auto). split; [apply Rmult_le_pos; [auto|left; apply Rinv_0_lt_compat; auto]|].
    replace (l * (fpow x (1 / k) / l)) with (fpow x (1 / k)) by (field; lra).
    replace k with (1 / (1 / k)) at 2 by (field; lra). apply fpow_inv; auto.
Qed.
Print Assumptions C66_inverse.

Theorem C66_increasing : forall h, proper h ->
  (forall t t', 0 <= t -> t < t' -> cum_hazard h t < cum_hazard h t')
  /\ (forall x x', 0 <= x -> x < x' -> inv_cum_hazard h x < inv_cum_hazard h x').
Proof.
  intros [r|l k] P; simpl in P; simpl; split.
  - intros. apply Rmult_lt_compat_r; auto.
  - intros. apply Rmult_lt_compat_r; [apply Rinv_0_lt_compat|]; auto.
  - destruct P as [L K]. intros t t' H1 H2. apply fpow_mono; auto; [apply Rmult_le_pos; lra|apply Rmult_lt_compat_l; auto].
  - destruct P as [L K]. intros x x' H1 H2. apply Rmult_lt_compat_r; [apply Rinv_0_lt_compat; auto|].
    apply fpow_mono; auto. apply Rdiv_lt_0_compat; lra.
Qed.
Print Assumptions C66_increasing.

(** Every drawn time is non-negative and solves (cumulative hazard * risk ratio = draw).
    Missing: the mean, std and logpdf parts of C66, which are false (see the refuted theorems). *)
Theorem C66_sample_partial : forall h rr es ts, proper h -> 0 < rr -> Forall (fun e => 0 <= e) es ->
  hd_sample h rr es = Ok ts -> Forall2 (fun e t => 0 <= t /\ rr * cum_hazard h t = e) es ts.
Proof.
  intros h rr es ts P R E H. assert (T : ts = map (fun e => inv_cum_hazard h (1 / rr * e)) es) by (destruct es; inversion H; auto).
  subst. clear H. destruct (C66_inverse h P) as [_ I]. induction E as [|e es He _ IH]; simpl; constructor; auto.
  assert (Q : 0 <= 1 / rr * e) by (apply Rmult_le_pos; auto; left; apply Rdiv_lt_0_compat; lra).
  destruct (I _ Q) as [I1 I2]. split; auto. rewrite I2. field. lra.
Qed.
Print Assumptions C66_sample_partial.

Theorem C66_no_draw : forall h rr es, hd_sample h rr es = Err IndexError <-> es = [].
Proof. intros h rr [|e es]; simpl; split; intros; congruence. Qed.
Print Assumptions C66_no_draw.

(** A larger risk ratio shortens every positive time, for the same random draw. *)
Theorem C66_risk_ratio : forall h r1 r2 e t1 t2, proper h -> 0 < r1 -> r1 < r2 -> 0 < e ->
  hd_sample h r1 [e] = Ok [t1] -> hd_sample h r2 [e] = Ok [t2] -> t2 < t1.
Proof.
  intros h r1 r2 e t1 t2 P H1 H2 He A B. simpl in A, B. inversion A; inversion B; subst.
  destruct (C66_increasing h P) as [_ I]. apply I.
  - apply Rmult_le_pos; [left; apply Rdiv_lt_0_compat; lra|lra].
  - apply Rmult_lt_compat_r; auto. unfold Rdiv. rewrite !Rmult_1_l. apply Rinv_lt_contravar; auto. apply Rmult_lt_0_compat; lra.
Qed.
Print Assumptions C66_risk_ratio.

(** In a Cox regression a positive coefficient of a continuous covariate shortens the time. *)
Theorem C66_cox : forall h n c v v' e t t', proper h -> 0 < c -> v < v' -> 0 < e ->
  cox_predict h [RContinuous n c] [(n, v)] e = Ok t -> cox_predict h [RContinuous n c] [(n, v')] e = Ok t' -> t' < t.
Proof.
  intros h n c v v' e t t' P Hc L He A B. unfold cox_predict, cox_rr, lc_predict, dgetE in A, B. simpl in A, B. rewrite String.eqb_refl in A, B.
  simpl in A, B. inversion A; inversion B; subst.
  eapply (C66_risk_ratio h (exp (0 + c * v)) (exp (0 + c * v')) e); auto; [apply exp_pos|].
  apply exp_increasing. assert (c * v < c * v') by (apply Rmult_lt_compat_l; auto). lra.
Qed.
Print Assumptions C66_cox.

(** Zero inflation: a draw is zero exactly when its uniform number is below the probability (times
    themselves are zero only for a zero draw). *)
Theorem C66_zero_inflated : forall pr h rr us es ts, proper h -> 0 < rr -> Forall (fun e => 0 < e) es -> length us = length es ->
  zi_sample pr h rr us es = Ok ts -> length ts = length es
  /\ forall i u e t, nth_error us i = Some u -> nth_error es i = Some e -> nth_error ts i = Some t ->
       (u < pr -> t = 0) /\ (pr <= u -> 0 < t /\ rr * cum_hazard h t = e).
Proof.
  intros pr h rr us es ts P R E L H. unfold zi_sample in H. destruct (hd_sample h rr es) as [t0|] eqn:S; cbn [bind] in H; [|discriminate].
  inversion H; subst. clear H. assert (E' : Forall (fun e => 0 <= e) es) by (eapply Forall_impl; [|exact E]; intros; simpl in *; lra).
  pose proof (C66_sample_partial h rr es t0 P R E' S) as F. clear S E'.
  assert (Z : cum_hazard h 0 = 0). { destruct h as [r|l k]; simpl in *; [ring|]. rewrite Rmult_0_r. apply fpow_0. lra. }
  revert us L. induction F as [|e t es t0 [F1 F2] F IH]; intros [|u us] L; try discriminate.
  - split; auto. intros [|]; discriminate.
  - inversion E; subst. injection L as L. destruct (IH H2 us L) as [I1 I2]. cbn [combine map length fst snd]. split; [f_equal; exact I1|].
    intros [|i] u' e' t' A B C; cbn [nth_error] in *; [|eapply I2; eauto].
    inversion A; inversion B; inversion C; subst. destruct (rltb u' pr) eqn:Q.
    + apply rltb_true in Q. split; [auto|lra].
    + apply rltb_false in Q. split; [lra|]. intros _. split; auto. destruct F1 as [F1|<-]; auto. rewrite Z in H1. lra.
Qed.
Print Assumptions C66_zero_inflated.

(** The log density is not a number, for the exponential hazard at every value and for the Weibull
    hazard at every value above the step width: the difference is taken of the survival function
    instead of the distribution function. *)
Theorem C66_logpdf_never : forall h v, proper h -> (match h with HExp _ => True | HWeibull _ _ => eps <= v end) -> hd_logpdf h v = NaN.
Proof.
  intros h v P H. assert (Ep : 0 < eps) by (unfold eps; lra).
  assert (L : cum_hazard h (v - eps) < cum_hazard h v).
  { destruct h as [r|l k].
    - simpl in *. apply Rmult_lt_compat_r; auto. lra.
    - apply (proj1 (C66_increasing _ P)); lra. }
  unfold hd_logpdf. cbv zeta. set (d := _ / eps).
  assert (D : d < 0).
  { unfold d, Rdiv. rewrite <- (Rmult_0_l (/ eps)). apply Rmult_lt_compat_r; [apply Rinv_0_lt_compat; auto|].
    assert (exp (- cum_hazard h v) < exp (- cum_hazard h (v - eps))) by (apply exp_increasing; lra). lra. }
  unfold flog. assert (E1 : rltb 0 d = false) by (apply rltb_false; lra). assert (E2 : reqb d 0 = false) by (apply reqb_false; lra).
  rewrite E1, E2. auto.
Qed.
Print Assumptions C66_logpdf_never.
Theorem C66_logpdf_refuted : exists h v, proper h /\ 0 < v /\ hd_logpdf h v = NaN.
Proof. exists (HExp 1), 1. splits; simpl; try lra. apply C66_logpdf_never; simpl; auto; lra. Qed.
Print Assumptions C66_logpdf_refuted.

(** The zero-inflated log density: right at zero, not a number elsewhere. *)
Theorem C66_zi_logpdf : forall pr h v, proper h -> 0 < pr < 1 ->
  (v <= 0 -> zi_logpdf pr h v = Fin (ln pr)) /\ (eps <= v -> zi_logpdf pr h v = NaN).
Proof.
  intros pr h v P Hp. assert (Ep : 0 < eps) by (unfold eps; lra). unfold zi_logpdf. split; intros H.
  - apply rleb_true in H. rewrite H. apply flog_pos. lra.
  - assert (E : rleb v 0 = false) by (apply rleb_false; lra). rewrite E, (flog_pos (1 - pr)) by lra.
    rewrite C66_logpdf_never; auto. destruct h; auto.
Qed.
Print Assumptions C66_zi_logpdf.

(** The mean for an exponential hazard with rate r and ratio rr is 1/(r*rr): every time is the draw
    divided by (r*rr) and unit exponential draws have mean one. The code gives r/rr. *)
Theorem C66_mean_exponential : forall G r rr, 0 < r -> 0 < rr ->
  (forall e t, hd_sample (HExp r) rr [e] = Ok [t] -> t = e * (1 / (r * rr)))
  /\ (hd_mean G (HExp r) rr = 1 / (r * rr) <-> r = 1).
Proof.
  intros G r rr H1 H2. split.
  - intros e t H. simpl in H. inversion H. field. lra.
  - unfold hd_mean. simpl. replace (1 / (1 / r) / rr) with (r / rr) by (field; lra). split; intros H.
    + assert (K : r / rr * (r * rr) = 1) by (rewrite H; field; lra). replace (r / rr * (r * rr)) with (r * r) in K by (field; lra).
      assert (Q : (r - 1) * (r + 1) = 0) by lra. apply Rmult_integral in Q. lra.
    + subst. field. lra.
Qed.
Print Assumptions C66_mean_exponential.
Theorem C66_mean_refuted : exists h rr m, forall G, proper h /\ 0 < rr /\ hd_mean G h rr = m
  /\ forall e t, hd_sample h rr [e] = Ok [t] -> t = e * (1 / 2) /\ m <> 1 / 2.
Proof.
  exists (HExp 2), 1, 2. intros G. splits; simpl; try lra.
  - unfold hd_mean. simpl. field.
  - intros e t H. inversion H. split; [field|lra].
Qed.
Print Assumptions C66_mean_refuted.

(** Weibull: doubling the scale parameter halves every time (it is a rate), but the reported mean
    of the hazard doubles. *)
Theorem C66_weibull_mean_refuted : exists l l' k, forall G e t t' rr, 0 < G (1 + 1 / k) -> 0 < rr ->
  hd_sample (HWeibull l k) rr [e] = Ok [t] -> hd_sample (HWeibull l' k) rr [e] = Ok [t'] ->
  t' = t / 2 /\ h_mean G (HWeibull l' k) = 2 * h_mean G (HWeibull l k) /\ h_mean G (HWeibull l k) > 0.
Proof.
  exists 1, 2, 1. intros G e t t' rr HG Hr A B. simpl in *. inversion A; inversion B. splits; lra.
Qed.
Print Assumptions C66_weibull_mean_refuted.

(** Weibull with shape 1/2: doubling the risk ratio divides every time by four, but the reported
    mean of the distribution only halves. *)
Theorem C66_weibull_ratio_refuted : exists l k, proper (HWeibull l k) /\ forall G e t t', 0 < G (1 + 1 / k) -> 0 < e ->
  hd_sample (HWeibull l k) 1 [e] = Ok [t] -> hd_sample (HWeibull l k) 2 [e] = Ok [t'] ->
  t' = t / 4 /\ hd_mean G (HWeibull l k) 2 = hd_mean G (HWeibull l k) 1 / 2.
Proof.
  exists 1, (1 / 2). split; [simpl; lra|]. intros G e t t' HG He A B. simpl in A, B. inversion A; inversion B. split.
  - replace (1 / (1 / 2)) with (INR 2) by (simpl; lra). rewrite !fpow_pos by lra. rewrite !Rpower_pow by lra. simpl. field.
  - unfold hd_mean, h_mean. field. lra.
Qed.
Print Assumptions C66_weibull_ratio_refuted.

(** The same for the standard deviation of the exponential case: r / rr^2 instead of 1/(r*rr). *)
Theorem C66_std_refuted : exists r rr, 0 < r /\ 0 < rr /\ forall G, hd_std G (HExp r) rr <> 1 / (r * rr).
Proof. exists 1, 2. splits; try lra. intros G. unfold hd_std. simpl. lra. Qed.
Print Assumptions C66_std_refuted.

Example C66_example : proper (HWeibull 2 3) /\ hd_sample (HExp 2) 3 [6] = Ok [1 / 3 * 6 / 2] /\ cum_hazard (HExp 2) 1 = 2.
Proof. simpl. splits; try lra; auto. Qed.
