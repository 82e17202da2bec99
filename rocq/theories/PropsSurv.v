(** * Property C106: survival regressions *)

Require Import Verif.ModelNum Verif.ModelReg Verif.ModelHazard Verif.ModelSurv Verif.ProofBase Verif.PropsReg Verif.PropsHazard.
Open Scope R_scope.

(** The predicted time for a unit exponential draw e exceeds s exactly if e exceeds the cumulative
    hazard at s times the risk ratio: proportional hazards. *)
Theorem C106_cox : forall h rs xs es e, proper h -> Forall2 (contributes xs) rs es -> 0 <= e ->
  exists t, cox_predict h rs xs e = Ok t /\ 0 <= t /\ (e = 0 <-> t = 0)
    /\ (forall s, 0 <= s -> (s < t <-> exp (rsum es) * cum_hazard h s < e))
    /\ exists rr, cox_sampler h rs xs = Ok (h, rr) /\ rr = exp (rsum es) /\ hd_sample h rr [e] = Ok [t].
Proof.
  intros h rs xs es e P C E. unfold cox_predict, cox_sampler, cox_rr. rewrite (C63_sum _ _ _ C). cbn [bind hd_sample map hd].
  set (rr := exp (rsum es)). assert (R : 0 < rr) by apply exp_pos. set (t := inv_cum_hazard h (1 / rr * e)).
  assert (Q : 0 <= 1 / rr * e) by (apply Rmult_le_pos; auto; left; apply Rdiv_lt_0_compat; lra).
  destruct (C66_inverse h P) as [I0 I1]. destruct (I1 _ Q) as [T0 T1]. destruct (C66_increasing h P) as [J0 _]. fold t in T0, T1.
  assert (Z : cum_hazard h 0 = 0) by (destruct h as [r|l k]; simpl in *; [ring|rewrite Rmult_0_r; apply fpow_0; lra]).
  assert (Et : e = rr * cum_hazard h t) by (rewrite T1; field; lra).
  exists t. split; [reflexivity|]. split; auto. split.
  - split.
    + intros ->. unfold t. rewrite Rmult_0_r. destruct (I0 0) as [_ X]; [lra|]. rewrite Z in X. exact X.
    + intros T. rewrite Et, T, Z. ring.
  - split; [|eexists; split; [reflexivity|split; reflexivity]]. intros s S. rewrite Et. split; intros L.
    + apply Rmult_lt_compat_l; auto.
    + apply Rmult_lt_reg_l in L; auto. destruct (Rlt_le_dec s t) as [|[K|K]]; auto.
      * pose proof (J0 t s T0 K). lra.
      * rewrite <- K in L. lra.
Qed.
Print Assumptions C106_cox.

(** For the same draw the time is the shorter the larger the sum of effects, and the cumulative
    hazards at the two times are in the ratio of the risks. *)
Theorem C106_ratio : forall h rs xs xs' es es' e t t', proper h -> Forall2 (contributes xs) rs es -> Forall2 (contributes xs') rs es' -> 0 < e ->
  cox_predict h rs xs e = Ok t -> cox_predict h rs xs' e = Ok t' ->
  cum_hazard h t = exp (rsum es' - rsum es) * cum_hazard h t' /\ (t' < t <-> rsum es < rsum es') /\ (t' = t <-> rsum es = rsum es').
Proof.
  intros h rs xs xs' es es' e t t' P C C' E A B. unfold cox_predict, cox_rr in A, B. rewrite (C63_sum _ _ _ C) in A. rewrite (C63_sum _ _ _ C') in B.
  cbn [bind hd_sample map hd] in A, B. injection A as A. injection B as B.
  set (r := exp (rsum es)) in *. set (r' := exp (rsum es')) in *. assert (R : 0 < r) by apply exp_pos. assert (R' : 0 < r') by apply exp_pos.
  assert (Q : 0 < 1 / r * e) by (apply Rmult_lt_0_compat; auto; apply Rdiv_lt_0_compat; lra).
  assert (Q' : 0 < 1 / r' * e) by (apply Rmult_lt_0_compat; auto; apply Rdiv_lt_0_compat; lra).
  destruct (C66_inverse h P) as [_ I1]. destruct (I1 (1 / r * e)) as [T0 T1]; [lra|]. destruct (I1 (1 / r' * e)) as [T0' T1']; [lra|]. rewrite A in T0, T1. rewrite B in T0', T1'.
  destruct (C66_increasing h P) as [J0 _].
  assert (M : forall a b, 0 <= a -> 0 <= b -> (a < b <-> cum_hazard h a < cum_hazard h b)).
  { intros a b Ha Hb. split; [apply J0; auto|]. intros L. destruct (Rlt_le_dec a b) as [|[K|K]]; auto; [pose proof (J0 b a Hb K); lra|subst; lra]. }
  assert (X : r < r' <-> rsum es < rsum es') by (split; [apply exp_lt_inv|apply exp_increasing]).
  assert (Y : r' < r <-> rsum es' < rsum es) by (split; [apply exp_lt_inv|apply exp_increasing]).
  assert (D : forall a b, 0 < a -> 0 < b -> (1 / a * e < 1 / b * e <-> b < a)).
  { intros a b Ha Hb. unfold Rdiv. rewrite !Rmult_1_l. split; intros L.
    - apply Rmult_lt_reg_r in L; auto. destruct (Rlt_le_dec b a) as [|[K|K]]; auto; [|subst; lra].
      assert (/ b < / a) by (apply Rinv_lt_contravar; auto; apply Rmult_lt_0_compat; auto). lra.
    - apply Rmult_lt_compat_r; auto. apply Rinv_lt_contravar; auto. apply Rmult_lt_0_compat; auto. }
  assert (O1 : t' < t <-> r < r') by (rewrite (M t' t), T1, T1', D; auto; tauto).
  assert (O2 : t < t' <-> r' < r) by (rewrite (M t t'), T1, T1', D; auto; tauto).
  split.
  - rewrite T1, T1'. unfold Rminus. rewrite exp_plus, exp_Ropp. fold r r'. field. lra.
  - split; [tauto|]. split; intros H.
    + destruct (Rtotal_order (rsum es) (rsum es')) as [L|[L|L]]; auto; [apply X, O1 in L|apply Y, O2 in L]; lra.
    + destruct (Rtotal_order t t') as [L|[L|L]]; auto; [apply O2, Y in L|apply O1, X in L]; lra.
Qed.
Print Assumptions C106_ratio.

(** The zero-inflated regression predicts zero exactly below its probability, whose log odds are the
    intercept and the first sum of effects; else it predicts the time of the second regression. *)
Theorem C106_zero : forall z xs eps es u e, proper (z_haz z) -> Forall2 (contributes xs) (z_pr z) eps -> Forall2 (contributes xs) (z_rr z) es -> 0 < e ->
  exists p t, zi_sampler z xs = Ok (p, z_haz z, exp (rsum es)) /\ 0 < p < 1 /\ ln (p / (1 - p)) = z_b0 z + rsum eps
    /\ cox_predict (z_haz z) (z_rr z) xs e = Ok t /\ 0 < t
    /\ zi_predict z xs u e = Ok (if Rlt_dec u p then 0 else t)
    /\ (zi_predict z xs u e = Ok 0 <-> u < p).
Proof.
  intros z xs eps es u e P Cp Cr E. destruct (C63_logistic (z_pr z) (z_b0 z) xs eps Cp) as (p & Lp & Pp & Op).
  destruct (C106_cox (z_haz z) (z_rr z) xs es e P Cr) as (t & T1 & T2 & T3 & _ & rr & S1 & S2 & S3); [lra|].
  assert (Cxp : cox_p (z_pr z) (z_b0 z) xs = Ok p) by exact Lp.
  assert (Crr : cox_rr (z_rr z) xs = Ok rr).
  { unfold cox_sampler in S1. destruct (cox_rr (z_rr z) xs) as [q|]; cbn [bind] in S1; congruence. }
  assert (Sa : zi_sampler z xs = Ok (p, z_haz z, rr)) by (unfold zi_sampler; rewrite Cxp; cbn [bind]; rewrite Crr; reflexivity).
  assert (Tp : 0 < t) by (destruct (Req_dec t 0) as [K|K]; [apply T3 in K; lra|lra]).
  assert (Z : zi_predict z xs u e = Ok (if Rlt_dec u p then 0 else t)).
  { unfold zi_predict. rewrite Sa. cbn [bind]. unfold zi_sample. rewrite S3. cbn [bind combine map fst snd hd]. unfold rltb. destruct (Rlt_dec u p); reflexivity. }
  exists p, t. split; [rewrite Sa, S2; reflexivity|]. split; auto. split; auto. split; auto. split; auto. split; auto. rewrite Z. destruct (Rlt_dec u p); split; auto; intros; try lra.
  assert (t = 0) by congruence. lra.
Qed.
Print Assumptions C106_zero.

(** A covariate that is missing raises KeyError in all of them. *)
Theorem C106_missing : forall G h rs r rs' xs es e, Forall2 (contributes xs) rs es -> dget xs (r_name r) = None ->
  cox_predict h (rs ++ r :: rs') xs e = Err KeyError /\ cox_sampler h (rs ++ r :: rs') xs = Err KeyError /\ cox_expectation G h (rs ++ r :: rs') xs = Err KeyError
  /\ (forall b0 rr u, zi_predict (mkZi b0 (rs ++ r :: rs') h rr) xs u e = Err KeyError)
  /\ forall b0 pr eps u, Forall2 (contributes xs) pr eps -> zi_predict (mkZi b0 pr h (rs ++ r :: rs')) xs u e = Err KeyError.
Proof.
  intros G h rs r rs' xs es e C N. pose proof (C63_missing rs r rs' xs es C N) as M.
  unfold cox_predict, cox_sampler, cox_expectation, zi_predict, zi_sampler, cox_rr, cox_p. cbn [z_pr z_rr z_b0 z_haz]. rewrite M. cbn [bind]. splits; auto.
  intros b0 pr eps u Cp. rewrite (C63_sum _ _ _ Cp). reflexivity.
Qed.
Print Assumptions C106_missing.

(** With an exponential baseline the predicted time is the draw divided by rate and risk ratio, of
    which the expectation is right only for rate 1; it rises with the rate while the times fall. *)
Theorem C106_expectation : forall G r rs xs es, 0 < r -> Forall2 (contributes xs) rs es ->
  exists m, cox_expectation G (HExp r) rs xs = Ok m
    /\ (forall e, cox_predict (HExp r) rs xs e = Ok (e * (1 / (r * exp (rsum es)))))
    /\ m = r / exp (rsum es) /\ (m = 1 / (r * exp (rsum es)) <-> r = 1).
Proof.
  intros G r rs xs es P C. unfold cox_expectation, cox_predict, cox_rr. rewrite (C63_sum _ _ _ C). cbn [bind hd_sample map hd].
  pose proof (exp_pos (rsum es)) as R. destruct (C66_mean_exponential G r (exp (rsum es)) P R) as [_ M]. eexists. split; [reflexivity|]. split; [|split; auto].
  - intros e. f_equal. simpl. field. lra.
  - unfold hd_mean, h_mean. field. lra.
Qed.
Print Assumptions C106_expectation.

(** The zero-inflated expectation is that of the second regression times the probability of not being
    zero, so it has the same fault. *)
Theorem C106_zi_expectation : forall G z xs eps es, Forall2 (contributes xs) (z_pr z) eps -> Forall2 (contributes xs) (z_rr z) es ->
  exists p m, cox_expectation G (z_haz z) (z_rr z) xs = Ok m /\ ln (p / (1 - p)) = z_b0 z + rsum eps /\ 0 < p < 1 /\ zi_expectation G z xs = Ok (m * (1 - p)).
Proof.
  intros G z xs eps es Cp Cr. destruct (C63_logistic (z_pr z) (z_b0 z) xs eps Cp) as (p & Lp & Pp & Op).
  assert (Cxp : cox_p (z_pr z) (z_b0 z) xs = Ok p) by exact Lp. unfold cox_expectation, zi_expectation, zi_sampler. rewrite Cxp. unfold cox_rr. rewrite (C63_sum _ _ _ Cr). cbn [bind].
  exists p, (hd_mean G (z_haz z) (exp (rsum es))). splits; auto; lra.
Qed.
Print Assumptions C106_zi_expectation.

Theorem C106_rate_refuted : exists r r' rs xs es m m', 0 < r < r' /\ Forall2 (contributes xs) rs es
  /\ (forall G, cox_expectation G (HExp r) rs xs = Ok m /\ cox_expectation G (HExp r') rs xs = Ok m') /\ m < m'
  /\ forall e t t', 0 < e -> cox_predict (HExp r) rs xs e = Ok t -> cox_predict (HExp r') rs xs e = Ok t' -> t' < t.
Proof.
  set (xs := [("Male", 1)]). set (rs := [RBoolean "Male" (1/2)]).
  assert (C : Forall2 (contributes xs) rs [1/2]) by (apply Forall2_cons; [apply (ct_true xs "Male" (1/2) 1); [reflexivity|lra]|apply Forall2_nil]).
  pose proof (exp_pos (rsum [1/2])) as R. set (q := exp (rsum [1/2])) in *.
  exists 1, 2, rs, xs, [1/2], (1 / q), (2 / q). split; [lra|]. split; [exact C|]. split; [|split].
  - intros G. destruct (C106_expectation G 1 rs xs _ ltac:(lra) C) as (m & E & _ & -> & _). destruct (C106_expectation G 2 rs xs _ ltac:(lra) C) as (m' & E' & _ & -> & _). auto.
  - apply Rmult_lt_compat_r; [apply Rinv_0_lt_compat; auto|lra].
  - intros e t t' E A B. destruct (C106_expectation (fun x => x) 1 rs xs _ ltac:(lra) C) as (_ & _ & F & _). destruct (C106_expectation (fun x => x) 2 rs xs _ ltac:(lra) C) as (_ & _ & F' & _).
    rewrite F in A. rewrite F' in B. fold q in A, B. clearbody q. injection A as <-. injection B as <-. apply Rmult_lt_compat_l; auto. unfold Rdiv. rewrite ?Rmult_1_l. apply Rinv_lt_contravar.
    + repeat apply Rmult_lt_0_compat; lra.
    + lra.
Qed.
Print Assumptions C106_rate_refuted.

(** the regressions at the end of survival.py, case Male = True *)
Example C106_example : exists t, cox_predict (HWeibull (1/2) 1) [RBoolean "Male" (1/2)] [("Male", 1)] 2 = Ok t /\ 0 < t
  /\ zi_predict (mkZi 0 [RBoolean "Male" (1/2)] (HWeibull (1/2) 1) [RBoolean "Male" (1/2)]) [("Male", 1)] 0 2 = Ok 0.
Proof.
  set (xs := [("Male", 1)]). set (rs := [RBoolean "Male" (1/2)]).
  assert (C : Forall2 (contributes xs) rs [1/2]) by (apply Forall2_cons; [apply (ct_true xs "Male" (1/2) 1); [reflexivity|lra]|apply Forall2_nil]).
  destruct (C106_zero (mkZi 0 rs (HWeibull (1/2) 1) rs) xs [1/2] [1/2] 0 2) as (p & t & _ & Pp & _ & T & Tp & _ & Z); auto; [simpl; lra|lra|].
  exists t. split; [exact T|]. split; [exact Tp|]. apply Z. lra.
Qed.
(** twice as old with a coefficient ln 2 per year: half the cumulative hazard *)
Example C106_example_ratio : exists t t', cox_predict (HExp 1) [RContinuous "Age" (ln 2)] [("Age", 1)] 1 = Ok t
  /\ cox_predict (HExp 1) [RContinuous "Age" (ln 2)] [("Age", 2)] 1 = Ok t' /\ t = 2 * t' /\ t' < t.
Proof.
  assert (C : forall v, Forall2 (contributes [("Age", v)]) [RContinuous "Age" (ln 2)] [ln 2 * v]) by (intros v; apply Forall2_cons; [apply ct_slope; reflexivity|apply Forall2_nil]).
  destruct (C106_cox (HExp 1) _ _ _ 1 ltac:(simpl; lra) (C 1) ltac:(lra)) as (t & T & _). destruct (C106_cox (HExp 1) _ _ _ 1 ltac:(simpl; lra) (C 2) ltac:(lra)) as (t' & T' & _).
  destruct (C106_ratio (HExp 1) _ _ _ _ _ 1 t t' ltac:(simpl; lra) (C 1) (C 2) ltac:(lra) T T') as (A & B & _). exists t, t'. split; [exact T|]. split; [exact T'|].
  assert (L : 0 < ln 2) by (rewrite <- ln_1; apply ln_increasing; lra). split; [|apply B; simpl; lra].
  simpl in A. replace (ln 2 * 2 + 0 - (ln 2 * 1 + 0)) with (ln 2) in A by ring. rewrite exp_ln in A by lra. lra.
Qed.
