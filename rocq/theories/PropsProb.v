(** * Properties C61, C64, C65: prob.py *)

Require Import Verif.ModelNum Verif.ModelProb Verif.ProofBase Coq.ZArith.ZArith.
Open Scope R_scope.

(** ** C61 *)

Lemma sum_div : forall (l : dict R) t, t <> 0 -> rsum (map (fun e => snd e / t) l) = rsum (map snd l) / t.
Proof. intros l t H. induction l as [|e l IH]; simpl; [field; auto|]. unfold rsum in *. rewrite IH. field; auto. Qed.
Lemma dget_map : forall A B (f : A -> B) (d : dict A) k, dget (map (fun e => (fst e, f (snd e))) d) k = option_map f (dget d k).
Proof. intros A B f d k. induction d as [|[x v] d IH]; simpl; auto. destruct (String.eqb k x); auto. Qed.

(** The probabilities: one per category, in order, the weight divided by the total; they sum to
    one, and are non-negative if the weights are.
    Missing: tables whose total is zero, where it is false (C61_zero_total_refuted). *)
Theorem C61_probabilities_partial : forall kv, cat_total kv <> 0 ->
  dkeys (cat_p kv) = dkeys kv
  /\ (forall k, dget (cat_p kv) k = option_map (fun w => Fin (w / cat_total kv)) (dget kv k))
  /\ exists ps, map snd (cat_p kv) = map Fin ps /\ rsum ps = 1
     /\ (Forall (fun e => 0 <= snd e) kv -> 0 < cat_total kv -> Forall (fun p => 0 <= p <= 1) ps).
Proof.
  intros kv N. splits.
  - unfold cat_p, dkeys. rewrite map_map. auto.
  - intros k. unfold cat_p. rewrite (dget_map _ _ (fun w => fdiv w (cat_total kv))).
    destruct (dget kv k); simpl; auto. rewrite fdiv_fin; auto.
  - exists (map (fun e => snd e / cat_total kv) kv). assert (S1 : rsum (map (fun e => snd e / cat_total kv) kv) = 1).
    { rewrite sum_div by auto. unfold cat_total in *. field. auto. }
    splits; auto.
    + unfold cat_p. rewrite !map_map. apply map_ext. intros e. simpl. apply fdiv_fin; auto.
    + intros H P. assert (Q : Forall (fun p => 0 <= p) (map (fun e => snd e / cat_total kv) kv)).
      { apply Forall_forall. intros p Hp. apply in_map_iff in Hp. destruct Hp as [e [<- He]]. rewrite Forall_forall in H.
        apply Rmult_le_pos; [auto|apply Rlt_le, Rinv_0_lt_compat; auto]. }
      assert (G : forall l, Forall (fun p => 0 <= p) l -> 0 <= rsum l /\ Forall (fun p => p <= rsum l) l).
      { induction l as [|x l IH]; intros K; [simpl; split; [lra|constructor]|]. inversion K; subst.
        destruct (IH H3) as [I1 I2]. unfold rsum in *. simpl. split; [lra|]. constructor; [lra|].
        eapply Forall_impl; [|exact I2]. intros; simpl in *; lra. }
      destruct (G _ Q) as [_ G2]. rewrite S1 in G2. rewrite Forall_forall in *. auto.
Qed.
Print Assumptions C61_probabilities_partial.

(** logpdf is the logarithm of the weight as given, so it is that of the probability exactly when
    the weights sum to one.
    Missing: categories of weight zero, where log density and probability agree whatever the total
    (C61_zero_weight_refuted). *)
Theorem C61_logpdf_partial : forall kv k w, dget kv k = Some w -> 0 < w -> 0 < cat_total kv ->
  exists l p, cat_logpdf kv k = Ok (Fin l) /\ dget (cat_p kv) k = Some (Fin p)
    /\ exp l = p * cat_total kv /\ (exp l = p <-> cat_total kv = 1).
Proof.
  intros kv k w H W T. destruct (C61_probabilities_partial kv ltac:(lra)) as [_ [P _]].
  exists (ln w), (w / cat_total kv). unfold cat_logpdf, dgetE. rewrite H. simpl. rewrite flog_pos by auto.
  specialize (P k). rewrite H in P. simpl in P. rewrite exp_ln by auto.
  assert (E : w / cat_total kv * cat_total kv = w) by (field; lra). split; [|split; [|split]]; auto.
  split; intros K.
  - rewrite <- K in E. apply (Rmult_eq_reg_l w); lra.
  - rewrite K. field.
Qed.
Print Assumptions C61_logpdf_partial.

(** All weights zero: no probability is a number. *)
Theorem C61_zero_total_refuted : exists kv, kv <> [] /\ Forall (fun e => 0 <= snd e) kv /\ Forall (fun e => snd e = NaN) (cat_p kv).
Proof.
  exists [("a"%string, 0); ("b"%string, 0)]. splits; [discriminate|repeat constructor; simpl; lra|].
  assert (E : reqb (cat_total [("a"%string, 0); ("b"%string, 0)]) 0 = true) by (apply reqb_true; unfold cat_total, rsum; simpl; lra).
  assert (Z : reqb 0 0 = true) by (apply reqb_true; auto).
  unfold cat_p, fdiv. cbn [map fst snd]. rewrite E, Z. repeat constructor.
Qed.
Print Assumptions C61_zero_total_refuted.

(** A weight of zero: log density minus infinity and probability zero agree though the weights do
    not sum to one. *)
Theorem C61_zero_weight_refuted : exists kv k, cat_total kv <> 1 /\ cat_logpdf kv k = Ok NInf /\ dget (cat_p kv) k = Some (Fin 0).
Proof.
  exists [("a"%string, 0); ("b"%string, 2)], "a"%string.
  assert (E : cat_total [("a"%string, 0); ("b"%string, 2)] = 2) by (unfold cat_total, rsum; simpl; lra). splits.
  - rewrite E. lra.
  - unfold cat_logpdf, dgetE. simpl. unfold flog. assert (A : rltb 0 0 = false) by (apply rltb_false; lra).
    assert (B : reqb 0 0 = true) by (apply reqb_true; auto). rewrite A, B. auto.
  - destruct (C61_probabilities_partial [("a"%string, 0); ("b"%string, 2)] ltac:(rewrite E; lra)) as [_ [P _]]. rewrite P, E. simpl.
    do 2 f_equal. lra.
Qed.
Print Assumptions C61_zero_weight_refuted.

Theorem C61_logpdf_unknown : forall kv k, cat_logpdf kv k = Err KeyError <-> dget kv k = None.
Proof. intros kv k. unfold cat_logpdf, dgetE. destruct (dget kv k); simpl; split; intros; congruence. Qed.
Print Assumptions C61_logpdf_unknown.

(** A dict of counts: the counts weight the logarithms. *)
Theorem C61_logpdf_counts : forall kv counts, (forall k x, In (k, x) counts -> exists w, dget kv k = Some w /\ 0 < w) ->
  exists l, cat_logpdf_counts kv counts = Ok (Fin l)
    /\ l = rsum (map (fun kx => snd kx * ln (match dget kv (fst kx) with Some w => w | None => 0 end)) counts).
Proof.
  intros kv counts H. unfold cat_logpdf_counts.
  assert (G : mapM (fun kx => do w <- dgetE kv (fst kx); Ok (fmul (snd kx) (flog w))) counts =
    Ok (map (fun kx => Fin (snd kx * ln (match dget kv (fst kx) with Some w => w | None => 0 end))) counts)).
  { induction counts as [|[k x] cs IH]; auto. cbn [mapM map fst snd]. destruct (H k x (or_introl eq_refl)) as [w [H1 H2]].
    unfold dgetE at 1. rewrite H1. cbn [bind]. rewrite flog_pos by auto. rewrite IH by (intros; eapply H; right; eauto). reflexivity. }
  rewrite G. cbn [bind]. eexists. split; [|reflexivity]. f_equal. clear. induction counts as [|e cs IH]; simpl; auto. rewrite IH. auto.
Qed.
Print Assumptions C61_logpdf_counts.

(** The constant: log density 0 at the value, plus infinity elsewhere (a density that is larger
    where the value can never be). *)
Theorem C61_const : forall k v n, (const_logpdf k v = Fin 0 <-> v = k) /\ (const_logpdf k v = PInf <-> v <> k)
  /\ Forall (fun x => x = k) (const_sample k n) /\ length (const_sample k n) = Nat.max 1 n.
Proof.
  intros k v n. unfold const_logpdf. splits; auto.
  - rewrite <- reqb_true. destruct (reqb v k); split; auto; discriminate.
  - rewrite <- reqb_false. destruct (reqb v k); split; auto; discriminate.
  - unfold const_sample. destruct (Nat.ltb 1 n); [|repeat constructor]. apply Forall_forall. intros x Hx. eapply repeat_spec; eauto.
  - unfold const_sample. destruct (Nat.ltb_spec 1 n); [rewrite repeat_length|cbn [length]]; lia.
Qed.
Print Assumptions C61_const.

Example C61_example : cat_total [("a"%string, 1); ("b"%string, 3)] = 4
  /\ dget (cat_p [("a"%string, 1); ("b"%string, 3)]) "b"%string = Some (Fin (3 / 4)).
Proof.
  assert (E : cat_total [("a"%string, 1); ("b"%string, 3)] = 4) by (unfold cat_total, rsum; simpl; lra). split; auto.
  destruct (C61_probabilities_partial [("a"%string, 1); ("b"%string, 3)] ltac:(rewrite E; lra)) as [_ [P _]]. rewrite P, E. reflexivity.
Qed.

(** ** C64 *)

(** scipy's admissible parameters *)
Definition admissible (d : sp) : Prop :=
  match d with
  | SConst _ => True
  | SGamma a s => 0 < a /\ 0 < s
  | SExpon s => 0 < s
  | SLognorm s sc => 0 < s /\ 0 < sc
  | SUniform _ s => 0 < s
  | SChi2 d => 0 < d
  | SBeta a b => 0 < a /\ 0 < b
  | SInvgamma a s => 0 < a /\ 0 < s
  | SNorm _ s => 0 < s
  | STriang _ s c => 0 < s /\ 0 <= c <= 1
  | SBinom n p => (0 <= n)%Z /\ 0 <= p <= 1
  | SPoisson m => 0 <= m
  end.

Lemma inv_pos : forall r, 0 < r -> 0 < 1 / r.
Proof. intros r H. unfold Rdiv. rewrite Rmult_1_l. apply Rinv_0_lt_compat; auto. Qed.

Lemma sort3_spec : forall a b c x y z, sort3 a b c = (x, y, z) ->
  x <= y /\ y <= z /\ x + y + z = a + b + c /\ (x = y -> y = z -> a = b /\ b = c)
  /\ (x = a \/ x = b \/ x = c) /\ (z = a \/ z = b \/ z = c).
Proof.
  intros a b c x y z H. unfold sort3, rins, rleb in H.
  destruct (Rle_dec b c); destruct (Rle_dec a _) in H; try destruct (Rle_dec a _) in H; inversion H; subst; splits; try lra; auto; intros; lra.
Qed.

Ltac tests := repeat match goal with
  | H : _ && _ = true |- _ => apply andb_true_iff in H; destruct H
  | H : rltb _ _ = true |- _ => apply rltb_true in H
  | H : rleb _ _ = true |- _ => apply rleb_true in H
  | H : Z.ltb _ _ = true |- _ => apply Z.ltb_lt in H
  end.

(** Missing: unif with max <= min, for which it is false (C64_uniform_refuted). *)
Theorem C64_admissible_partial : forall c d, create c = Ok d -> (forall mn mx, c = CUniform mn mx -> mn < mx) -> admissible d.
Proof.
  intros c d H U. unfold create in H. destruct (fields_ok c) eqn:F; simpl in H; [|discriminate].
  destruct c; simpl in F; try (inversion H; subst; simpl; tests; repeat split; auto using inv_pos, exp_pos; try lra; try lia; fail).
  - inversion H; subst. simpl. specialize (U _ _ eq_refl). lra.
  - destruct (sort3 a m b) as [[x y] z] eqn:S. destruct (sort3_spec _ _ _ _ _ _ S) as [S1 [S2 _]].
    destruct (reqb (z - x) 0) eqn:E; [discriminate|]. apply reqb_false in E. inversion H; subst. simpl.
    assert (P : 0 < z - x) by lra. assert (I : 0 < / (z - x)) by (apply Rinv_0_lt_compat; auto). split; [auto|split].
    + apply Rmult_le_pos; lra.
    + unfold Rdiv. rewrite <- (Rinv_r (z - x)) by lra. apply Rmult_le_compat_r; lra.
Qed.
Print Assumptions C64_admissible_partial.

Theorem C64_uniform_refuted : exists mn mx d, create (CUniform mn mx) = Ok d /\ ~ admissible d.
Proof. exists 1, 0, (SUniform 1 (0 - 1)). split; [reflexivity|simpl; lra]. Qed.
Print Assumptions C64_uniform_refuted.

(** When creating raises: a refused field, or a triangle without extent (an exception that the
    sampling code does not expect). *)
Theorem C64_raises : forall c, (create c = Err ValidationError <-> fields_ok c = false)
  /\ (create c = Err ZeroDivisionError <-> exists a, c = CTriangle a a a)
  /\ (forall e, create c = Err e -> e = ValidationError \/ e = ZeroDivisionError).
Proof.
  intros c.
  assert (T : forall a m b, create (CTriangle a m b) = Err ZeroDivisionError /\ a = m /\ m = b
     \/ (exists d, create (CTriangle a m b) = Ok d) /\ ~ (a = m /\ m = b)).
  { intros a m b. unfold create. simpl. destruct (sort3 a m b) as [[x y] z] eqn:S.
    destruct (sort3_spec _ _ _ _ _ _ S) as [S1 [S2 [S3 [S4 S5]]]]. destruct (reqb (z - x) 0) eqn:E.
    - left. apply reqb_true in E. split; auto. apply S4; lra.
    - right. split; eauto. intros [-> ->]. apply reqb_false in E. apply E. lra. }
  assert (G : forall x d, create x = (if negb (fields_ok x) then Err ValidationError else Ok d) -> (forall a m b, x <> CTriangle a m b) ->
     (create x = Err ValidationError <-> fields_ok x = false) /\ (create x = Err ZeroDivisionError <-> exists a, x = CTriangle a a a)
     /\ (forall e, create x = Err e -> e = ValidationError \/ e = ZeroDivisionError)).
  { intros x d E N. rewrite E. destruct (fields_ok x); simpl; splits.
    - split; intros K; discriminate K.
    - split; [discriminate|intros [a K]; destruct (N _ _ _ K)].
    - intros e K. discriminate K.
    - split; auto.
    - split; [discriminate|intros [a K]; destruct (N _ _ _ K)].
    - intros e K. inversion K; auto. }
  destruct c as [| | | | | | | | |a m b| |]; try (eapply G; [reflexivity|intros; discriminate]).
  destruct (T a m b) as [[E [-> ->]]|[[d E] N]]; rewrite E.
  - splits; [split; intros K; discriminate K|split; eauto|]. intros e K. inversion K; auto.
  - splits; [split; intros K; discriminate K|split; [discriminate|intros [x K]; inversion K; subst; tauto]|]. intros e K; discriminate K.
Qed.
Print Assumptions C64_raises.

Example C64_example : create (CTriangle 3 1 2) = Ok (STriang 1 (3 - 1) ((2 - 1) / (3 - 1))).
Proof.
  unfold create. simpl. unfold sort3, rins, rleb. destruct (Rle_dec 1 2); [|lra]. destruct (Rle_dec 3 1); [lra|].
  destruct (Rle_dec 3 2); [lra|]. assert (E : reqb (3 - 1) 0 = false) by (apply reqb_false; lra). rewrite E. auto.
Qed.

(** ** C65 *)

(** mean of the scipy family *)
Definition sp_mean (d : sp) : option R :=
  match d with
  | SConst k => Some k
  | SGamma a s => Some (a * s)
  | SExpon s => Some s
  | SLognorm s sc => Some (exp (ln sc + s ^ 2 / 2))
  | SUniform l s => Some (l + s / 2)
  | SChi2 d => Some d
  | SBeta a b => Some (a / (a + b))
  | SInvgamma a s => Some (s / (a - 1))
  | SNorm l _ => Some l
  | STriang l s c => Some (l + s * (1 + c) / 3)
  | SBinom n p => Some (IZR n * p)
  | SPoisson m => Some m
  end.
(** mean denoted by the fields *)
Definition nominal_mean (c : cre) : option R :=
  match c with
  | CConst k => Some k
  | CGamma s r => Some (s / r)
  | CExp r => Some (1 / r)
  | CLogNorm m s => Some (exp (m + s ^ 2 / 2))
  | CUniform a b => Some ((a + b) / 2)
  | CChi2 d => Some d
  | CBeta a b => Some (a / (a + b))
  | CInvGamma a r => Some (1 / r / (a - 1))   (* rate: the reciprocal of the scale, as for gamma *)
  | CNorm m _ => Some m
  | CTriangle a m b => Some ((a + m + b) / 3)
  | CBinom n p => Some (IZR n * p)
  | CPois l => Some l
  end.

(** Missing: lnorm, for which it is false at every valid field value (C65_lognormal_never). *)
Theorem C65_mean_partial : forall c d, create c = Ok d -> (forall m s, c <> CLogNorm m s) -> sp_mean d = nominal_mean c.
Proof.
  intros c d H L. unfold create in H. destruct (fields_ok c) eqn:F; simpl in H; [|discriminate].
  destruct c; simpl in F; try (inversion H; subst; simpl; tests; auto; f_equal; field; lra).
  - exfalso. eapply L; eauto.
  - destruct (sort3 a m b) as [[x y] z] eqn:S. destruct (sort3_spec _ _ _ _ _ _ S) as [_ [_ [S3 _]]].
    destruct (reqb (z - x) 0) eqn:E; [discriminate|]. apply reqb_false in E. inversion H; subst. simpl. f_equal. rewrite <- S3. field. auto.
Qed.
Print Assumptions C65_mean_partial.

(** The rate of invgamma is not that of the gamma distribution whose reciprocal it is: its mean is the
    one of that reciprocal, rate / (a - 1), only if the rate is one. *)
Theorem C65_invgamma : forall a r, 2 < a -> 0 < r -> exists d x, create (CInvGamma a r) = Ok d /\ sp_mean d = Some x
  /\ (x = r / (a - 1) <-> r = 1).
Proof.
  intros a r Ha Hr. assert (E1 : rltb 2 a = true) by (apply rltb_true; auto). assert (E2 : rltb 0 r = true) by (apply rltb_true; auto).
  eexists _, _. splits; [unfold create; simpl; rewrite E1, E2; reflexivity|reflexivity|]. split.
  - intros H. assert (K : 1 / r = r). { apply (Rmult_eq_reg_r (/ (a - 1))); [exact H|]. apply Rinv_neq_0_compat. lra. }
    assert (Q : r * r = 1). { rewrite <- K at 2. field. lra. } nra.
  - intros ->. field. lra.
Qed.
Print Assumptions C65_invgamma.

(** The log-normal: both parameters are exponentiated once too often, so the mean is wrong for
    all valid values. *)
Theorem C65_lognormal_never : forall m s, 0 <= m -> 0 < s ->
  exists d x y, create (CLogNorm m s) = Ok d /\ sp_mean d = Some x /\ nominal_mean (CLogNorm m s) = Some y /\ y < x.
Proof.
  intros m s Hm Hs. unfold create. simpl. assert (E1 : rleb 0 m = true) by (apply rleb_true; auto).
  assert (E2 : rltb 0 s = true) by (apply rltb_true; auto). rewrite E1, E2. simpl.
  eexists _, _, _. splits; [reflexivity|reflexivity|reflexivity|]. rewrite ln_exp. apply exp_increasing.
  assert (A : m < exp m). { pose proof (exp_ineq1_le m). lra. }
  assert (B : s < exp s). { pose proof (exp_ineq1_le s). lra. }
  assert (C : s ^ 2 < exp s ^ 2). { simpl. rewrite !Rmult_1_r. apply Rmult_le_0_lt_compat; lra. }
  simpl in C. lra.
Qed.
Print Assumptions C65_lognormal_never.
Theorem C65_lognormal_refuted : exists c d, create c = Ok d /\ sp_mean d <> nominal_mean c.
Proof.
  destruct (C65_lognormal_never 0 1 ltac:(lra) ltac:(lra)) as [d [x [y [H1 [H2 [H3 H4]]]]]].
  exists (CLogNorm 0 1), d. split; auto. rewrite H2, H3. intros K. inversion K. lra.
Qed.
Print Assumptions C65_lognormal_refuted.

(** The default of the inverse gamma's first field violates the field's own constraint; all the
    other defaults are fine. *)
Theorem C65_defaults : forall c, In c defaults -> (fields_ok c = false <-> c = CInvGamma 2 1).
Proof.
  intros c H. assert (L : forall x y, x < y -> rltb x y = true) by (intros; apply rltb_true; auto).
  assert (M : forall x y, x <= y -> rleb x y = true) by (intros; apply rleb_true; auto).
  assert (N : rltb 2 2 = false) by (apply rltb_false; lra).
  simpl in H. repeat destruct H as [<-|H]; try contradiction; simpl; rewrite ?N, ?L, ?M by lra; simpl; split; intros K; try discriminate K; auto.
Qed.
Print Assumptions C65_defaults.
Theorem C65_defaults_refuted : exists c, In c defaults /\ create c = Err ValidationError.
Proof.
  exists (CInvGamma 2 1). assert (I : In (CInvGamma 2 1) defaults) by (simpl; tauto). split; auto.
  unfold create. rewrite (proj2 (C65_defaults _ I) eq_refl). auto.
Qed.
Print Assumptions C65_defaults_refuted.

Example C65_example : exists d, create (CGamma 2 4) = Ok d /\ sp_mean d = Some (2 / 4).
Proof.
  assert (L : forall x y, x < y -> rltb x y = true) by (intros; apply rltb_true; auto).
  eexists. split; [unfold create; simpl; rewrite !L by lra; reflexivity|]. simpl. f_equal. lra.
Qed.
