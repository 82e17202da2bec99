(** * Property C63: regression predictors *)

Require Import Verif.ModelNum Verif.ModelReg Verif.ProofBase Coq.ZArith.ZArith Coq.Sorting.Permutation.
Open Scope R_scope.

(** The effect of a regressor, as a relation. *)
Inductive contributes (xs : dict R) : regressor -> R -> Prop :=
| ct_true : forall n c v, dget xs n = Some v -> v <> 0 -> contributes xs (RBoolean n c) c
| ct_false : forall n c, dget xs n = Some 0 -> contributes xs (RBoolean n c) 0
| ct_slope : forall n c v, dget xs n = Some v -> contributes xs (RContinuous n c) (c * v)
| ct_level : forall n cs i e, dget xs n = Some (INR i) -> nth_error cs i = Some e -> contributes xs (RCategorical n cs) e.

Lemma fold_sum : forall l a, fold_left Rplus l a = a + rsum l.
Proof. induction l as [|x l IH]; intros a; simpl; [lra|]. rewrite IH. unfold rsum. lra. Qed.

Lemma trunc_INR : forall i, rtrunc (INR i) = Z.of_nat i.
Proof.
  intros i. unfold rtrunc. assert (E : rleb 0 (INR i) = true) by (apply rleb_true, pos_INR). rewrite E.
  unfold Int_part. rewrite <- (tech_up (INR i) (Z.of_nat i + 1)); [lia| |]; rewrite plus_IZR, <- INR_IZR_INZ; lra.
Qed.
Lemma effect_level : forall n cs i e, nth_error cs i = Some e -> effect (RCategorical n cs) (INR i) = Ok e.
Proof.
  intros n cs i e H. simpl. rewrite trunc_INR. unfold py_nth. assert (Z.ltb (Z.of_nat i) 0 = false) by (apply Z.ltb_ge; lia).
  rewrite H0, H0, Nat2Z.id, H. auto.
Qed.

(** The prediction is the sum of the contributions. *)
Theorem C63_sum : forall rs xs es, Forall2 (contributes xs) rs es -> lc_predict rs xs = Ok (rsum es).
Proof.
  intros rs xs es H. unfold lc_predict.
  assert (G : mapM (fun r => do v <- dgetE xs (r_name r); effect r v) rs = Ok es).
  { induction H as [|r e rs es C _ IH]; auto. cbn [mapM]. rewrite IH.
    assert (K : (do v <- dgetE xs (r_name r); effect r v) = Ok e).
    { destruct C; unfold dgetE; simpl r_name; rewrite H; cbn [bind].
      - simpl. apply reqb_false in H0. rewrite H0. auto.
      - simpl. assert (Z : reqb 0 0 = true) by (apply reqb_true; auto). rewrite Z. auto.
      - auto.
      - apply effect_level; auto. }
    rewrite K. auto. }
  rewrite G. cbn [bind]. rewrite fold_sum. f_equal. lra.
Qed.
Print Assumptions C63_sum.

(** Only the listed covariates matter. *)
Theorem C63_other_keys : forall rs xs ys, (forall n, In n (list_regressors rs) -> dget xs n = dget ys n) ->
  lc_predict rs xs = lc_predict rs ys.
Proof.
  intros rs xs ys H. unfold lc_predict.
  assert (G : mapM (fun r => do v <- dgetE xs (r_name r); effect r v) rs = mapM (fun r => do v <- dgetE ys (r_name r); effect r v) rs).
  { induction rs as [|r rs IH]; auto. cbn [mapM]. unfold dgetE at 1 3. rewrite (H (r_name r)) by (simpl; auto).
    rewrite IH; auto. intros n Hn. apply H. simpl. auto. }
  rewrite G. auto.
Qed.
Print Assumptions C63_other_keys.

(** The order in which the regressors are listed does not matter to the value. *)
Theorem C63_permuted : forall rs rs' xs v, Permutation rs rs' -> lc_predict rs xs = Ok v -> lc_predict rs' xs = Ok v.
Proof.
  intros rs rs' xs v P. unfold lc_predict.
  assert (G : forall es, mapM (fun r => do v <- dgetE xs (r_name r); effect r v) rs = Ok es ->
    exists es', mapM (fun r => do v <- dgetE xs (r_name r); effect r v) rs' = Ok es' /\ rsum es = rsum es').
  { induction P as [|x l l' P IH|x y l|l l1 l2 P1 IH1 P2 IH2]; intros es H.
    - eauto.
    - cbn [mapM] in *. destruct (do v <- dgetE xs (r_name x); effect x v) as [e|]; cbn [bind] in *; [|discriminate].
      destruct (mapM _ l) as [l0|]; cbn [bind] in *; [|discriminate]. inversion H; subst.
      destruct (IH l0 eq_refl) as [e1 [-> E]]. cbn [bind]. eexists. split; [reflexivity|]. unfold rsum in *. simpl. lra.
    - cbn [mapM] in *. destruct (do v <- dgetE xs (r_name x); effect x v) as [e|]; cbn [bind] in *;
        destruct (do v <- dgetE xs (r_name y); effect y v) as [f|]; cbn [bind] in *; try discriminate.
      destruct (mapM _ l) as [l0|]; cbn [bind] in *; [|discriminate]. inversion H; subst. eexists. split; [reflexivity|]. unfold rsum. simpl. lra.
    - destruct (IH1 es H) as [e1 [H1 E1]]. destruct (IH2 e1 H1) as [e2 [H2 E2]]. exists e2. split; auto. congruence. }
  destruct (mapM _ rs) as [es|]; cbn [bind]; [|discriminate]. intros H. inversion H; subst.
  destruct (G es eq_refl) as [es' [-> E]]. cbn [bind]. rewrite !fold_sum, E. auto.
Qed.
Print Assumptions C63_permuted.

(** A missing covariate raises KeyError, whatever comes later in the list. *)
Theorem C63_missing : forall rs r rs' xs es, Forall2 (contributes xs) rs es -> dget xs (r_name r) = None ->
  lc_predict (rs ++ r :: rs') xs = Err KeyError.
Proof.
  intros rs r rs' xs es H N. unfold lc_predict.
  assert (G : mapM (fun r => do v <- dgetE xs (r_name r); effect r v) (rs ++ r :: rs') = Err KeyError).
  { assert (Hs := C63_sum rs xs es H). unfold lc_predict in Hs.
    destruct (mapM _ rs) as [l|] eqn:E; cbn [bind] in Hs; [|discriminate]. clear Hs H. revert l E.
    induction rs as [|q rs IH]; intros l E; cbn [app mapM] in *.
    - unfold dgetE. rewrite N. auto.
    - destruct (do v <- dgetE xs (r_name q); effect q v) as [e|]; cbn [bind] in *; [|discriminate].
      destruct (mapM _ rs) as [l0|]; cbn [bind] in E; [|discriminate]. rewrite (IH l0 eq_refl). auto. }
  rewrite G. auto.
Qed.
Print Assumptions C63_missing.

(** The levels of a categorical covariate are not checked: a negative level silently takes a
    coefficient counted from the end, a fraction is cut off. *)
Theorem C63_levels_refuted : exists cs v1 v2 e1 e2, v1 < 0 /\ effect (RCategorical "c" cs) v1 = Ok e1
  /\ (forall i, v2 <> INR i) /\ effect (RCategorical "c" cs) v2 = Ok e2.
Proof.
  exists [1; 2; 3], (-1), (1 / 2), 3, 1. splits; try lra.
  - simpl. unfold rtrunc. assert (E : rleb 0 (-1) = false) by (apply rleb_false; lra). rewrite E.
    replace (- -1) with (INR 1) by (simpl; lra). pose proof (trunc_INR 1) as T. unfold rtrunc in T.
    assert (E1 : rleb 0 (INR 1) = true) by (apply rleb_true; simpl; lra). rewrite E1 in T. rewrite T. reflexivity.
  - intros i H. assert (i = 0 \/ 1 <= i)%nat as [->|K] by lia; [simpl in H; lra|]. apply le_INR in K. simpl in K. lra.
  - simpl. unfold rtrunc. assert (E : rleb 0 (1 / 2) = true) by (apply rleb_true; lra). rewrite E.
    assert (T : Int_part (1 / 2) = 0%Z) by (unfold Int_part; rewrite <- (tech_up (1 / 2) 1); [lia|lra|lra]). rewrite T. reflexivity.
Qed.
Print Assumptions C63_levels_refuted.

Lemma expit_range : forall x, 0 < expit x < 1.
Proof.
  intros x. unfold expit. pose proof (exp_pos (- x)) as P. split; [apply Rinv_0_lt_compat; lra|].
  rewrite <- Rinv_1. apply Rinv_lt_contravar; lra.
Qed.
Lemma expit_increasing : forall x y, x < y -> expit x < expit y.
Proof.
  intros x y H. unfold expit. pose proof (exp_pos (- x)). pose proof (exp_pos (- y)).
  apply Rinv_lt_contravar; [apply Rmult_lt_0_compat; lra|]. assert (exp (- y) < exp (- x)) by (apply exp_increasing; lra). lra.
Qed.

(** The logistic expectation is a probability, its log odds are the linear predictor. *)
Theorem C63_logistic : forall rs b0 xs es, Forall2 (contributes xs) rs es ->
  exists p, logistic_expectation rs b0 xs = Ok p /\ 0 < p < 1 /\ ln (p / (1 - p)) = b0 + rsum es.
Proof.
  intros rs b0 xs es H. unfold logistic_expectation. rewrite (C63_sum _ _ _ H). cbn [bind]. eexists. split; [reflexivity|].
  split; [apply expit_range|]. set (x := rsum es + b0). pose proof (exp_pos (- x)) as P.
  replace (expit x / (1 - expit x)) with (exp x).
  - rewrite ln_exp. unfold x. lra.
  - unfold expit. replace (- x) with (- x) by auto. rewrite exp_Ropp. pose proof (exp_pos x). field. split; lra.
Qed.
Print Assumptions C63_logistic.

Theorem C63_poisson : forall rs b0 off xs es, Forall2 (contributes xs) rs es ->
  exists m, poisson_expectation rs b0 off xs = Ok m /\ 0 < m /\ ln m = b0 + rsum es.
Proof.
  intros rs b0 off xs es H. unfold poisson_expectation. rewrite (C63_sum _ _ _ H). cbn [bind]. eexists. split; [reflexivity|].
  split; [apply exp_pos|]. rewrite ln_exp. lra.
Qed.
Print Assumptions C63_poisson.

(** The exposure offset is ignored: it does not scale the expected count. *)
Theorem C63_offset_refuted : exists rs b0 xs off m, off <> 0
  /\ poisson_expectation rs b0 off xs = Ok m /\ m <> exp (b0 + off).
Proof.
  exists [], 0, [], 1, (exp (0 + 0)). splits; [lra|reflexivity|]. apply Rlt_not_eq. apply exp_increasing. lra.
Qed.
Print Assumptions C63_offset_refuted.

(** Multinomial: one probability per equation and intercept, all positive, summing to one, larger
    for a larger linear predictor.
    Missing: a regression without classes (C63_no_class_refuted). *)
Theorem C63_multinomial_partial : forall lcs b0s xs ess, Forall2 (fun lc es => Forall2 (contributes xs) lc es) lcs ess -> lcs <> [] -> b0s <> [] ->
  exists ps, multinomial_expectation lcs b0s xs = Ok (map Fin ps)
    /\ length ps = Nat.min (length lcs) (length b0s) /\ rsum ps = 1 /\ Forall (fun p => 0 < p <= 1) ps
    /\ forall i j pi pj ei ej bi bj, nth_error ps i = Some pi -> nth_error ps j = Some pj ->
         nth_error ess i = Some ei -> nth_error ess j = Some ej -> nth_error b0s i = Some bi -> nth_error b0s j = Some bj ->
         bi + rsum ei < bj + rsum ej -> pi < pj.
Proof.
  intros lcs b0s xs ess H N1 N2.
  set (ms := map (fun p => rsum (fst p) + snd p) (combine ess b0s)).
  assert (G : mapM (fun p => do m <- lc_predict (fst p) xs; Ok (m + snd p)) (combine lcs b0s) = Ok ms).
  { unfold ms. clear ms N1 N2. revert b0s. induction H as [|lc es lcs ess C _ IH]; intros [|b b0s]; auto.
    cbn [combine mapM map fst snd]. rewrite (C63_sum _ _ _ C). cbn [bind]. rewrite IH. auto. }
  assert (Ll : length lcs = length ess) by (clear - H; induction H; simpl; auto).
  assert (Lm : length ms = Nat.min (length lcs) (length b0s)) by (unfold ms; rewrite map_length, combine_length; lia).
  set (t := rsum (map expit ms)).
  assert (Nn : forall l, Forall (fun p => 0 < p) (map expit l) /\ 0 <= rsum (map expit l)).
  { induction l as [|x l [I1 I2]]; simpl; [split; [constructor|lra]|]. pose proof (expit_range x). split; [constructor; auto; lra|].
    unfold rsum in *. lra. }
  assert (T : 0 < t).
  { unfold t. destruct ms as [|m ms']; [destruct lcs; [congruence|]; destruct b0s; [congruence|]; discriminate|].
    simpl. destruct (Nn ms') as [_ K]. pose proof (expit_range m). unfold rsum in *. lra. }
  exists (map (fun m => expit m / t) ms).
  assert (S1 : rsum (map (fun m => expit m / t) ms) = 1).
  { assert (K : forall l, rsum (map (fun m => expit m / t) l) = rsum (map expit l) / t).
    { induction l as [|x l IH]; [unfold rsum; simpl; field; lra|]. unfold rsum in *. cbn [map fold_right]. rewrite IH. field. lra. }
    rewrite K. fold t. field. lra. }
  assert (Pp : Forall (fun p => 0 < p) (map (fun m => expit m / t) ms)).
  { apply Forall_forall. intros p Hp. apply in_map_iff in Hp. destruct Hp as [m [<- _]]. apply Rdiv_lt_0_compat; auto. apply expit_range. }
  splits.
  - unfold multinomial_expectation. rewrite G. cbn [bind]. f_equal. rewrite !map_map. apply map_ext. intros m. fold t. apply fdiv_fin. lra.
  - rewrite map_length. auto.
  - auto.
  - assert (K : forall l, Forall (fun p => 0 < p) l -> 0 <= rsum l /\ Forall (fun p => 0 < p <= rsum l) l).
    { induction l as [|x l IH]; intros F; [split; [simpl; lra|constructor]|]. inversion F; subst. destruct (IH H3) as [I1 I2].
      unfold rsum in *. simpl. split; [lra|]. constructor; [lra|]. eapply Forall_impl; [|exact I2]. intros; simpl in *; lra. }
    destruct (K _ Pp) as [_ K2]. rewrite S1 in K2. auto.
  - intros i j pi pj ei ej bi bj P1 P2 E1 E2 B1 B2 L.
    assert (M : forall i e b, nth_error ess i = Some e -> nth_error b0s i = Some b -> nth_error ms i = Some (rsum e + b)).
    { unfold ms. clear. revert b0s.  induction ess as [|e0 ess IH]; intros [|b0 b0s] [|i] e b; simpl; try discriminate; intros; auto.
      inversion H; inversion H0; subst; auto. }
    rewrite nth_error_map, (M _ _ _ E1 B1) in P1. rewrite nth_error_map, (M _ _ _ E2 B2) in P2. simpl in P1, P2.
    inversion P1; inversion P2; subst. apply Rmult_lt_compat_r; [apply Rinv_0_lt_compat; auto|]. apply expit_increasing. lra.
Qed.
Print Assumptions C63_multinomial_partial.

Theorem C63_no_class_refuted : exists lcs b0s, forall xs, multinomial_expectation lcs b0s xs = Ok [] /\ rsum [] <> 1.
Proof. exists [], []. intros xs. split; [reflexivity|simpl; lra]. Qed.
Print Assumptions C63_no_class_refuted.

(** It is not the multinomial logit: the ratio of two probabilities is not the exponential of the
    difference of their linear predictors. *)
Theorem C63_softmax_refuted : exists lcs b0s xs p1 p2 b1 b2,
  multinomial_expectation lcs b0s xs = Ok [Fin p1; Fin p2] /\ b0s = [b1; b2] /\ lcs = [[]; []] /\ p2 / p1 <> exp (b2 - b1).
Proof.
  destruct (C63_multinomial_partial [[]; []] [0; 1] [] [[]; []]) as [ps [H [L [S _]]]]; try discriminate; [repeat constructor|].
  destruct ps as [|p1 [|p2 [|]]]; try discriminate. exists [[]; []], [0; 1], [], p1, p2, 0, 1. splits; auto.
  unfold multinomial_expectation in H. cbn [combine mapM bind fst snd lc_predict fold_left map] in H.
  set (t := rsum [expit (0 + 0); expit (0 + 1)]) in *.
  pose proof (expit_range (0 + 0)) as A. pose proof (expit_range (0 + 1)) as B.
  assert (T : 0 < t) by (unfold t, rsum; simpl; lra). rewrite !fdiv_fin in H by lra. inversion H; subst.
  assert (E0 : expit (0 + 0) = / 2). { unfold expit. replace (- (0 + 0)) with 0 by ring. rewrite exp_0. f_equal. }
  replace (expit (0 + 1) / t / (expit (0 + 0) / t)) with (2 * expit (0 + 1)) by (rewrite E0; field; lra).
  pose proof (exp_ineq1 1 ltac:(lra)) as X. replace (1 - 0) with 1 by ring. lra.
Qed.
Print Assumptions C63_softmax_refuted.

Lemma table_loop : forall labels (ps : list flt) acc, NoDup labels -> (forall l, In l labels -> ~ In l (dkeys acc)) ->
  fold_left (fun d lp => dset d (fst lp) (snd lp)) (combine labels ps) acc = acc ++ combine labels ps.
Proof.
  induction labels as [|l labels IH]; intros [|p ps] acc Hn Hd; cbn [combine fold_left fst snd]; try (rewrite app_nil_r; auto; fail).
  inversion Hn; subst. assert (E : dset acc l p = acc ++ [(l, p)]).
  { assert (N : ~ In l (dkeys acc)) by (apply Hd; simpl; auto). clear - N. induction acc as [|[k v] acc IH]; auto. simpl in *.
    destruct (String.eqb_spec l k) as [->|]; [tauto|]. rewrite IH by tauto. auto. }
  rewrite E, IH; auto.
  - rewrite <- app_assoc. auto.
  - intros x Hx. unfold dkeys. rewrite map_app, in_app_iff. simpl. intros [K|[K|[]]]; [apply (Hd x); simpl; auto|subst; auto].
Qed.

(** The weight table of the sampler pairs the labels with the probabilities if the labels are
    distinct. *)
Theorem C63_table : forall labels ps, NoDup labels -> multinomial_table labels ps = combine labels ps.
Proof. intros labels ps H. unfold multinomial_table. rewrite table_loop; auto. Qed.
Print Assumptions C63_table.

(** Equal labels lose probability: only the last one counts. *)
Theorem C63_table_refuted : exists labels p1 p2 p3, 0 < p1 /\ p1 + p2 + p3 = 1
  /\ multinomial_table labels [Fin p1; Fin p2; Fin p3] = [("A"%string, Fin p3); ("B"%string, Fin p2)].
Proof. exists ["A"%string; "B"%string; "A"%string], (1/2), (1/4), (1/4). splits; try lra. reflexivity. Qed.
Print Assumptions C63_table_refuted.

(** The type of an entry decides the regressor; unknown types count as continuous. *)
Theorem C63_entry_types : forall tp n v vs xs x, dget xs n = Some x ->
  (tp = "Boolean"%string -> lc_predict [make_regressor tp n v vs] xs = Ok (if reqb x 0 then 0 else v))
  /\ (tp <> "Boolean"%string -> tp <> "Categorical"%string -> lc_predict [make_regressor tp n v vs] xs = Ok (v * x)).
Proof.
  intros tp n v vs xs x H. unfold make_regressor. split.
  - intros ->. unfold lc_predict, dgetE. simpl. rewrite H. simpl. f_equal. lra.
  - intros N1 N2. apply String.eqb_neq in N1, N2. rewrite N1, N2. unfold lc_predict, dgetE. simpl. rewrite H. simpl. f_equal. lra.
Qed.
Print Assumptions C63_entry_types.

Example C63_example : Forall2 (contributes [("Age"%string, 5); ("Male"%string, 1); ("Region"%string, INR 2); ("extra"%string, 7)])
  [RContinuous "Age" 2; RBoolean "Male" 3; RCategorical "Region" [0; 10; 20]] [2 * 5; 3; 20].
Proof.
  repeat constructor; try reflexivity.
  - apply (ct_true _ "Male" 3 1); [reflexivity|lra].
  - apply (ct_level _ "Region" [0; 10; 20] 2); reflexivity.
Qed.
