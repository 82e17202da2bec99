(** * Property C103: predictions and samplers of the regressions *)

Require Import Coq.Reals.Reals Coq.ZArith.ZArith Coq.Numbers.DecimalString Coq.Numbers.DecimalNat.
Require Import Verif.ModelNum Verif.ModelFloat Verif.ModelResample Verif.ModelReg Verif.ModelTable Verif.ModelProb Verif.ModelPredict.
Require Import Verif.ProofBase Verif.ProofFloat Verif.PropsReg Verif.PropsProb Verif.PropsResample.
Local Open Scope R_scope.

Section C103.
  Context {G : Type}.
  Context (rvs : sp -> nat -> G -> list R * G) (binomial : Z -> R -> G -> R * G)
          (poisson : R -> nat -> G -> list R * G) (index : G -> (list R -> nat -> list nat) * G).

  (** Linear regression: with a positive error the sampler is the normal distribution around the
      expectation, and predict draws from it, at least once; otherwise both are refused and
      nothing is drawn. *)
  Theorem C103_linear : forall rs b0 se xs es n g, Forall2 (contributes xs) rs es ->
    (0 < se -> linear_expectation rs b0 xs = Ok (rsum es + b0)
       /\ linear_sampler rs b0 se xs = Ok (SNorm (rsum es + b0) se) /\ sp_mean (SNorm (rsum es + b0) se) = Some (rsum es + b0)
       /\ linear_predict rvs rs b0 se xs n g =
          (Ok (fst (rvs (SNorm (rsum es + b0) se) (Z.to_nat (Z.max n 1)) g)), snd (rvs (SNorm (rsum es + b0) se) (Z.to_nat (Z.max n 1)) g)))
    /\ (se <= 0 -> linear_sampler rs b0 se xs = Err ValidationError /\ linear_predict rvs rs b0 se xs n g = (Err ValidationError, g)).
  Proof.
    intros rs b0 se xs es n g H.
    assert (E : linear_expectation rs b0 xs = Ok (rsum es + b0)) by (unfold linear_expectation; rewrite (C63_sum _ _ _ H); auto).
    assert (K : linear_sampler rs b0 se xs = if rltb 0 se then Ok (SNorm (rsum es + b0) se) else Err ValidationError).
    { unfold linear_sampler. rewrite E. cbn [bind]. unfold create. simpl. destruct (rltb 0 se); auto. }
    split; intros S.
    - apply rltb_true in S. rewrite S in K. splits; auto. unfold linear_predict. rewrite K. unfold sp_sample.
      destruct (rvs _ _ g); auto.
    - apply rltb_false in S. rewrite S in K. split; auto. unfold linear_predict. rewrite K. auto.
  Qed.

  (** Logistic regression: predict draws one Bernoulli variable with the expectation as its
      probability and the sampler is its distribution; neither is ever refused. *)
  Theorem C103_logistic : forall rs b0 xs es g, Forall2 (contributes xs) rs es ->
    exists p, logistic_expectation rs b0 xs = Ok p /\ ln (p / (1 - p)) = b0 + rsum es
      /\ logistic_sampler rs b0 xs = Ok (SBinom 1 p) /\ sp_mean (SBinom 1 p) = Some p
      /\ logistic_predict binomial rs b0 xs g = (Ok (fst (binomial 1%Z p g)), snd (binomial 1%Z p g)).
  Proof.
    intros rs b0 xs es g H. destruct (C63_logistic rs b0 xs es H) as [p [E [P L]]]. exists p.
    assert (A : rleb 0 p = true) by (apply rleb_true; lra). assert (B : rleb p 1 = true) by (apply rleb_true; lra). splits; auto.
    - unfold logistic_sampler. rewrite E. cbn [bind]. unfold create. simpl. rewrite A, B. auto.
    - simpl. f_equal. lra.
    - unfold logistic_predict. rewrite E. unfold np_binomial. rewrite A, B. simpl. destruct (binomial _ _ g); auto.
  Qed.

  (** Poisson regression: the sampler is the Poisson distribution with the expectation as its mean,
      but predict raises for every regression, every covariates and every state of the generator;
      with known covariates it raises TypeError. *)
  Theorem C103_poisson : forall rs b0 off xs g,
    (exists e, poisson_predict poisson rs b0 off xs g = (Err e, g))
    /\ forall es, Forall2 (contributes xs) rs es ->
       exists m, poisson_expectation rs b0 off xs = Ok m /\ ln m = b0 + rsum es
         /\ poisson_sampler rs b0 off xs = Ok (SPoisson m) /\ sp_mean (SPoisson m) = Some m
         /\ poisson_predict poisson rs b0 off xs g = (Err TypeError, g).
  Proof.
    intros rs b0 off xs g.
    assert (N : rleb 0 1 = true) by (apply rleb_true; lra).
    assert (K : forall m, poisson_expectation rs b0 off xs = Ok m -> poisson_predict poisson rs b0 off xs g = (Err TypeError, g)).
    { intros m E. unfold poisson_predict. rewrite E. unfold np_poisson. rewrite N. auto. }
    split.
    - destruct (poisson_expectation rs b0 off xs) as [m|e] eqn:E; [eauto|]. exists e. unfold poisson_predict. rewrite E. auto.
    - intros es H. destruct (C63_poisson rs b0 off xs es H) as [m [E [P L]]]. exists m. splits; eauto.
      unfold poisson_sampler. rewrite E. cbn [bind]. unfold create. simpl. assert (Z : rltb 0 m = true) by (apply rltb_true; auto). rewrite Z. auto.
  Qed.

  Lemma str_nat_inj : forall i j, str_nat i = str_nat j -> i = j.
  Proof.
    intros i j H. unfold str_nat in H. assert (N : forall n, Nat.to_uint n <> Decimal.Nil).
    { intros n E. pose proof (Unsigned.of_to n) as O. rewrite E in O. simpl in O. subst n. discriminate E. }
    pose proof (NilZero.usu _ (N i)) as A. pose proof (NilZero.usu _ (N j)) as B. rewrite H in A. rewrite A in B.
    inversion B. apply (f_equal Nat.of_uint) in H1. rewrite !Unsigned.of_to in H1. auto.
  Qed.
  (** Labels that were not given are distinct, one per intercept. *)
  Lemma labels_default : forall b0s, NoDup (labels_of None b0s) /\ length (labels_of None b0s) = length b0s.
  Proof.
    intros b0s. unfold labels_of. split; [|rewrite map_length, seq_length; auto].
    apply FinFun.Injective_map_NoDup; [intros i j; apply str_nat_inj|apply seq_NoDup].
  Qed.

  Lemma as_fin_map : forall q, as_fin (map Fin q) = Some q.
  Proof. induction q as [|x q IH]; simpl; auto. rewrite IH. auto. Qed.
  Lemma combine_split : forall A B (l : list A) (m : list B), length l = length m -> map fst (combine l m) = l /\ map snd (combine l m) = m.
  Proof.
    induction l as [|x l IH]; intros [|y m] H; simpl in *; auto; try discriminate. destruct (IH m) as [A1 B1]; [lia|]. rewrite A1, B1. auto.
  Qed.

  (** Multinomial regression with as many intercepts as regressions and a label of its own for
      each (also the labels made when none are given): the i-th label has the i-th expectation in
      the sampler, and predict chooses among all labels with these probabilities. *)
  Theorem C103_classes : forall given lcs b0s xs ess g, Forall2 (fun lc es => Forall2 (contributes xs) lc es) lcs ess ->
    lcs <> [] -> length b0s = length lcs ->
    match given with Some l => NoDup l /\ length l = length lcs | None => True end ->
    exists ps, multinomial_expectation lcs b0s xs = Ok (map Fin ps) /\ length ps = length (labels_of given b0s)
      /\ rsum ps = 1 /\ Forall (fun p => 0 < p <= 1) ps
      /\ classes_sampler given lcs b0s xs = Ok (combine (labels_of given b0s) (map Fin ps))
      /\ classes_predict index given lcs b0s xs g = (pick (labels_of given b0s) (fst (index g) ps 1%nat), snd (index g)).
  Proof.
    intros given lcs b0s xs ess g H N L Hl.
    assert (Lb : NoDup (labels_of given b0s) /\ length (labels_of given b0s) = length lcs).
    { destruct given as [l|]; auto. destruct (labels_default b0s). split; auto. congruence. }
    destruct Lb as [Nd Ll].
    destruct (C63_multinomial_partial lcs b0s xs ess H N) as [ps [E [Lp [S [F _]]]]].
    { intros ->. destruct lcs; [congruence|discriminate L]. }
    rewrite L, Nat.min_id in Lp. exists ps.
    assert (Lc : length (labels_of given b0s) = length (map Fin ps)) by (rewrite map_length; congruence).
    splits; auto; try congruence.
    - unfold classes_sampler. rewrite E. cbn [bind]. f_equal. rewrite (C63_table _ _ Nd).
      destruct (combine_split _ _ _ _ Lc) as [A B]. unfold dkeys. rewrite A. f_equal. unfold cat_probs. rewrite B, ProofFloat.fsum_fin, S.
      rewrite <- (map_map snd (fun e => ModelFloat.fdivf e (Fin 1))), B, map_map. apply map_ext. intros p. simpl. rewrite fdiv_fin by lra. f_equal. field.
    - unfold classes_predict. rewrite E. unfold np_choice. destruct (labels_of given b0s) as [|x l] eqn:El.
      { exfalso. destruct lcs; [congruence|discriminate Ll]. }
      rewrite Lc, Nat.eqb_refl. destruct (index g) as [d g']. cbn [fst snd].
      rewrite (choice_accepts d 1%nat (map Fin ps) ps); auto; [apply as_fin_map|]. eapply Forall_impl; [|exact F]. intros; simpl in *; lra.
  Qed.

  (** With another number of labels than probabilities predict raises and draws nothing. *)
  Theorem C103_labels : forall given lcs b0s xs ps g, multinomial_expectation lcs b0s xs = Ok ps ->
    length (labels_of given b0s) <> length ps -> classes_predict index given lcs b0s xs g = (Err ValueError, g).
  Proof.
    intros given lcs b0s xs ps g E L. unfold classes_predict. rewrite E. unfold np_choice.
    apply Nat.eqb_neq in L. rewrite L. destruct (labels_of given b0s); auto.
  Qed.
End C103.
Print Assumptions C103_linear.
Print Assumptions C103_logistic.
Print Assumptions C103_poisson.
Print Assumptions C103_classes.
Print Assumptions C103_labels.

Lemma even_three : exists b0s lcs, multinomial_expectation lcs b0s [] = Ok [Fin (1/3); Fin (1/3); Fin (1/3)] /\ b0s = [0; 0; 0] /\ lcs = [[]; []; []].
Proof.
  exists [0; 0; 0], [[]; []; []]. split; auto. unfold multinomial_expectation. cbn [combine mapM bind fst snd lc_predict fold_left map].
  pose proof (expit_range (0 + 0)) as A. unfold rsum. cbn [fold_right]. set (p := expit (0 + 0)) in *.
  rewrite fdiv_fin by lra. replace (p / (p + (p + (p + 0)))) with (1 / 3) by (field; lra). auto.
Qed.

(** The sampler does not notice a missing label: the class is left out and the probabilities of the
    others grow; predict refuses. *)
Theorem C103_labels_refuted : exists given lcs b0s ps kv, multinomial_expectation lcs b0s [] = Ok ps
  /\ classes_sampler given lcs b0s [] = Ok kv /\ ps = [Fin (1/3); Fin (1/3); Fin (1/3)] /\ kv = [("A"%string, Fin (1/2)); ("B"%string, Fin (1/2))]
  /\ forall G (index : G -> (list R -> nat -> list nat) * G) g, classes_predict index given lcs b0s [] g = (Err ValueError, g).
Proof.
  destruct even_three as [b0s [lcs [E [_ _]]]]. exists (Some ["A"%string; "B"%string]), lcs, b0s. eexists _, _. split; [exact E|].
  splits; [|reflexivity|reflexivity|].
  - unfold classes_sampler. rewrite E. cbn [bind labels_of]. unfold multinomial_table. cbn [combine fold_left fst snd dset String.eqb Ascii.eqb Bool.eqb dkeys map].
    unfold cat_probs. cbn [map snd]. change [Fin (1/3); Fin (1/3)] with (map Fin [1/3; 1/3]). rewrite ProofFloat.fsum_fin. unfold rsum. cbn [fold_right map ModelFloat.fdivf].
    rewrite fdiv_fin by lra. replace (1 / 3 / (1 / 3 + (1 / 3 + 0))) with (1 / 2) by field. reflexivity.
  - intros G index g. eapply C103_labels; [exact E|]. simpl. lia.
Qed.
Print Assumptions C103_labels_refuted.

(** Two classes of the same label: predict chooses the label with the probability of both, the
    sampler with that of the last one only. *)
Theorem C103_equal_refuted : exists labels lcs b0s ps, multinomial_expectation lcs b0s [] = Ok (map Fin ps)
  /\ labels = ["A"%string; "B"%string; "A"%string] /\ ps = [1/3; 1/3; 1/3]
  /\ classes_sampler (Some labels) lcs b0s [] = Ok [("A"%string, Fin (1/2)); ("B"%string, Fin (1/2))]
  /\ forall G (index : G -> (list R -> nat -> list nat) * G) g,
       classes_predict index (Some labels) lcs b0s [] g = (pick labels (fst (index g) ps 1%nat), snd (index g)).
Proof.
  destruct even_three as [b0s [lcs [E [_ _]]]]. exists ["A"%string; "B"%string; "A"%string], lcs, b0s, [1/3; 1/3; 1/3].
  split; [exact E|]. splits; auto.
  - unfold classes_sampler. rewrite E. cbn [bind labels_of]. unfold multinomial_table. cbn [combine fold_left fst snd dset String.eqb Ascii.eqb Bool.eqb dkeys map].
    unfold cat_probs. cbn [map snd]. change [Fin (1/3); Fin (1/3)] with (map Fin [1/3; 1/3]). rewrite ProofFloat.fsum_fin. unfold rsum. cbn [fold_right map ModelFloat.fdivf].
    rewrite fdiv_fin by lra. replace (1 / 3 / (1 / 3 + (1 / 3 + 0))) with (1 / 2) by field. reflexivity.
  - intros G index g. unfold classes_predict. rewrite E. unfold np_choice. cbn [labels_of length Nat.eqb]. destruct (index g) as [d g']. cbn [fst snd].
    rewrite (choice_accepts d 1%nat _ [1/3; 1/3; 1/3]); auto.
    + repeat constructor; lra.
    + unfold rsum. simpl. lra.
Qed.
Print Assumptions C103_equal_refuted.

(** Three classes without labels, and a covariate. *)
Example C103_example :
  Forall2 (fun lc es => Forall2 (contributes [("Male"%string, 1)]) lc es)
    [[RBoolean "Male" 0]; [RBoolean "Male" 1]; [RBoolean "Male" (-1)]] [[0]; [1]; [-1]]
  /\ labels_of None [0; 2; 2] = ["0"%string; "1"%string; "2"%string]
  /\ poisson_predict (fun _ _ (g : nat) => ([], g)) [RBoolean "Male" 0] 1 0 [("Male"%string, 1)] 5%nat = (Err TypeError, 5%nat).
Proof.
  splits.
  - repeat apply Forall2_cons; try apply Forall2_nil; apply (ct_true _ "Male" _ 1); try reflexivity; lra.
  - reflexivity.
  - destruct (C103_poisson (fun _ _ (g : nat) => ([], g)) [RBoolean "Male" 0] 1 0 [("Male"%string, 1)] 5%nat) as [_ K].
    destruct (K [0]) as [m [_ [_ [_ [_ E]]]]]; [|exact E].
    apply Forall2_cons; [|apply Forall2_nil]. apply (ct_true _ "Male" _ 1); [reflexivity|lra].
Qed.
