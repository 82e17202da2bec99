(** * Model of predict and get_sampler of the regressions in data/reg: linear.py and glm.py

    Transcribed as if the import of epidag worked. Simplification: the text handed to
    parse_distribution ('norm(mu, err)' and so on) is replaced by the call of the creator with the
    values bound to its fields (that the text is completed that way is C33). *)

Require Import Coq.Reals.Reals Coq.ZArith.ZArith Coq.Numbers.DecimalString.
Require Import Verif.ModelNum Verif.ModelFloat Verif.ModelResample Verif.ModelReg Verif.ModelTable Verif.ModelProb.
Local Open Scope R_scope.

Section Predict.
  Context {G : Type}.
  (** the generator of numpy: rvs(n) of a scipy distribution, binomial, poisson of a size, and the
      index drawn by choice *)
  Context (rvs : sp -> nat -> G -> list R * G) (binomial : Z -> R -> G -> R * G)
          (poisson : R -> nat -> G -> list R * G) (index : G -> (list R -> nat -> list nat) * G).

  (** numpy.random.binomial(n, p): ValueError unless 0 <= p <= 1 *)
  Definition np_binomial (n : Z) (p : R) (g : G) : res R * G :=
    if rleb 0 p && rleb p 1 then let (x, g') := binomial n p g in (Ok x, g') else (Err ValueError, g).
  (** the argument size of numpy's random functions: an int, or a float, which is no size *)
  Inductive size := IntSize (n : Z) | FloatSize (x : R).
  (** numpy.random.poisson(lam, size) *)
  Definition np_poisson (lam : R) (s : size) (g : G) : res (list R) * G :=
    if negb (rleb 0 lam) then (Err ValueError, g) else
    match s with
    | FloatSize _ => (Err TypeError, g)
    | IntSize n => if Z.ltb n 0 then (Err ValueError, g)
                   else let (xs, g') := poisson lam (Z.to_nat n) g in (Ok xs, g')
    end.
  (** numpy.random.choice(labels, 1, p=ps): ValueError if there is nothing to choose from, if the
      lengths differ, or if ps is no probability vector *)
  Definition np_choice (labels : list name) (ps : list flt) (g : G) : res (list name) * G :=
    match labels with
    | [] => (Err ValueError, g)
    | _ => if Nat.eqb (length labels) (length ps)
           then let (d, g') := index g in
                match ModelResample.choice d 1 ps with
                | Ok sel => (ModelResample.pick labels sel, g')
                | Err e => (Err e, g)
                end
           else (Err ValueError, g)
    end.

  (** prob.py:83-86 SpDouble.sample, all n values *)
  Definition sp_sample (d : sp) (n : nat) (g : G) : list R * G := rvs d n g.

  (** linear.py:130-131 LinearRegression.get_sampler *)
  Definition linear_sampler (rs : list regressor) (b0 se : R) (xs : dict R) : res sp :=
    do mu <- linear_expectation rs b0 xs; create (CNorm mu se).
  (** linear.py:126-128 predict; max(n, 1) *)
  Definition linear_predict (rs : list regressor) (b0 se : R) (xs : dict R) (n : Z) (g : G) : res (list R) * G :=
    match linear_sampler rs b0 se xs with
    | Ok d => let (v, g') := sp_sample d (Z.to_nat (Z.max n 1)) g in (Ok v, g')
    | Err e => (Err e, g)
    end.

  (** glm.py:26-27 LogisticRegression.get_sampler *)
  Definition logistic_sampler (rs : list regressor) (b0 : R) (xs : dict R) : res sp :=
    do p <- logistic_expectation rs b0 xs; create (CBinom 1 p).
  (** glm.py:23-24 predict *)
  Definition logistic_predict (rs : list regressor) (b0 : R) (xs : dict R) (g : G) : res R * G :=
    match logistic_expectation rs b0 xs with Ok p => np_binomial 1 p g | Err e => (Err e, g) end.

  (** glm.py:49-50 PoissonRegression.get_sampler *)
  Definition poisson_sampler (rs : list regressor) (b0 off : R) (xs : dict R) : res sp :=
    do m <- poisson_expectation rs b0 off xs; create (CPois m).
  (** glm.py:46-47 predict: numpy.random.poisson(1, expectation); the expectation is a float *)
  Definition poisson_predict (rs : list regressor) (b0 off : R) (xs : dict R) (g : G) : res (list R) * G :=
    match poisson_expectation rs b0 off xs with Ok m => np_poisson 1 (FloatSize m) g | Err e => (Err e, g) end.

  (** str(i) *)
  Definition str_nat (i : nat) : name := NilZero.string_of_uint (Nat.to_uint i).
  (** glm.py:60-63 Labels *)
  Definition labels_of (given : option (list name)) (b0s : list R) : list name :=
    match given with Some l => l | None => map str_nat (seq 0 (length b0s)) end.
  (** glm.py:78-80 MultinomialLogisticRegression.get_sampler: the categories with their probabilities
      (prob.py:180-189) *)
  Definition classes_sampler (given : option (list name)) (lcs : list (list regressor)) (b0s : list R) (xs : dict R)
    : res (dict flt) :=
    do ps <- multinomial_expectation lcs b0s xs;
    let kv := multinomial_table (labels_of given b0s) ps in
    Ok (combine (dkeys kv) (cat_probs kv)).
  (** glm.py:74-76 predict: an array of one label *)
  Definition classes_predict (given : option (list name)) (lcs : list (list regressor)) (b0s : list R) (xs : dict R) (g : G)
    : res (list name) * G :=
    match multinomial_expectation lcs b0s xs with
    | Ok ps => np_choice (labels_of given b0s) ps g
    | Err e => (Err e, g)
    end.
End Predict.
