(** * Model of data/reg: linear.py, glm.py

    The modules import the package epidag, which is not part of the repository; they are
    transcribed as if the import worked. *)

Require Import Verif.ModelNum Coq.ZArith.ZArith.
Open Scope R_scope.

(** linear.py:17-67 Boolean, Continuous, Categorical. Labels and Reference of Categorical are
    not used by effect and left out. *)
Inductive regressor :=
| RBoolean (n : name) (coef : R)
| RContinuous (n : name) (coef : R)
| RCategorical (n : name) (coefs : list R).
Definition r_name (r : regressor) : name :=
  match r with RBoolean n _ | RContinuous n _ | RCategorical n _ => n end.

(** int(x): towards zero *)
Definition rtrunc (x : R) : Z := if rleb 0 x then Int_part x else (- Int_part (- x))%Z.
(** xs[i] with Python's negative indices *)
Definition py_nth (xs : list R) (i : Z) : res R :=
  let n := Z.of_nat (length xs) in
  let j := if Z.ltb i 0 then (i + n)%Z else i in
  if Z.ltb j 0 then Err IndexError
  else match nth_error xs (Z.to_nat j) with Some x => Ok x | None => Err IndexError end.

(** linear.py:22-23, 38-39, 57-58 effect. Covariates are numbers (True is 1). *)
Definition effect (r : regressor) (v : R) : res R :=
  match r with
  | RBoolean _ c => Ok (if reqb v 0 then 0 else c)
  | RContinuous _ c => Ok (c * v)
  | RCategorical _ cs => py_nth cs (rtrunc v)
  end.

(** linear.py:76-83 __append_regressor, by the entry Type; other types count as continuous.
    The entry is given by the constructor arguments. *)
Definition make_regressor (tp n : name) (value : R) (values : list R) : regressor :=
  if String.eqb tp "Boolean" then RBoolean n value
  else if String.eqb tp "Categorical" then RCategorical n values
  else RContinuous n value.

(** linear.py:85-87 LinearCombination.predict; sum starts at 0 and adds left to right *)
Definition lc_predict (rs : list regressor) (kvs : dict R) : res R :=
  do es <- mapM (fun r => do v <- dgetE kvs (r_name r); effect r v) rs;
  Ok (fold_left Rplus es 0).
(** linear.py:89-90 list_regressors *)
Definition list_regressors (rs : list regressor) : list name := map r_name rs.

(** scipy.special.expit *)
Definition expit (x : R) : R := / (1 + exp (- x)).

(** linear.py:123-124 LinearRegression.expectation *)
Definition linear_expectation (rs : list regressor) (b0 : R) (xs : dict R) : res R :=
  do m <- lc_predict rs xs; Ok (m + b0).
(** glm.py:19-21 LogisticRegression.expectation *)
Definition logistic_expectation (rs : list regressor) (b0 : R) (xs : dict R) : res R :=
  do m <- lc_predict rs xs; Ok (expit (m + b0)).
(** glm.py:34-44 PoissonRegression.expectation; the offset is stored and not used *)
Definition poisson_expectation (rs : list regressor) (b0 offset : R) (xs : dict R) : res R :=
  do m <- lc_predict rs xs; Ok (exp (m + b0)).
(** glm.py:68-72 MultinomialLogisticRegression.expectation; zip stops at the shorter list *)
Definition multinomial_expectation (lcs : list (list regressor)) (b0s : list R) (xs : dict R) : res (list flt) :=
  do ms <- mapM (fun p => do m <- lc_predict (fst p) xs; Ok (m + snd p)) (combine lcs b0s);
  let ps := map expit ms in
  Ok (map (fun p => fdiv p (rsum ps)) ps).
(** glm.py:78-80 get_sampler: the weight table; later labels overwrite equal ones *)
Definition multinomial_table (labels : list name) (ps : list flt) : dict flt :=
  fold_left (fun d lp => dset d (fst lp) (snd lp)) (combine labels ps) [].
