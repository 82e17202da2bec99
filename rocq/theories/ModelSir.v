(** * Model of the example model EpiSIR (fit/toys.py:75-115) *)

Require Import Coq.Reals.Reals.
Require Import Verif.Base Verif.World Verif.ModelNum Verif.ModelTargets.
Local Open Scope R_scope.

(** the vector y: susceptible, infectious, recovered *)
Record sir := mkSir { y_s : R; y_i : R; y_r : R }.
(** y.sum() *)
Definition y_sum (y : sir) : R := y_s y + y_i y + y_r y.

(** toys.py:93-101 sir(t, y, p): the derivative. Division is that of the reals; y.sum() is not zero in
    any state that occurs (C110_total). *)
Definition sir_rhs (be ga : R) (y : sir) : sir :=
  let n := y_sum y in
  mkSir (- be * y_s y * y_i y / n) (be * y_s y * y_i y / n - ga * y_i y) (ga * y_i y).

(** toys.py:103: y0 *)
Definition sir_start : sir := mkSir 990 10 0.

(** toys.py:105-115: what is reported. [sol] are the times and states of the solver, [fmt] formats a
    time as in [f'{t:.0f}']. *)
Definition sir_report (fmt : R -> string) (be ga : R) (sol : list (R * sir)) : dict R :=
  fold_left (fun dat ty =>
    let (t, y) := (ty : R * sir) in
    let n := y_sum y in
    dset (dset (dset dat
      (append "Inc_" (fmt t)) (be * y_s y * y_i y / n / n))
      (append "Prev_" (fmt t)) (y_i y / n))
      (append "Rec_" (fmt t)) (ga * y_i y / n)) sol [].

(** toys.py:91-115 solve(p); [solver] is solve_ivp, given the derivative and the start. KeyError
    without beta or gamma (raised by the solver's first call of sir). *)
Definition sir_solve (solver : (sir -> sir) -> sir -> list (R * sir)) (fmt : R -> string) (p : dict R) : res (dict R) :=
  do be <- dgetE p "beta";
  do ga <- dgetE p "gamma";
  Ok (sir_report fmt be ga (solver (sir_rhs be ga) sir_start)).

(** toys.py:84-85: the targets of EpiSIR(be, ga), numbers with error 0.05 *)
Definition sir_targets (solver : (sir -> sir) -> sir -> list (R * sir)) (fmt : R -> string) (be ga : R) : res (dict single) :=
  do dat <- sir_solve solver fmt [("beta"%string, be); ("gamma"%string, ga)];
  read_targets (map (fun kv => (fst kv, RNum (snd kv))) dat) (5 / 100).
