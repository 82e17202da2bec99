(** * Model of the survival regressions: get_sampler, predict and expectation (data/reg/survival.py)

    Transcribed as if the import of epidag worked. A distribution of times is given by its hazard and
    risk ratio (and the probability of zero); random draws are arguments, as in ModelHazard. *)

Require Import Verif.ModelNum Verif.ModelReg Verif.ModelHazard.
Open Scope R_scope.

(** survival.py:39-40 CoxRegression.get_sampler *)
Definition cox_sampler (h : hazard) (rs : list regressor) (xs : dict R) : res (hazard * R) :=
  do rr <- cox_rr rs xs; Ok (h, rr).
(** survival.py:32-33 CoxRegression.expectation *)
Definition cox_expectation (G : R -> R) (h : hazard) (rs : list regressor) (xs : dict R) : res R :=
  do rr <- cox_rr rs xs; Ok (hd_mean G h rr).

(** survival.py:46-52 ZeroInflatedCoxRegression *)
Record zireg := mkZi { z_b0 : R; z_pr : list regressor; z_haz : hazard; z_rr : list regressor }.
(** survival.py:69-71 get_sampler: first the probability, then the risk ratio *)
Definition zi_sampler (z : zireg) (xs : dict R) : res (R * hazard * R) :=
  do p <- cox_p (z_pr z) (z_b0 z) xs; do rr <- cox_rr (z_rr z) xs; Ok (p, z_haz z, rr).
(** survival.py:66-67 predict: one uniform and one exponential draw *)
Definition zi_predict (z : zireg) (xs : dict R) (u e : R) : res R :=
  do s <- zi_sampler z xs;
  match s with (p, h, rr) => do ts <- zi_sample p h rr [u] [e]; Ok (hd 0 ts) end.
(** survival.py:63-64 expectation *)
Definition zi_expectation (G : R -> R) (z : zireg) (xs : dict R) : res R :=
  do s <- zi_sampler z xs; match s with (p, h, rr) => Ok (zi_mean G p h rr) end.
