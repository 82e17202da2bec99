(** * Model of data/reg: hazard.py and survival.py

    Transcribed as if the import of epidag worked. EmpiricalHazard (interpolation) and
    find_baseline (reading the JSON) are left out. *)

Require Import Verif.ModelNum Verif.ModelReg.
Open Scope R_scope.

(** hazard.py:31-33, 48-51 *)
Inductive hazard := HExp (rate : R) | HWeibull (lam k : R).

(** pow(x, y) of Python floats for x >= 0 (a negative base is outside the model) *)
Definition fpow (x y : R) : R := if reqb x 0 then (if reqb y 0 then 1 else 0) else Rpower x y.

(** hazard.py:35-36, 53-54 cum_hazard *)
Definition cum_hazard (h : hazard) (t : R) : R :=
  match h with HExp r => t * r | HWeibull l k => fpow (l * t) k end.
(** hazard.py:38-39, 56-57 inv_cum_hazard *)
Definition inv_cum_hazard (h : hazard) (x : R) : R :=
  match h with HExp r => x / r | HWeibull l k => fpow x (1 / k) / l end.
(** hazard.py:41-42, 59-60 mean; scipy's gamma function is a parameter *)
Definition h_mean (G : R -> R) (h : hazard) : R :=
  match h with HExp r => 1 / r | HWeibull l k => G (1 + 1 / k) * l end.
(** hazard.py:44-45, 62-63 std *)
Definition h_std (G : R -> R) (h : hazard) : R :=
  match h with HExp r => 1 / r | HWeibull l k => sqrt (G (1 + 2 / k) - G (1 + 1 / k) ^ 2) * l end.

(** hazard.py:100-105 HazardDistribution.sample: [es] are unit exponential draws, so
    rd.exponential(1/RiskRatio, n) is es / RiskRatio. A number for n <= 1 (IndexError when the
    list of draws is empty, n = 0), else the list. *)
Definition hd_sample (h : hazard) (rr : R) (es : list R) : res (list R) :=
  match es with
  | [] => Err IndexError
  | _ => Ok (map (fun e => inv_cum_hazard h (1 / rr * e)) es)
  end.
(** 1E-5 *)
Definition eps : R := / 100000.
(** hazard.py:107-110 logpdf; expm1 x = exp x - 1 *)
Definition hd_logpdf (h : hazard) (v : R) : flt :=
  let s1 := exp (- cum_hazard h v) - 1 in
  let s2 := exp (- cum_hazard h (v - eps)) - 1 in
  flog ((s1 - s2) / eps).
(** hazard.py:112-113 mean; 115-116 std *)
Definition hd_mean (G : R -> R) (h : hazard) (rr : R) : R := 1 / h_mean G h / rr.
Definition hd_std (G : R -> R) (h : hazard) (rr : R) : R := / rr ^ 2 / h_std G h.

(** hazard.py:124-128 ZeroInflatedHazardDistribution.logpdf *)
Definition zi_logpdf (pr : R) (h : hazard) (v : R) : flt :=
  if rleb v 0 then flog pr
  else match flog (1 - pr), hd_logpdf h v with
       | Fin a, Fin b => Fin (a + b)
       | NaN, _ | _, NaN => NaN
       | NInf, PInf | PInf, NInf => NaN
       | NInf, _ | _, NInf => NInf
       | PInf, _ | _, PInf => PInf
       end.
(** hazard.py:130-138 sample: [us] are the uniform draws, as many as [es] *)
Definition zi_sample (pr : R) (h : hazard) (rr : R) (us es : list R) : res (list R) :=
  do ts <- hd_sample h rr es;
  Ok (map (fun ut => if rltb (fst ut) pr then 0 else snd ut) (combine us ts)).
(** hazard.py:140-141 mean *)
Definition zi_mean (G : R -> R) (pr : R) (h : hazard) (rr : R) : R := hd_mean G h rr * (1 - pr).

(** survival.py:29-30 _rr; 60-61 _p *)
Definition cox_rr (rs : list regressor) (xs : dict R) : res R := do m <- lc_predict rs xs; Ok (exp m).
Definition cox_p (rs : list regressor) (b0 : R) (xs : dict R) : res R := do m <- lc_predict rs xs; Ok (expit (m + b0)).
(** survival.py:35-37 CoxRegression.predict *)
Definition cox_predict (h : hazard) (rs : list regressor) (xs : dict R) (e : R) : res R :=
  do rr <- cox_rr rs xs; do ts <- hd_sample h rr [e]; Ok (hd 0 ts).
