(** * Model of calc_weighted_std of fit/abc_smc/alg.py: the step sizes of the proposals

    ModelSMC takes the step sizes as a parameter; this is what the code puts there.
    Simplification: every value of a parameter is a number for numpy ([num]). *)

Require Import Verif.Base Verif.World Verif.ModelGraph Verif.ModelExpr Verif.ModelLoci Verif.ModelBN Verif.ModelSample
        Verif.ModelFitBase Verif.ModelFloat.
Local Open Scope R_scope.

(** a - b, (a - b) ** 2 and np.sqrt, not part of /repo *)
Definition fsub (a b : flt) : flt := fadd a (fmul (Fin (-1)) b).
Definition fdev2 (a b : flt) : flt := fmul (fsub a b) (fsub a b).
Definition fsqrt (a : flt) : flt :=
  match a with Fin x => if rltb x 0 then NaN else Fin (sqrt x) | PInf => PInf | _ => NaN end.
(** np.average(vs, weights=wts), not part of /repo: TypeError for different shapes,
    ZeroDivisionError if the weights add up to zero *)
Definition average (vs wts : list flt) : res flt :=
  if Nat.eqb (length vs) (length wts) then
    let total := fsum (map (fun p => fmul (fst p) (snd p)) (combine vs wts)) in
    match fsum wts with
    | Fin s => if reqb s 0 then Err ZeroDivisionError else Ok (fdivf total (Fin s))
    | s => Ok (fdivf total s)
    end
  else Err TypeError.
(** alg.py:273-274 average and variance *)
Definition variance (vs wts : list flt) : res flt :=
  do a <- average vs wts; average (map (fun v => fdev2 v a) vs) wts.

Section Spread.
  Context {w : world}.
  Context (num : V w -> flt).  (* a value as entry of an array *)

  (** alg.py:272: the values of one parameter *)
  Definition column (theta : list (particle w flt)) (key : name) : res (list flt) :=
    mapM (fun p => do v <- dgetE (ch_locus (p_pars p)) key; Ok (num v)) theta.
  (** alg.py:267-278 calc_weighted_std *)
  Definition calc_weighted_std (m : dmodel w flt) (theta : list (particle w flt)) (wts : list flt) (r : RNG w)
    : res (dict flt) * RNG w :=
    match dm_domain m r with
    | (Err e, r') => (Err e, r')
    | (Ok doms, r') =>
        (foldM (fun tau nd => do vs <- column theta (fst nd);
                              do var <- variance vs wts;
                              Ok (if fltb (Fin 0) var then dset tau (fst nd) (fsqrt var) else tau)) doms [], r')
    end.
End Spread.
