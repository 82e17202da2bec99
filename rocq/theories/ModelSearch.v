(** * Model of the search space made from a prior: the wrappers of scipy distributions in prob.py,
    the entries of DataModel.Domain and their converters *)

Require Import Coq.Reals.Reals Coq.ZArith.ZArith.
Require Import Verif.ModelNum Verif.ModelConverter Verif.ModelProb.
Open Scope R_scope.

(** Dist.interval(1) of the scipy families: (ppf(0), ppf(1)). For continuous families these are the
    ends of the support; for discrete families ppf(0) is one below the smallest value. What scipy
    documents, for admissible parameters. A constant is not a scipy distribution. *)
Definition lib_interval (d : sp) : flt * flt :=
  match d with
  | SConst k => (Fin k, Fin k)
  | SGamma _ _ | SExpon _ | SLognorm _ _ | SChi2 _ | SInvgamma _ _ => (Fin 0, PInf)
  | SUniform l s | STriang l s _ => (Fin l, Fin (l + s))
  | SBeta _ _ => (Fin 0, Fin 1)
  | SNorm _ _ => (NInf, PInf)
  | SBinom n _ => (Fin (-1), Fin (IZR n))
  | SPoisson _ => (Fin (-1), PInf)
  end.
(** means and standard deviations of the families (scipy) *)
Definition lib_mean (d : sp) : R :=
  match d with
  | SConst k => k
  | SGamma a s => a * s
  | SExpon s => s
  | SLognorm s sc => exp (ln sc + s ^ 2 / 2)
  | SUniform l s => l + s / 2
  | SChi2 d => d
  | SBeta a b => a / (a + b)
  | SInvgamma a s => s / (a - 1)
  | SNorm l _ => l
  | STriang l s c => l + s * (1 + c) / 3
  | SBinom n p => IZR n * p
  | SPoisson m => m
  end.
Definition lib_var (d : sp) : R :=
  match d with
  | SConst _ => 0
  | SGamma a s => a * s ^ 2
  | SExpon s => s ^ 2
  | SLognorm s sc => (exp (s ^ 2) - 1) * exp (2 * ln sc + s ^ 2)
  | SUniform _ s => s ^ 2 / 12
  | SChi2 d => 2 * d
  | SBeta a b => a * b / ((a + b) ^ 2 * (a + b + 1))
  | SInvgamma a s => s ^ 2 / ((a - 1) ^ 2 * (a - 2))
  | SNorm _ s => s ^ 2
  | STriang _ s c => s ^ 2 * (1 - c + c ^ 2) / 18
  | SBinom n p => IZR n * p * (1 - p)
  | SPoisson m => m
  end.

(** which wrapper a creator uses, prob.py:368-386 *)
Definition is_integer (d : sp) : bool := match d with SBinom _ _ | SPoisson _ => true | _ => false end.
Definition is_const (d : sp) : bool := match d with SConst _ => true | _ => false end.

(** adding to a numpy float *)
Definition fplus (a : flt) (x : R) : flt := match a with Fin y => Fin (y + x) | o => o end.

(** prob.py:88-90, 116-119, 144-154 Interval *)
Definition interval (d : sp) : flt * flt :=
  let (a, b) := lib_interval d in if is_integer d then (fplus a 1, b) else (a, b).

(** prob.py:34-40, 148-154 Lower and Upper, fit/base.py:93: the entry of Domain; std() of a constant is 0 *)
Definition search_domain (d : sp) : domain := mkDom (fst (interval d)) (snd (interval d)) (lib_mean d) (sqrt (lib_var d)).

(** hme/alg.py:79 the converter of a node *)
Definition search_converter (d : sp) : res conv := get_converter (search_domain d).
