(** * Model of prob.py: Const, CategoricalRV and the creators *)

Require Import Verif.ModelNum Coq.ZArith.ZArith.
Open Scope R_scope.

(** prob.py:165-166 Const.logpdf *)
Definition const_logpdf (k v : R) : flt := if reqb v k then Fin 0 else PInf.
(** prob.py:160-163 Const.sample: n values, a bare one for n <= 1 *)
Definition const_sample (k : R) (n : nat) : list R := if Nat.ltb 1 n then repeat k n else [k].

(** prob.py:180-189 CategoricalRV.__init__: cat and p *)
Definition cat_total (kv : dict R) : R := rsum (map snd kv).
Definition cat_p (kv : dict R) : dict flt := map (fun e => (fst e, fdiv (snd e) (cat_total kv))) kv.

(** sum and product of numpy floats *)
Definition fadd (a b : flt) : flt :=
  match a, b with
  | Fin x, Fin y => Fin (x + y)
  | NaN, _ | _, NaN | PInf, NInf | NInf, PInf => NaN
  | PInf, _ | _, PInf => PInf
  | NInf, _ | _, NInf => NInf
  end.
Definition fmul (x : R) (b : flt) : flt :=
  match b with
  | Fin y => Fin (x * y)
  | NaN => NaN
  | PInf => if reqb x 0 then NaN else if rltb 0 x then PInf else NInf
  | NInf => if reqb x 0 then NaN else if rltb 0 x then NInf else PInf
  end.

(** prob.py:203-207 CategoricalRV.logpdf: of one category, of a dict of counts *)
Definition cat_logpdf (kv : dict R) (v : name) : res flt := do w <- dgetE kv v; Ok (flog w).
Definition cat_logpdf_counts (kv : dict R) (counts : dict R) : res flt :=
  do ts <- mapM (fun kx => do w <- dgetE kv (fst kx); Ok (fmul (snd kx) (flog w))) counts;
  Ok (fold_right fadd (Fin 0) ts).

(** the creators with their fields, prob.py:257-396. Simplification: the fields are numbers
    already; pydantic's conversions from text are not modelled. cat is treated above. *)
Inductive cre :=
| CConst (k : R) | CGamma (shape rate : R) | CExp (rate : R) | CLogNorm (meanlog sdlog : R)
| CUniform (mn mx : R) | CChi2 (df : R) | CBeta (shape1 shape2 : R) | CInvGamma (a rate : R)
| CNorm (mean sd : R) | CTriangle (a m b : R) | CBinom (size : Z) (prob : R) | CPois (lam : R).

(** the scipy families with the parameters passed *)
Inductive sp :=
| SConst (k : R) | SGamma (a scale : R) | SExpon (scale : R) | SLognorm (s scale : R)
| SUniform (loc scale : R) | SChi2 (df : R) | SBeta (a b : R) | SInvgamma (a scale : R)
| SNorm (loc scale : R) | STriang (loc scale c : R) | SBinom (n : Z) (p : R) | SPoisson (mu : R).

(** the field types: PositiveFloat, NonNegativeFloat, confloat, PositiveInt *)
Definition fields_ok (c : cre) : bool :=
  match c with
  | CConst _ | CUniform _ _ | CTriangle _ _ _ => true
  | CGamma s r => rltb 0 s && rltb 0 r
  | CExp r => rltb 0 r
  | CLogNorm m s => rleb 0 m && rltb 0 s
  | CChi2 d => rltb 0 d
  | CBeta a b => rltb 0 a && rltb 0 b
  | CInvGamma a r => rltb 2 a && rltb 0 r
  | CNorm _ s => rltb 0 s
  | CBinom n p => Z.ltb 0 n && (rleb 0 p && rleb p 1)
  | CPois l => rltb 0 l
  end.

(** list.sort() on three numbers *)
Definition rins (x : R) (l : R * R) : R * R * R :=
  let (y, z) := l in if rleb x y then (x, y, z) else if rleb x z then (y, x, z) else (y, z, x).
Definition sort3 (a b c : R) : R * R * R := rins a (if rleb b c then (b, c) else (c, b)).

(** create(), after validation by the constructor: ValidationError if a field is refused,
    ZeroDivisionError from (m - a) / (b - a) on Python floats *)
Definition create (c : cre) : res sp :=
  if negb (fields_ok c) then Err ValidationError else
  match c with
  | CConst k => Ok (SConst k)                              (* prob.py:257-261 *)
  | CGamma s r => Ok (SGamma s (1 / r))                    (* prob.py:267-272 *)
  | CExp r => Ok (SExpon (1 / r))                          (* prob.py:278-282 *)
  | CLogNorm m s => Ok (SLognorm (exp s) (exp (exp m)))    (* prob.py:288-293 *)
  | CUniform a b => Ok (SUniform a (b - a))                (* prob.py:299-304 *)
  | CChi2 d => Ok (SChi2 d)                                (* prob.py:310-314 *)
  | CBeta a b => Ok (SBeta a b)                            (* prob.py:320-325 *)
  | CInvGamma a r => Ok (SInvgamma a (1 / r))              (* prob.py:331-336 *)
  | CNorm m s => Ok (SNorm m s)                            (* prob.py:342-347 *)
  | CTriangle a m b =>                                     (* prob.py:353-362 *)
      let '(a, m, b) := sort3 a m b in
      if reqb (b - a) 0 then Err ZeroDivisionError else Ok (STriang a (b - a) ((m - a) / (b - a)))
  | CBinom n p => Ok (SBinom n p)                          (* prob.py:368-373 *)
  | CPois l => Ok (SPoisson l)                             (* prob.py:379-383 *)
  end.

(** the field defaults *)
Definition defaults : list cre :=
  [CConst 0; CGamma 1 1; CExp 1; CLogNorm 0 1; CUniform 0 1; CChi2 1; CBeta 1 1; CInvGamma 2 1; CNorm 0 1;
   CTriangle 0 (1/2) 1; CBinom 1 (1/2); CPois 1].
