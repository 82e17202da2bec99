(** * Model of fit/converter.py *)

Require Import Verif.ModelNum.
Open Scope R_scope.

(** fit/base.py:14-19 Domain (name and type are not used here) *)
Record domain := mkDom { d_lower : flt; d_upper : flt; d_loc : R; d_scale : R }.

(** converter.py:19-21, 36-38, 55-57, 74-76: the attributes kept by the four classes *)
Inductive conv :=
| CFF (lower upper : R)
| CFI (lower scale : R)
| CIF (upper scale : R)
| CII (scale loc : R).

(** np.sign *)
Definition rsign (x : R) : R := if rltb 0 x then 1 else if rltb x 0 then -1 else 0.

(** converter.py:23-24, 40-43, 59-62, 78-84 uniform2value *)
Definition uniform2value (c : conv) (u : R) : flt :=
  match c with
  | CFF l h => Fin (u * (h - l) + l)
  | CFI l s => if rleb 1 u then PInf else Fin (- ln (1 - u) * s + l)
  | CIF h s => if rleb u 0 then NInf else Fin (ln u * s + h)
  | CII s m => if rleb 1 u then PInf else if rleb u 0 then NInf
               else let u := u - 1 / 2 in Fin (- rsign u * ln (1 - 2 * Rabs u) * s + m)
  end.

(** converter.py:26-27, 45-46, 64-65, 86-91 value2uniform. Simplification: a zero scale is
    only told apart for the finite domain. *)
Definition value2uniform (c : conv) (v : R) : flt :=
  match c with
  | CFF l h => fdiv (v - l) (h - l)
  | CFI l s => Fin (1 - exp ((l - v) / s))
  | CIF h s => Fin (exp ((v - h) / s))
  | CII s m => let v := v - m in
               if rltb 0 v then Fin (1 - exp (- v / s) / 2) else Fin (exp (v / s) / 2)
  end.

(** converter.py:99-110 get_converter. Simplification: a limit that is nan (never produced by
    a distribution) is reported as an error. *)
Definition get_converter (d : domain) : res conv :=
  match d_lower d, d_upper d with
  | NaN, _ | _, NaN => Err OtherError
  | Fin l, Fin h => Ok (CFF l h)
  | Fin l, _ => Ok (CFI l (d_scale d))
  | _, Fin h => Ok (CIF h (d_scale d))
  | _, _ => Ok (CII (d_scale d) (d_loc d))
  end.
