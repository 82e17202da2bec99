(** * Arithmetic, comparison and quantiles of numpy floats

    Not a transcription of /repo: the part of numpy the algorithms in fit/ rely on.
    Simplification: exact reals (no rounding, no overflow), no signed zero. *)

Require Export Verif.ModelNum.
Require Import Verif.ModelResample Coq.ZArith.ZArith.
Local Open Scope R_scope.

(** a + b *)
Definition fadd (a b : flt) : flt :=
  match a, b with
  | NaN, _ | _, NaN => NaN
  | Fin x, Fin y => Fin (x + y)
  | PInf, NInf | NInf, PInf => NaN
  | PInf, _ | _, PInf => PInf
  | NInf, _ | _, NInf => NInf
  end.

(** sign * infinity *)
Definition finf (s : R) : flt := if reqb s 0 then NaN else if rltb 0 s then PInf else NInf.
(** a * b *)
Definition fmul (a b : flt) : flt :=
  match a, b with
  | NaN, _ | _, NaN => NaN
  | Fin x, Fin y => Fin (x * y)
  | Fin x, PInf | PInf, Fin x => finf x
  | Fin x, NInf | NInf, Fin x => finf (- x)
  | PInf, PInf | NInf, NInf => PInf
  | PInf, NInf | NInf, PInf => NInf
  end.
(** a / b *)
Definition fdivf (a b : flt) : flt :=
  match a, b with
  | NaN, _ | _, NaN => NaN
  | Fin x, Fin y => fdiv x y
  | Fin _, _ => Fin 0
  | PInf, Fin y => if rltb y 0 then NInf else PInf
  | NInf, Fin y => if rltb y 0 then PInf else NInf
  | _, _ => NaN
  end.

(** a < b, a <= b: every comparison with nan is false *)
Definition fltb (a b : flt) : bool :=
  match a, b with
  | Fin x, Fin y => rltb x y
  | NInf, Fin _ | NInf, PInf | Fin _, PInf => true
  | _, _ => false
  end.
Definition fleb (a b : flt) : bool :=
  match a, b with
  | Fin x, Fin y => rleb x y
  | NInf, NInf | PInf, PInf => true
  | NInf, Fin _ | NInf, PInf | Fin _, PInf => true
  | _, _ => false
  end.

(** array.sum() *)
Definition fsum (l : list flt) : flt := fold_left fadd l (Fin 0).

(** np.sort of finite numbers *)
Fixpoint rins (x : R) (l : list R) : list R :=
  match l with
  | [] => [x]
  | y :: l' => if rleb x y then x :: l else y :: rins x l'
  end.
Definition rsort (l : list R) : list R := fold_right rins [] l.

(** np.quantile, method 'linear', of finite numbers: at position h = q (n - 1) of the sorted list *)
Definition quantile_r (l : list R) (q : R) : R :=
  let s := rsort l in
  let n := length l in
  let h := q * INR (n - 1) in
  let i := Z.to_nat (Int_part h) in
  let lo := nth i s 0 in
  let hi := nth (Nat.min (S i) (n - 1)) s 0 in
  lo + (h - INR i) * (hi - lo).

(** np.quantile(l, q): ValueError for q outside [0, 1], IndexError for the empty array, nan as soon
    as one entry is nan. Simplification: nan as well when an entry is infinite (numpy: nan or an
    infinity, by position). *)
Definition quantile (l : list flt) (q : R) : res flt :=
  if rleb 0 q && rleb q 1 then
    match l with
    | [] => Err IndexError
    | _ => match as_fin l with Some xs => Ok (Fin (quantile_r xs q)) | None => Ok NaN end
    end
  else Err ValueError.
