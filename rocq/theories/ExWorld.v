(** * A small concrete world, used only in examples and as witness of refutations

    Not a model of /repo: integers stand for floats, sampling adds the state of the
    generator (a counter) to the location. *)

Require Import Verif.Base Verif.World Coq.ZArith.ZArith.

Inductive pv : Type :=
| PZ (z : Z)
| PS (s : string)
| PFun (f : name)
| PNone
| PBp (tp : name) (fields : list (name * pv)).

Definition digit (c : ascii) : option Z :=
  let n := nat_of_ascii c in
  if (48 <=? n) && (n <=? 57) then Some (Z.of_nat (n - 48)) else None.
Fixpoint digits (s : string) (acc : Z) : Z :=
  match s with
  | EmptyString => acc
  | String c s' => match digit c with Some d => digits s' (10 * acc + d)%Z | None => acc end
  end.

Inductive lp : Type := LZ (z : Z) | LNinf | LNan.

Definition ex_op (op : string) (vs : list pv) : res pv :=
  match vs with
  | [PZ a; PZ b] =>
      if String.eqb op "+" then Ok (PZ (a + b)) else
      if String.eqb op "-" then Ok (PZ (a - b)) else
      if String.eqb op "*" then Ok (PZ (a * b)) else
      if String.eqb op "/" then (if Z.eqb b 0 then Err ZeroDivisionError else Ok (PZ (a / b))) else Err TypeError
  | [PZ a] => if String.eqb op "-" then Ok (PZ (- a)) else Err TypeError
  | _ => Err TypeError
  end.
Definition ex_call (f : pv) (vs : list pv) (ks : list (name * pv)) : res pv :=
  match f with
  | PFun "exp" => match vs, ks with [PZ a], [] => Ok (PZ (2 ^ a)) | _, _ => Err TypeError end
  | PFun "max" => match vs, ks with [PZ a; PZ b], [] => Ok (PZ (Z.max a b)) | _, _ => Err TypeError end
  | PBp tp [] => match vs with [] => Ok (PBp tp ks) | _ => Err TypeError end
  | _ => Err TypeError
  end.
Definition ex_creator (n : name) : option pv :=
  if mem n ["norm"; "exp"; "unif"] then Some (PBp n []) else None.
Definition ex_schema (n : name) : option (list (name * option string)) :=
  match n with
  | "norm" => Some [("loc", Some "0"); ("scale", Some "1")]
  | "exp" => Some [("rate", None)]
  | "unif" => Some [("loc", Some "0"); ("width", Some "1")]
  | _ => None
  end.
(** location and scale of a blueprint *)
Definition ex_create (v : pv) : res (Z * Z) :=
  match v with
  | PBp _ [(_, PZ a); (_, PZ b)] => if Z.leb b 0 then Err ValidationError else Ok (a, b)
  | PBp _ [(_, PZ a)] => if Z.leb a 0 then Err ValidationError else Ok (0%Z, a)
  | PBp _ _ => Err ValidationError
  | _ => Err AttributeError
  end.

Definition lp_plus (a b : lp) : lp :=
  match a, b with
  | LNan, _ | _, LNan => LNan
  | LNinf, _ | _, LNinf => LNinf
  | LZ x, LZ y => LZ (x + y)
  end.

Definition exw : world := {|
  V := pv; Dist := Z * Z; RNG := nat; LP := lp;
  w_num s := PZ (digits s 0);
  w_str := PS;
  w_op := ex_op;
  w_call := ex_call;
  w_math n := if mem n ["exp"; "max"] then Some (PFun n) else None;
  w_builtin n := if mem n ["len"; "abs"] then Some (PFun n) else None;
  w_is_none v := match v with PNone => true | _ => false end;
  w_none := PNone;
  w_code v := match v with
              | PS s => Some (match s with "1+1" => Ok (PZ 2) | _ => Err NameError end)
              | _ => None
              end;
  w_creator := ex_creator;
  w_schema := ex_schema;
  w_create := ex_create;
  w_sample d r := (PZ (fst d + Z.of_nat r), S r);
  w_logpdf d v := match v with PZ z => LZ (- Z.abs (z - fst d)) | _ => LNan end;
  lp_zero := LZ 0;
  lp_add := lp_plus;
  lp_ninf := LNinf;
  lp_nan := LNan;
  lp_isnan l := match l with LNan => true | _ => false end
|}.
