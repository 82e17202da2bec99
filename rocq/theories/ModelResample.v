(** * Model of util.py resample *)

Require Import Verif.ModelNum Coq.ZArith.ZArith.
Open Scope R_scope.

Section Resample.
  Context {A B : Type}.

  (** util.py:80, 89, 92: [x for x, f in zip(xs, fin) if f] *)
  Definition keep {X : Type} (fin : list bool) (xs : list X) : list X :=
    map fst (filter (fun p => snd p) (combine xs fin)).
  (** util.py:80-81: fin and the finite weights *)
  Definition fins (wts : list flt) : list bool := map isfinite wts.
  Fixpoint finite_of (wts : list flt) : list R :=
    match wts with
    | [] => []
    | Fin x :: l => x :: finite_of l
    | _ :: l => finite_of l
    end.

  (** util.py:78: max(new_size, 1) if new_size else size *)
  Definition out_size (size : nat) (new_size : option Z) : nat :=
    match new_size with
    | Some z => if Z.eqb z 0 then size else Z.to_nat (Z.max z 1)
    | None => size
    end.

  (** util.py:94-103: the probabilities handed to choice, and lse *)
  Definition sel_probs (log : bool) (ws : list R) : list flt :=
    if log then let lse := ln (rsum (map exp ws)) in map (fun w => Fin (exp (w - lse))) ws
    else map (fun w => fdiv w (rsum ws)) ws.
  Definition evidence (log : bool) (ws : list R) : flt :=
    if log then Fin (ln (rsum (map exp ws))) else flog (rsum ws).

  (** numpy.random.choice(size, n, replace=True, p=p): ValueError unless p is free of nan,
      non-negative and sums to one; which indices come out is the parameter [draw] *)
  Fixpoint as_fin (p : list flt) : option (list R) :=
    match p with
    | [] => Some []
    | Fin x :: l => match as_fin l with Some r => Some (x :: r) | None => None end
    | _ => None
    end.
  Definition choice (draw : list R -> nat -> list nat) (n : nat) (p : list flt) : res (list nat) :=
    match as_fin p with
    | Some q => if forallb (rleb 0) q && reqb (rsum q) 1 then Ok (draw q n) else Err ValueError
    | None => Err ValueError
    end.

  (** [xs[i] for i in sel] *)
  Definition pick {X : Type} (xs : list X) (sel : list nat) : res (list X) :=
    mapM (fun i => match nth_error xs i with Some x => Ok x | None => Err IndexError end) sel.

  (** x - log(n); n is at least 1 here *)
  Definition less_log (x : flt) (n : nat) : flt := match x with Fin a => Fin (a - ln (INR n)) | o => o end.

  (** util.py:76-107 resample. Simplification: pars=None and pars=[] are the same (both falsy), and
      the third component of the result is [] for them. *)
  Definition resample (draw : list R -> nat -> list nat) (wts : list flt) (hs : list A) (pars : list B)
      (log : bool) (new_size : option Z) : res (list A * list B * flt) :=
    let new_size := out_size (length wts) new_size in
    let fin := fins wts in
    let ws := finite_of wts in
    match ws with
    | [] => Ok (hs, pars, fopp (flog 0))
    | _ =>
        let hs := keep fin hs in
        let ps := keep fin pars in
        do sel <- choice draw new_size (sel_probs log ws);
        do hs' <- pick hs sel;
        do ps' <- match pars with [] => Ok [] | _ => pick ps sel end;
        Ok (hs', ps', less_log (evidence log ws) new_size)
    end.
End Resample.
