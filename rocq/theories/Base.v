(** * Base: Python exceptions, dicts and sets used by every model file.

    Not a transcription of /repo itself: this is the part of the Python language
    that the transcriptions rely on. *)

Require Export Coq.Strings.String Coq.Strings.Ascii Coq.Lists.List Coq.Bool.Bool Coq.Arith.Arith Coq.micromega.Lia.
Export ListNotations.
Open Scope string_scope.
Open Scope list_scope.
Open Scope nat_scope.

(** Node names, dict keys. *)
Definition name := string.

(** Python exceptions; the argument-free tag is all that is observable here. *)
Inductive exn : Type :=
| KeyError | TypeError | ValueError | AttributeError | NameError
| NetworkXError        (* networkx.NetworkXError and subclasses raised by lookups *)
| NetworkXUnfeasible   (* raised by topological_sort on a cyclic graph *)
| ScriptException      (* sims_pars.util.ScriptException *)
| AssertionError | IndexError | ZeroDivisionError | ValidationError
| SyntaxError | UnboundLocalError | OtherError.

(** Result of a Python call. *)
Inductive res (A : Type) : Type :=
| Ok (a : A)
| Err (e : exn).
Arguments Ok {A} a.
Arguments Err {A} e.

Definition bind {A B : Type} (m : res A) (k : A -> res B) : res B :=
  match m with
  | Ok a => k a
  | Err e => Err e
  end.

Notation "'do' x <- m ; k" := (bind m (fun x => k))
  (at level 200, x pattern, m at level 100, k at level 200, right associativity).

Definition is_ok {A} (m : res A) : bool := match m with Ok _ => true | Err _ => false end.

Definition exn_eqb (a b : exn) : bool :=
  match a, b with
  | KeyError, KeyError | TypeError, TypeError | ValueError, ValueError
  | AttributeError, AttributeError | NameError, NameError
  | NetworkXError, NetworkXError | NetworkXUnfeasible, NetworkXUnfeasible
  | ScriptException, ScriptException | AssertionError, AssertionError
  | IndexError, IndexError | ZeroDivisionError, ZeroDivisionError
  | ValidationError, ValidationError | SyntaxError, SyntaxError
  | UnboundLocalError, UnboundLocalError | OtherError, OtherError => true
  | _, _ => false
  end.

(** [map] with exceptions, left to right (list comprehensions that may raise). *)
Fixpoint mapM {A B : Type} (f : A -> res B) (l : list A) : res (list B) :=
  match l with
  | [] => Ok []
  | x :: l' => do y <- f x; do ys <- mapM f l'; Ok (y :: ys)
  end.

(** left fold with exceptions *)
Fixpoint foldM {A S : Type} (f : S -> A -> res S) (l : list A) (s : S) : res S :=
  match l with
  | [] => Ok s
  | x :: l' => do s' <- f s x; foldM f l' s'
  end.

(** ** Sets of names: lists, membership by string equality *)

Definition mem (x : name) (l : list name) : bool := existsb (String.eqb x) l.

(** [subset a b]: Python [a <= b] / [a.issubset(b)]. *)
Definition subset (a b : list name) : bool := forallb (fun x => mem x b) a.

(** Python [a - b]. *)
Definition diff (a b : list name) : list name := filter (fun x => negb (mem x b)) a.

(** Python [a & b]. *)
Definition inter (a b : list name) : list name := filter (fun x => mem x b) a.

(** Adding to a set, keeping it duplicate free. *)
Definition sadd (x : name) (l : list name) : list name := if mem x l then l else l ++ [x].

(** Python [a | b]. *)
Definition union (a b : list name) : list name := fold_left (fun acc x => sadd x acc) b a.

(** Python [set(l)]. *)
Definition to_set (l : list name) : list name := union [] l.

(** Python [set.union of a list of sets, unpacked with star]: TypeError on an empty list. *)
Definition set_union_star (ls : list (list name)) : res (list name) :=
  match ls with
  | [] => Err TypeError
  | l :: ls' => Ok (fold_left union ls' (to_set l))
  end.

(** ** Dicts with insertion order *)

Definition dict (V : Type) := list (name * V).

Section Dict.
  Context {V : Type}.

  Fixpoint dget (d : dict V) (k : name) : option V :=
    match d with
    | [] => None
    | (k', v) :: d' => if String.eqb k k' then Some v else dget d' k
    end.

  Definition dmem (k : name) (d : dict V) : bool :=
    match dget d k with Some _ => true | None => false end.

  (** [d[k] = v]: overwrite in place, or append. *)
  Fixpoint dset (d : dict V) (k : name) (v : V) : dict V :=
    match d with
    | [] => [(k, v)]
    | (k', v') :: d' => if String.eqb k k' then (k', v) :: d' else (k', v') :: dset d' k v
    end.

  (** [d.pop(k, None)] / [del d[k]] *)
  Definition ddel (d : dict V) (k : name) : dict V :=
    filter (fun p => negb (String.eqb k (fst p))) d.

  Definition dkeys (d : dict V) : list name := map fst d.

  (** [d.update(e)] *)
  Definition dupdate (d e : dict V) : dict V :=
    fold_left (fun acc p => dset acc (fst p) (snd p)) e d.

  (** [d[k]] with KeyError *)
  Definition dgetE (d : dict V) (k : name) : res V :=
    match dget d k with Some v => Ok v | None => Err KeyError end.

  (** dict comprehension filter on keys: [{k: v for k, v in d.items() if f k}] *)
  Definition dfilter (f : name -> bool) (d : dict V) : dict V := filter (fun p => f (fst p)) d.
End Dict.
