(** * Model of the distributions as objects: their text and JSON (prob.py AbsDistribution), how
      Atelier.create describes what it makes, and drawing samples *)

Require Import Verif.ModelNum Verif.ModelProb Coq.ZArith.ZArith.
Require Import Coq.Strings.String.
Open Scope R_scope.

(** blueprints of the workshop of distributions, prob.py:257-396: one of the creators of ModelProb, or cat *)
Inductive bprint := BCre (c : cre) | BCat (kv : dict R).

(** values of the fields of a blueprint *)
Inductive fval := FNum (x : R) | FTab (kv : dict R).
(** bp.dict() of pydantic: the fields with their names, in the order of the class *)
Definition bp_dict (b : bprint) : dict fval :=
  match b with
  | BCre (CConst k) => [("k"%string, FNum k)]                                                   (* prob.py:258 *)
  | BCre (CGamma s r) => [("shape"%string, FNum s); ("rate"%string, FNum r)]                    (* prob.py:268-269 *)
  | BCre (CExp r) => [("rate"%string, FNum r)]                                                  (* prob.py:279 *)
  | BCre (CLogNorm m s) => [("meanlog"%string, FNum m); ("sdlog"%string, FNum s)]               (* prob.py:289-290 *)
  | BCre (CUniform a b) => [("min"%string, FNum a); ("max"%string, FNum b)]                     (* prob.py:300-301 *)
  | BCre (CChi2 d) => [("df"%string, FNum d)]                                                   (* prob.py:311 *)
  | BCre (CBeta a b) => [("shape1"%string, FNum a); ("shape2"%string, FNum b)]                  (* prob.py:321-322 *)
  | BCre (CInvGamma a r) => [("a"%string, FNum a); ("rate"%string, FNum r)]                     (* prob.py:332-333 *)
  | BCre (CNorm m s) => [("mean"%string, FNum m); ("sd"%string, FNum s)]                        (* prob.py:343-344 *)
  | BCre (CTriangle a m b) => [("a"%string, FNum a); ("m"%string, FNum m); ("b"%string, FNum b)]  (* prob.py:354-356 *)
  | BCre (CBinom n p) => [("size"%string, FNum (IZR n)); ("prob"%string, FNum p)]               (* prob.py:369-370 *)
  | BCre (CPois l) => [("lam"%string, FNum l)]                                                  (* prob.py:380 *)
  | BCat kv => [("kv"%string, FTab kv)]                                                         (* prob.py:390 *)
  end.

(** the distributions: SpDouble, SpInteger and Const around what ModelProb calls [sp], and CategoricalRV *)
Inductive law := LSp (d : sp) | LCat (kv : dict R).
(** bp.create(); prob.py:180-189 CategoricalRV.__init__ never raises *)
Definition bp_create (b : bprint) : res law :=
  match b with BCre c => do d <- create c; Ok (LSp d) | BCat kv => Ok (LCat kv) end.

(** a distribution object: prob.py:22-24 the attributes source and json are None at first *)
Record dobj := mkObj { o_law : law; o_source : option string; o_json : option (dict (dict fval)) }.
Definition obj_new (l : law) : dobj := mkObj l None None.

(** craftstation.py:63-79 create. [blue seq]: the outcome of eval of the completed text in the
    workshop with the variables of the call (ModelAtelier); the empty text has no call, so that
    complete_def raises AttributeError (craftstation.py:27-28), and eval SyntaxError without it.
    Distributions are plain objects, so that setting attributes never raises AttributeError. *)
Definition shop_create (blue : string -> res bprint) (seq : string) (append_src to_complete : bool) : res dobj :=
  do b <- match seq with
          | EmptyString => Err (if to_complete then AttributeError else SyntaxError)
          | _ => blue seq
          end;
  do l <- bp_create b;
  let o := obj_new l in
  if append_src then Ok (mkObj (o_law o) (Some seq) (Some [("Args"%string, bp_dict b)])) else Ok o.

(** prob.py:399-400 parse_distribution with the defaults of append_src and to_complete *)
Definition parse_distribution (blue : string -> res bprint) (seq : string) : res dobj := shop_create blue seq true true.

(** prob.py:63-67 to_json; an empty dict is false *)
Definition obj_json (o : dobj) : res (dict (dict fval)) :=
  match o_json o with
  | Some (e :: j) => Ok (e :: j)
  | _ => Err AttributeError
  end.

(** prob.py:69-75 __repr__ and __str__; [quote]: repr of a text. Without a source, or with an
    empty one, a number is returned, and Python's repr() and str() raise TypeError. *)
Definition obj_str (quote : string -> string) (o : dobj) : res string :=
  match o_source o with
  | None | Some EmptyString => Err TypeError
  | Some s => Ok (quote s)
  end.

Section Draw.
  (** scipy's generator: [rvs d g] one value of a family; np.round; numpy's choice among n things
      with given probabilities: an arbitrary number, taken modulo n *)
  Context {G : Type} (rvs : sp -> G -> R * G) (rnd : R -> R) (roll : list flt -> G -> nat * G).

  (** what sample returns: a bare value or an array *)
  Inductive drawn (A : Type) := Bare (x : A) | Arr (l : list A).
  Arguments Bare {A} x. Arguments Arr {A} l.

  Fixpoint draws {A : Type} (f : G -> A * G) (n : nat) (g : G) : list A * G :=
    match n with
    | O => ([], g)
    | S n' => let (x, g1) := f g in let (l, g2) := draws f n' g1 in (x :: l, g2)
    end.

  Definition integral (d : sp) : bool := match d with SBinom _ _ | SPoisson _ => true | _ => false end.

  (** prob.py:83-86 SpDouble.sample, 111-114 SpInteger.sample, 160-163 Const.sample *)
  Definition sp_sample (d : sp) (n : nat) (g : G) : drawn R * G :=
    match d with
    | SConst k => (if Nat.ltb 1 n then Arr (repeat k n) else Bare k, g)
    | _ =>
        let post x := if integral d then rnd x else x in
        match n with
        | 1%nat => let (x, g') := rvs d g in (Bare (post x), g')
        | _ => let (l, g') := draws (rvs d) n g in (Arr (map post l), g')
        end
    end.

  (** numpy.random.choice(cat, n, p=p), as documented: ValueError if there is nothing to choose
      from or the probabilities are not finite, negative or do not sum to one; divided by their
      sum, they do sum to one when they are finite *)
  Definition p_ok (p : flt) : bool := match p with Fin x => rleb 0 x | _ => false end.
  Definition choice (cat : list name) (n : nat) (p : list flt) (g : G) : res (list name) * G :=
    match cat with
    | [] => (Err ValueError, g)
    | c :: _ =>
        if forallb p_ok p then
          let (l, g') := draws (roll p) n g in (Ok (map (fun i => nth (i mod List.length cat) cat c) l), g')
        else (Err ValueError, g)
    end.

  (** prob.py:209-214 CategoricalRV.sample *)
  Definition cat_sample (kv : dict R) (n : nat) (g : G) : res (drawn name) * G :=
    let (sam, g') := choice (dkeys kv) n (map snd (cat_p kv)) g in
    (do s <- sam; if Nat.eqb n 1 then (match s with x :: _ => Ok (Bare x) | [] => Err IndexError end) else Ok (Arr s), g').

  (** prob.py:26-27 __call__ *)
  Definition sp_call (d : sp) (g : G) : drawn R * G := sp_sample d 1 g.
  Definition cat_call (kv : dict R) (g : G) : res (drawn name) * G := cat_sample kv 1 g.
End Draw.
Arguments Bare {A} x.
Arguments Arr {A} l.
