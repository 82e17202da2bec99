(** * Model of bayesnet/loci.py: node definitions *)

Require Import Verif.Base Verif.World Verif.ModelExpr.

Section Loci.
  Context {w : world}.

  (** loci.py:51-228. [pas] is the Parents collection in its iteration order (a set in
      Python: any order is possible). *)
  Inductive loci : Type :=
  | LValue (n : name) (v : V w)                              (* loci.py:51-78 *)
  | LExo (n : name)                                          (* loci.py:81-110 *)
  | LDist (n : name) (func : expr) (pas : list name)         (* loci.py:113-156, func already completed *)
  | LFunc (n : name) (e : expr) (pas : list name)            (* loci.py:159-192 *)
  | LPseudo (n : name) (pas : list name).                    (* loci.py:195-228 *)

  Definition loci_name (l : loci) : name :=
    match l with LValue n _ | LExo n | LDist n _ _ | LFunc n _ _ | LPseudo n _ => n end.
  Definition loci_parents (l : loci) : list name :=
    match l with LValue _ _ | LExo _ => [] | LDist _ _ ps | LFunc _ _ ps | LPseudo _ ps => ps end.

  Definition is_rv_l (l : loci) : bool := match l with LDist _ _ _ => true | _ => false end.
  Definition is_value_l (l : loci) : bool := match l with LValue _ _ => true | _ => false end.
  Definition is_exo_l (l : loci) : bool := match l with LExo _ => true | _ => false end.
  Definition is_pseudo_l (l : loci) : bool := match l with LPseudo _ _ => true | _ => false end.
  Definition is_func_l (l : loci) : bool := match l with LFunc _ _ _ => true | _ => false end.

  (** ** Constructors *)

  Definition or_else (pas dflt : list name) : list name := match pas with [] => dflt | _ => pas end.

  (** loci.py:52-54 ValueLoci.__init__ for a non-text value and for text *)
  Definition mk_value (n : name) (v : V w) : res loci :=
    match w_code w v with
    | None => Ok (LValue n v)
    | Some r => do v' <- r; Ok (LValue n v')
    end.
  Definition mk_value_text (n : name) (e : expr) : res loci :=
    do v <- eval (w_math w) (fun _ => None) e; Ok (LValue n v).
  (** loci.py:114-118 DistributionLoci.__init__ *)
  Definition mk_dist (n : name) (val : expr) (pas : list name) : res loci :=
    do func <- @complete_def w val;
    match pas with
    | [] => do ps <- parsed_parents (parse_function val); Ok (LDist n func ps)
    | _ => Ok (LDist n func pas)
    end.
  (** loci.py:160-163 FunctionLoci.__init__ *)
  Definition mk_func (n : name) (e : expr) (pas : list name) : res loci :=
    Ok (LFunc n e (or_else pas (evars e))).
  (** loci.py:196-200 PseudoLoci.__init__ *)
  Definition mk_pseudo (n : name) (val : expr) (pas : list name) : res loci :=
    match pas with
    | [] => do ps <- parsed_parents (parse_function val); Ok (LPseudo n ps)
    | _ => Ok (LPseudo n pas)
    end.

  (** the text 'f(' + ', '.join(Parents) + ')' of a pseudo node, as a syntax tree *)
  Definition pseudo_func (pas : list name) : expr := ECall "f" (map EName pas) [].

  (** ** Behaviour *)

  (** loci.py:128-132 get_distribution. On KeyError the data sampler is looked up through
      self.Func.Function; self.Func is a str, so that is an AttributeError. *)
  Definition get_distribution (func : expr) (pas : env w) : res (Dist w) :=
    match parse_distribution func pas with
    | Err KeyError => Err AttributeError
    | r => r
    end.

  (** dict comprehension {pa: pas[pa] for pa in Parents}: KeyError if one is missing *)
  Fixpoint restrict (pas : env w) (ps : list name) : res (dict (V w)) :=
    match ps with
    | [] => Ok []
    | p :: ps' => match pas p with
                  | Some v => do d <- restrict pas ps'; Ok ((p, v) :: d)
                  | None => Err KeyError
                  end
    end.

  (** loci.py:64-65, 93-99, 134-135, 173-178, 210-211 render. An exception leaves the
      random generator untouched: a draw only happens once the distribution exists. *)
  Definition render (l : loci) (pas : env w) (r : RNG w) : res (V w * RNG w) :=
    match l with
    | LValue _ v => Ok (v, r)
    | LExo n => match pas n with Some v => Ok (v, r) | None => Err KeyError end
    | LDist _ f _ => do d <- get_distribution f pas; Ok (w_sample w d r)
    | LFunc _ e ps =>
        match restrict pas ps with
        | Err x => Err x
        | Ok loc => match execute e (dget loc) with
                    | Ok v => Ok (v, r)
                    | Err NameError => Err KeyError
                    | Err x => Err x
                    end
        end
    | LPseudo _ _ => Err AttributeError
    end.

  (** loci.py:67, 101, 140-145, 180, 213 evaluate *)
  Definition evaluate (l : loci) (pas : env w) : res (LP w) :=
    match l with
    | LValue _ _ | LExo _ | LFunc _ _ _ => Ok (lp_zero w)
    | LDist n f _ =>
        match get_distribution f pas with
        | Ok d => match pas n with Some v => Ok (w_logpdf w d v) | None => Err KeyError end
        | Err ValidationError => Ok (lp_ninf w)
        | Err e => Err e
        end
    | LPseudo _ _ => Err AttributeError
    end.

  (** loci.py:33-34, 137-138, 216-217 fill on a dict: gene[Name] = render(gene) *)
  Definition fill (l : loci) (gene : dict (V w)) (r : RNG w) : res (dict (V w) * RNG w) :=
    do (v, r') <- render l (dget gene) r; Ok (dset gene (loci_name l) v, r').

  (** ** JSON (loci.py:70-73, 104-105, 147-151, 183-187, 219-223, 231-244) *)

  Inductive jdef : Type :=
  | JDVal (v : V w)
  | JDText (e : expr).

  Record jloci : Type := mkJ {
    j_name : name;
    j_type : string;
    j_def : option jdef;
    j_parents : option (list name);
    j_des : option string
  }.

  Definition loci_to_json (l : loci) : jloci :=
    match l with
    | LValue n v => mkJ n "Value" (Some (JDVal v)) None None
    | LExo n => mkJ n "ExoValue" None None None
    | LDist n f ps => mkJ n "Distribution" (Some (JDText f)) (Some ps) None
    | LFunc n e ps => mkJ n "Function" (Some (JDText e)) (Some ps) None
    | LPseudo n ps => mkJ n "Pseudo" (Some (JDText (pseudo_func ps))) (Some ps) None
    end.

  Definition jtext (j : jloci) : res expr :=
    match j_def j with
    | Some (JDText e) => Ok e
    | Some (JDVal _) => Err TypeError   (* ast.parse of a non-text value *)
    | None => Err KeyError
    end.
  Definition jpars (j : jloci) : res (list name) :=
    match j_parents j with Some ps => Ok ps | None => Err KeyError end.

  (** loci.py:231-244 loci_from_json *)
  Definition loci_from_json (j : jloci) : res loci :=
    if String.eqb (j_type j) "Value" then
      match j_def j with
      | Some (JDVal v) => mk_value (j_name j) v
      | Some (JDText e) => mk_value_text (j_name j) e
      | None => Err KeyError
      end
    else if String.eqb (j_type j) "ExoValue" then Ok (LExo (j_name j))
    else if String.eqb (j_type j) "Function" then
      do e <- jtext j; do ps <- jpars j; mk_func (j_name j) e ps
    else if String.eqb (j_type j) "Distribution" then
      do e <- jtext j; do ps <- jpars j; mk_dist (j_name j) e ps
    else if String.eqb (j_type j) "Pseudo" then
      do e <- jtext j; do ps <- jpars j; mk_pseudo (j_name j) e ps
    else Err AttributeError.
End Loci.

Arguments loci w : clear implicits.
Arguments jloci w : clear implicits.
