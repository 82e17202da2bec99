(** * Model of expressions: util.py (parents, execution, parse_function) and
      factory/craftstation.py (complete_def, get_blueprint, create) *)

Require Import Verif.Base Verif.World.

(** Abstract syntax of the Python expressions accepted in definitions. Text is
    represented by its syntax tree (the Python parser and [ast.unparse] are trusted
    to be inverse to each other). Simplification: operators are strict n-ary
    operators; calls have a plain name as function; no attribute access,
    subscripts, lambdas, comprehensions or short-circuit operators. *)
Inductive expr : Type :=
| ENum (s : string)
| EStr (s : string)
| EName (x : name)
| EOp (op : string) (args : list expr)
| ECall (f : name) (args : list expr) (kws : list (name * expr)).

(** Names occurring as ast.Name nodes (the function of a call is one of them) and
    names of called functions: util.py:110-118 find_ast_parents collects them in two
    sets, so the walk order is irrelevant. *)
Fixpoint enames (e : expr) : list name :=
  match e with
  | ENum _ | EStr _ => []
  | EName x => [x]
  | EOp _ args => flat_map enames args
  | ECall f args kws => f :: flat_map enames args ++ flat_map (fun p => enames (snd p)) kws
  end.
Fixpoint fnames (e : expr) : list name :=
  match e with
  | ENum _ | EStr _ | EName _ => []
  | EOp _ args => flat_map fnames args
  | ECall f args kws => f :: flat_map fnames args ++ flat_map (fun p => fnames (snd p)) kws
  end.

(** util.py:110-122 find_ast_parents / parse_parents: (v - f, f) *)
Definition evars (e : expr) : list name := diff (to_set (enames e)) (fnames e).
Definition parse_parents (e : expr) : list name * list name := (evars e, to_set (fnames e)).

Section Eval.
  Context {w : world}.

  (** Name lookup of eval(code, globals, locals): locals, globals, builtins. *)
  Definition lookup (globals loc : env w) (x : name) : res (V w) :=
    match loc x with
    | Some v => Ok v
    | None => match globals x with
              | Some v => Ok v
              | None => match w_builtin w x with
                        | Some v => Ok v
                        | None => Err NameError
                        end
              end
    end.

  (** Python evaluation: function first, then arguments left to right, then keywords. *)
  Fixpoint eval (globals loc : env w) (e : expr) : res (V w) :=
    match e with
    | ENum s => Ok (w_num w s)
    | EStr s => Ok (w_str w s)
    | EName x => lookup globals loc x
    | EOp op args =>
        do vs <- (fix evals l := match l with
                                 | [] => Ok []
                                 | a :: l' => do v <- eval globals loc a; do vs <- evals l'; Ok (v :: vs)
                                 end) args;
        w_op w op vs
    | ECall f args kws =>
        do fv <- lookup globals loc f;
        do vs <- (fix evals l := match l with
                                 | [] => Ok []
                                 | a :: l' => do v <- eval globals loc a; do vs <- evals l'; Ok (v :: vs)
                                 end) args;
        do ks <- (fix evalk l := match l with
                                 | [] => Ok []
                                 | (k, a) :: l' => do v <- eval globals loc a; do vs <- evalk l'; Ok ((k, v) :: vs)
                                 end) kws;
        w_call w fv vs ks
    end.

  (** util.py:137-139 MathExpression.execute *)
  Definition execute (e : expr) (loc : env w) : res (V w) := eval (w_math w) loc e.

  (** util.py:145-146 MathExpression.is_executable *)
  Definition is_executable (e : expr) (loc : env w) : bool :=
    forallb (fun v => match loc v with Some _ => true | None => false end) (evars e)
    && forallb (fun f => match w_math w f with Some _ => true | None => false end) (fnames e).

  (** util.py:131-135 MathExpression.__call__: the value, or the text when a name is missing *)
  Definition math_call (e : expr) (loc : env w) : res (V w + expr) :=
    match execute e loc with
    | Ok v => Ok (inl v)
    | Err NameError => Ok (inr e)
    | Err x => Err x
    end.
End Eval.

(** ** parse_function (util.py:207-237) *)

(** Nodes visited by ast.walk. Operator nodes (Add, ...) and the Load context of a
    Name are nodes of their own; Module and Expr wrappers carry no information. *)
Inductive anode : Type :=
| AE (e : expr)
| AKw (k : name) (e : expr)
| ALoad
| AOp (op : string).

(** ast.iter_child_nodes *)
Definition achildren (n : anode) : list anode :=
  match n with
  | AE (ENum _) | AE (EStr _) | ALoad | AOp _ => []
  | AE (EName _) => [ALoad]
  | AE (EOp op [a]) => [AOp op; AE a]              (* UnaryOp: op, operand *)
  | AE (EOp op (a :: rest)) => AE a :: AOp op :: map AE rest  (* BinOp / Compare: left, op, right *)
  | AE (EOp op []) => [AOp op]
  | AE (ECall f args kws) => AE (EName f) :: map AE args ++ map (fun p => AKw (fst p) (snd p)) kws
  | AKw _ e => [AE e]
  end.

(** number of nodes, bounds the walk *)
Fixpoint esize (e : expr) : nat :=
  match e with
  | ENum _ | EStr _ => 1
  | EName _ => 2
  | EOp _ args => 2 + fold_right (fun a n => esize a + n) 0 args
  | ECall _ args kws => 3 + fold_right (fun a n => esize a + n) 0 args
                          + fold_right (fun p n => S (esize (snd p)) + n) 0 kws
  end.

(** ast.walk: breadth first *)
Fixpoint awalk (fuel : nat) (todo : list anode) : list anode :=
  match fuel with
  | O => []
  | S f => match todo with
           | [] => []
           | n :: rest => n :: awalk f (rest ++ achildren n)
           end
  end.
Definition walk (e : expr) : list anode := awalk (esize e) [AE e].

(** one parsed argument: optional key and value; [PAop] is the junk entry produced for
    an operator node when the text is not a plain call (ast.unparse of an operator) *)
Inductive parg : Type :=
| PArg (key : option name) (e : expr)
| PAop.

Record parsed := mkParsed { p_source : expr; p_fun : option name; p_args : list parg }.

(** util.py:218-236, after the first Name *)
Fixpoint parse_args (l : list anode) (keylock : bool) : list parg :=
  match l with
  | [] => []
  | ALoad :: _ => []
  | AKw k e :: l' => PArg (Some k) e :: parse_args l' true
  | AE e :: l' => if keylock then parse_args l' keylock else PArg None e :: parse_args l' keylock
  | AOp _ :: l' => if keylock then parse_args l' keylock else PAop :: parse_args l' keylock
  end.
(** util.py:214-221, up to the first Name *)
Fixpoint parse_start (l : list anode) : option name * list parg :=
  match l with
  | [] => (None, [])
  | AE (EName x) :: l' => (Some x, parse_args l' false)
  | _ :: l' => parse_start l'
  end.
(** util.py:207-237 parse_function *)
Definition parse_function (e : expr) : parsed :=
  let (f, args) := parse_start (walk e) in mkParsed e f args.

Definition parg_vars (a : parg) : list name := match a with PArg _ e => evars e | PAop => [] end.

(** util.py:190-192 ParsedFunction.Parents *)
Definition parsed_parents (p : parsed) : res (list name) := set_union_star (map parg_vars (p_args p)).

(** ** factory/craftstation.py *)

(** first ast.Call of the breadth-first walk (craftstation.py:23-28) *)
Fixpoint first_call (l : list anode) : option (name * list expr * list (name * expr)) :=
  match l with
  | [] => None
  | AE (ECall f args kws) :: _ => Some (f, args, kws)
  | _ :: l' => first_call l'
  end.

(** craftstation.py:33 and 51: the text of a positional argument inside the rebuilt call.
    [arg.value] of a string constant loses its quotes, so it is read back as a name.
    Simplification: the string is assumed to be an identifier. *)
Definition arg_text (a : expr) : expr := match a with EStr s => EName s | _ => a end.

(** craftstation.py:45-51: assign positional arguments to the unnamed fields *)
Fixpoint fill_fields (fields : list (name * option string)) (args : list expr) : res (list (name * expr)) :=
  match fields with
  | [] => Ok []
  | (k, d) :: fields' =>
      match args with
      | a :: args' => do rest <- fill_fields fields' args'; Ok ((k, arg_text a) :: rest)
      | [] => match d with
              | Some t => do rest <- fill_fields fields' []; Ok ((k, ENum t) :: rest)
              | None => Err KeyError     (* v['default'] *)
              end
      end
  end.

Section Atelier.
  Context {w : world}.

  (** craftstation.py:22-56 complete_def *)
  Definition complete_def (e : expr) : res expr :=
    match first_call (walk e) with
    | None => Err AttributeError
    | Some (tp, args, kws) =>
        match w_schema w tp with
        | None => Err KeyError
        | Some req =>
            let named := map fst kws in
            let unnamed := filter (fun p => negb (mem (fst p) named)) req in
            match unnamed with
            | [] => Ok e
            | _ => do temp <- fill_fields unnamed args; Ok (ECall tp [] (temp ++ kws))
            end
        end
    end.

  (** craftstation.py:58-61 get_blueprint (to_complete = True) *)
  Definition get_blueprint (e : expr) (loc : env w) : res (V w) :=
    do c <- complete_def e; eval (w_creator w) loc c.

  (** craftstation.py:63-79 create; prob.py parse_distribution is this with the
      'dist' atelier *)
  Definition parse_distribution (e : expr) (loc : env w) : res (Dist w) :=
    do bp <- get_blueprint e loc; w_create w bp.
End Atelier.
