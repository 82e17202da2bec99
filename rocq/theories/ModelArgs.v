(** * Model of the arguments of parsed functions (util.py:165-268) *)

Require Import Verif.Base Verif.World Verif.ModelExpr.

Section Args.
  Context {w : world}.

  (** util.py:171-181 get_arguments: key and value of each argument, in order. NameError is raised
      again with another message. The text of an operator node is not an expression. *)
  Definition get_arguments (p : parsed) (loc : env w) : res (list (option name * V w)) :=
    mapM (fun a => match a with
                   | PArg k e => do v <- execute e loc; Ok (k, v)
                   | PAop => Err SyntaxError
                   end) (p_args p).

  (** what to_blueprint returns: name, type and arguments *)
  Record bprint := mkBprint { bt_name : name; bt_type : option name; bt_args : list (option name * V w) }.
  (** util.py:183-188 ParsedFunction.to_blueprint *)
  Definition pf_blueprint (p : parsed) (nm : name) (loc : env w) : res bprint :=
    do args <- get_arguments p loc; Ok (mkBprint nm (p_fun p) args).

  (** what to_json returns; an argument is a value or, when a name is missing, its text *)
  Record fjson := mkFjson { fj_source : expr; fj_type : option name; fj_args : list (V w + expr) }.
  (** util.py:194-199 ParsedFunction.to_json *)
  Definition pf_json (p : parsed) (loc : env w) : res fjson :=
    do args <- mapM (fun a => match a with PArg _ e => math_call e loc | PAop => Err SyntaxError end) (p_args p);
    Ok (mkFjson (p_source p) (p_fun p) args).

  (** util.py:240-244 EvaluatedFunction *)
  Record evaluated := mkEvaluated { ef_source : expr; ef_fun : option name; ef_args : list (option name * V w) }.
  (** util.py:266-268 evaluate_function *)
  Definition evaluate_function (p : parsed) (loc : env w) : res evaluated :=
    do args <- get_arguments p loc; Ok (mkEvaluated (p_source p) (p_fun p) args).
  (** util.py:246-251 EvaluatedFunction.to_blueprint *)
  Definition ef_blueprint (e : evaluated) (nm : name) : bprint := mkBprint nm (ef_fun e) (ef_args e).
  (** util.py:253-258 EvaluatedFunction.to_json *)
  Definition ef_json (e : evaluated) : fjson := mkFjson (ef_source e) (ef_fun e) (map (fun kv => inl (snd kv)) (ef_args e)).
End Args.

Arguments bprint w : clear implicits.
Arguments fjson w : clear implicits.
Arguments evaluated w : clear implicits.
