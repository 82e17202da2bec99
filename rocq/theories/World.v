(** * The outside world: everything the package obtains from Python, numpy, scipy
      and pydantic, as a record of uninterpreted operations.

    No law is assumed about any field; theorems quantify over all worlds (a few
    theorems assume, explicitly, a named law). *)

Require Import Verif.Base.

Record world : Type := mkWorld {
  V : Type;                                   (* Python values *)
  Dist : Type;                                (* frozen distributions (prob.py ScipyRV etc.) *)
  RNG : Type;                                 (* state of numpy's generator *)
  LP : Type;                                  (* log-probabilities (floats incl. nan, inf) *)

  w_num : string -> V;                        (* numeric / boolean literal *)
  w_str : string -> V;                        (* string literal *)
  w_op : string -> list V -> res V;           (* arithmetic, comparison, unary operators *)
  w_call : V -> list V -> list (name * V) -> res V;  (* calling an object *)
  w_math : name -> option V;                  (* util.py:24-41 MATH_FUNC *)
  w_builtin : name -> option V;               (* Python builtins reachable from eval *)
  w_is_none : V -> bool;                      (* v is None *)
  w_none : V;                                 (* None *)
  w_code : V -> option (res V);               (* Some r: v is a str and eval(v, MATH_FUNC) gives r *)

  w_creator : name -> option V;               (* Atelier.Creators[name], the class object *)
  w_schema : name -> option (list (name * option string));
                                              (* Creators[name].schema()['properties']: field, default text *)
  w_create : V -> res Dist;                   (* bp.create() *)
  w_sample : Dist -> RNG -> V * RNG;          (* dist.sample() *)
  w_logpdf : Dist -> V -> LP;                 (* dist.logpdf(v) *)

  lp_zero : LP;
  lp_add : LP -> LP -> LP;
  lp_ninf : LP;                               (* -inf *)
  lp_nan : LP;                                (* nan *)
  lp_isnan : LP -> bool                       (* np.isnan *)
}.

(** A readable mapping: [pas[name]], [None] standing for KeyError. *)
Definition env (w : world) : Type := name -> option (V w).
