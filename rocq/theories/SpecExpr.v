(** * Specification vocabulary for expressions and node definitions *)

Require Import Verif.Base Verif.World Verif.ModelExpr Verif.ModelLoci.

(** [x] stands in [e] as a value (not as the function of a call). *)
Inductive mentions : expr -> name -> Prop :=
| mn_name : forall x, mentions (EName x) x
| mn_op : forall op args a x, In a args -> mentions a x -> mentions (EOp op args) x
| mn_arg : forall f args kws a x, In a args -> mentions a x -> mentions (ECall f args kws) x
| mn_kw : forall f args kws k a x, In (k, a) kws -> mentions a x -> mentions (ECall f args kws) x.

(** [f] is called somewhere in [e]. *)
Inductive calls : expr -> name -> Prop :=
| cl_here : forall f args kws, calls (ECall f args kws) f
| cl_op : forall op args a x, In a args -> calls a x -> calls (EOp op args) x
| cl_arg : forall f args kws a x, In a args -> calls a x -> calls (ECall f args kws) x
| cl_kw : forall f args kws k a x, In (k, a) kws -> calls a x -> calls (ECall f args kws) x.

(** Library functions and operators do not raise NameError themselves. *)
Definition quiet (w : world) : Prop :=
  (forall op vs, w_op w op vs <> Err NameError)
  /\ (forall f vs ks, w_call w f vs ks <> Err NameError).

(** Positional arguments go to the fields in order, missing ones take the default. *)
Definition bound_value (args : list expr) (i : nat) (d : option string) : option expr :=
  match nth_error args i with
  | Some (EStr s) => Some (EName s)        (* the quotes of a text argument are lost *)
  | Some a => Some a
  | None => option_map ENum d
  end.

(** Definitions that can be written to JSON and read back. *)
Definition storable {w : world} (l : loci w) : Prop :=
  match l with
  | LValue _ v => w_code w v = None
  | LExo _ => True
  | LFunc _ e ps => ps = [] -> forall x, mentions e x -> calls e x
  | LDist _ f ps => @complete_def w f = Ok f /\ (ps = [] -> parsed_parents (parse_function f) = Ok [])
  | LPseudo _ ps => ps <> []
  end.
