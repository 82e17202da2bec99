(** * Model of the workshops as mutable objects: factory/craftstation.py (Atelier) and
      factory/__init__.py (get_atelier) *)

Require Import Verif.Base Verif.World Verif.ModelExpr.

Section Registry.
  (** [C]: the registered creator classes; [cls c]: the class as a Python value;
      [fields c]: c.schema()['properties']; [bdict]: the dict of Python's builtins *)
  Context {w : world} {C : Type} (cls : C -> V w) (fields : C -> list (name * option string)) (bdict : V w).

  (** values of the dict Creators (craftstation.py:17): a registered class, or the dict of
      builtins that Python's eval stores under '__builtins__' *)
  Inductive entry := Creator (c : C) | Builtins.
  Definition workshop := dict entry.

  (** craftstation.py:16-17 __init__ *)
  Definition atelier_new : workshop := [].

  (** craftstation.py:19-20 register *)
  Definition register (ws : workshop) (n : name) (c : C) : workshop := dset ws n (Creator c).

  (** Creators[n] as a Python value *)
  Definition entry_obj (e : entry) : V w := match e with Creator c => cls c | Builtins => bdict end.
  Definition creators (ws : workshop) : env w := fun n => option_map entry_obj (dget ws n).

  (** the world whose creators are those of this workshop (for [complete_def] of ModelExpr) *)
  Definition in_shop (ws : workshop) : world :=
    mkWorld (V w) (Dist w) (RNG w) (LP w) (w_num w) (w_str w) (w_op w) (w_call w) (w_math w) (w_builtin w)
      (w_is_none w) (w_none w) (w_code w) (creators ws)
      (fun n => match dget ws n with Some (Creator c) => Some (fields c) | _ => None end)
      (w_create w) (w_sample w) (w_logpdf w) (lp_zero w) (lp_add w) (lp_ninf w) (lp_nan w) (lp_isnan w).

  (** craftstation.py:22-56 complete_def; the dict of builtins has no method schema *)
  Definition ws_complete (ws : workshop) (e : expr) : res expr :=
    match first_call (walk e) with
    | Some (tp, _, _) => match dget ws tp with
                         | Some Builtins => Err AttributeError
                         | _ => complete_def (w := in_shop ws) e
                         end
    | None => complete_def (w := in_shop ws) e
    end.

  (** Python's eval(code, globals, locals) puts '__builtins__' into the dict of globals when
      it has none. Simplification: a class registered under that name does not hide the builtins. *)
  Definition with_builtins (ws : workshop) : workshop :=
    if dmem "__builtins__" ws then ws else dset ws "__builtins__" Builtins.

  (** craftstation.py:58-61 get_blueprint: the outcome and the workshop left behind *)
  Definition ws_blueprint (ws : workshop) (e : expr) (loc : env w) (to_complete : bool) : res (V w) * workshop :=
    match (if to_complete then ws_complete ws e else Ok e) with
    | Err x => (Err x, ws)
    | Ok c => let ws' := with_builtins ws in (eval (creators ws') loc c, ws')
    end.

  (** craftstation.py:63-79 create (for the attributes source and json of the product see ModelDescr) *)
  Definition ws_create (ws : workshop) (e : expr) (loc : env w) (to_complete : bool) : res (Dist w) * workshop :=
    let (bp, ws') := ws_blueprint ws e loc to_complete in (do b <- bp; w_create w b, ws').

  (** craftstation.py:81-82 get_schema *)
  Definition get_schema (ws : workshop) (tp : name) : res (list (name * option string)) :=
    match dget ws tp with
    | Some (Creator c) => Ok (fields c)
    | Some Builtins => Err AttributeError
    | None => Err KeyError
    end.

  (** craftstation.py:84-85 list, 87-88 __contains__ *)
  Definition ws_list (ws : workshop) : list name := dkeys ws.
  Definition ws_contains (ws : workshop) (n : name) : bool := dmem n ws.

  (** craftstation.py:90-95 __str__ *)
  Definition ws_str (ws : workshop) : string :=
    match dkeys ws with
    | [] => "A new workshop"
    | ns => "The workshop of " ++ String.concat ", " ns
    end.

  (** factory/__init__.py:6 AtelierDict; the workshops are objects, named by their position in
      the list of all workshops made so far *)
  Record registry := mkReg { r_names : dict nat; r_shops : list workshop }.
  Definition reg_new : registry := mkReg [] [].

  (** factory/__init__.py:9-17 get_atelier; [None] is an argument that is not a str *)
  Definition get_atelier (n : option name) (r : registry) : res nat * registry :=
    match n with
    | None => (Err AssertionError, r)
    | Some s => match dget (r_names r) s with
                | Some h => (Ok h, r)
                | None => let h := length (r_shops r) in
                          (Ok h, mkReg (dset (r_names r) s h) (r_shops r ++ [atelier_new]))
                end
    end.

  (** the workshop object [h], and the registry after its state has changed *)
  Definition shop_at (r : registry) (h : nat) : workshop := nth h (r_shops r) atelier_new.
  Fixpoint update {A : Type} (l : list A) (i : nat) (x : A) : list A :=
    match l, i with
    | [], _ => []
    | _ :: l', O => x :: l'
    | y :: l', S i' => y :: update l' i' x
    end.
  Definition set_shop (r : registry) (h : nat) (ws : workshop) : registry := mkReg (r_names r) (update (r_shops r) h ws).

  (** what users do: look a workshop up by name, and register, ask for a blueprint or create there.
      Reading (list, in, str, get_schema, complete_def) changes nothing. *)
  Inductive rop :=
  | RGet (s : name)
  | RRegister (s n : name) (c : C)
  | RBlueprint (s : name) (e : expr) (loc : env w) (to_complete : bool)
  | RCreate (s : name) (e : expr) (loc : env w) (to_complete : bool).
  Definition rop_shop (o : rop) : name :=
    match o with RGet s | RRegister s _ _ | RBlueprint s _ _ _ | RCreate s _ _ _ => s end.
  Definition rop_do (o : rop) (ws : workshop) : workshop :=
    match o with
    | RGet _ => ws
    | RRegister _ n c => register ws n c
    | RBlueprint _ e loc tc => snd (ws_blueprint ws e loc tc)
    | RCreate _ e loc tc => snd (ws_create ws e loc tc)
    end.
  Definition reg_do (o : rop) (r : registry) : registry :=
    match get_atelier (Some (rop_shop o)) r with
    | (Ok h, r') => set_shop r' h (rop_do o (shop_at r' h))
    | (Err _, r') => r'
    end.
  Definition reg_run (os : list rop) (r : registry) : registry := fold_left (fun r o => reg_do o r) os r.

  (** the workshop that get_atelier(s) gives *)
  Definition shop (r : registry) (s : name) : workshop :=
    match get_atelier (Some s) r with (Ok h, r') => shop_at r' h | (Err _, _) => atelier_new end.
End Registry.
Arguments entry C : clear implicits.
Arguments workshop C : clear implicits.
Arguments registry C : clear implicits.
Arguments rop w C : clear implicits.
