(** * Model of PseudoParameterCore (simulation/parcore.py:271-465)

    Pseudo cores live in a heap of their own and are known by their address. Simplifications:
    printing is left out, nobody assigns the attributes Parent and Children from outside;
    the methods asking SG, Actors or ChildrenActors, which are None, always raise and are left out
    (get_sampler, get_actors, get_child_samplers, get_child_actors, freeze, clone). *)

Require Import Coq.ZArith.ZArith.
Require Import Verif.Base Verif.World Verif.ModelSim.

Section Ghost.
  Context {w : world}.
  Local Open Scope nat_scope.

  (** parcore.py:271-274 with 8-16 and chromosome.py:9-11; SG is None in every pseudo core, so it is
      not kept *)
  Record ghost := mkGhost {
    q_nick : name;
    q_group : name;
    q_locus : dict (V w);
    q_lp : LP w;
    q_parent : option nat;
    q_children : dict nat
  }.
  Definition ghosts := list ghost.

  (** parcore.py:272-274 PseudoParameterCore(nickname, group): a new object *)
  Definition ghost_new (nick g : name) : ghost := mkGhost nick g [] (lp_zero w) None [].
  Definition q_new (nick g : name) (h : ghosts) : nat * ghosts := (length h, h ++ [ghost_new nick g]).

  (** change the object at an address *)
  Fixpoint qupd (h : ghosts) (i : nat) (f : ghost -> ghost) : ghosts :=
    match h, i with
    | [], _ => []
    | c :: h', O => f c :: h'
    | c :: h', S i' => c :: qupd h' i' f
    end.
  Definition q_set_children (c : ghost) (d : dict nat) : ghost :=
    mkGhost (q_nick c) (q_group c) (q_locus c) (q_lp c) (q_parent c) d.
  Definition q_set_parent (c : ghost) (p : option nat) : ghost :=
    mkGhost (q_nick c) (q_group c) (q_locus c) (q_lp c) p (q_children c).

  (** parcore.py:280-295 breed: the new core is entered into Children, its Parent stays None *)
  Definition q_breed (h : ghosts) (i : nat) (nick g : name) : res nat * ghosts :=
    match nth_error h i with
    | None => (Err OtherError, h)
    | Some c =>
        if dmem nick (q_children c) then (Err ValueError, h)
        else let (j, h1) := q_new nick g h in
             (Ok j, qupd h1 i (fun c => q_set_children c (dset (q_children c) nick j)))
    end.

  (** parcore.py:297-306 get_sibling and 319-320 duplicate: an object like the others, entered nowhere *)
  Definition q_sibling (h : ghosts) (i : nat) (nick : name) : res nat * ghosts :=
    match nth_error h i with
    | None => (Err OtherError, h)
    | Some c => let (j, h1) := q_new nick (q_group c) h in (Ok j, h1)
    end.
  Definition q_duplicate : ghosts -> nat -> name -> res nat * ghosts := q_sibling.
  (** parcore.py:308-317 get_prototype *)
  Definition q_prototype (h : ghosts) (i : nat) (g : name) : res nat * ghosts :=
    match nth_error h i with
    | None => (Err OtherError, h)
    | Some c => let (j, h1) := q_new "prototype" g h in (Ok j, h1)
    end.

  (** parcore.py:332-344 remove_children: what is returned, None for an unknown name *)
  Definition q_remove (h : ghosts) (i : nat) (k : name) : option nat * ghosts :=
    match nth_error h i with
    | None => (None, h)
    | Some c => (dget (q_children c) k, qupd h i (fun c => q_set_children c (ddel (q_children c) k)))
    end.

  (** parcore.py:322-330 detach_from_parent *)
  Definition q_detach (h : ghosts) (i : nat) : ghosts :=
    match nth_error h i with
    | None => h
    | Some c => match q_parent c with
                | None => h
                | Some p => qupd (snd (q_remove h p (q_nick c))) i (fun c => q_set_parent c None)
                end
    end.

  (** chromosome.py:25-27 __setitem__ *)
  Definition q_set (h : ghosts) (i : nat) (x : name) (v : V w) : ghosts :=
    qupd h i (fun c => mkGhost (q_nick c) (q_group c) (dset (q_locus c) x v) (lp_nan w) (q_parent c) (q_children c)).

  (** parcore.py:432-433 __getitem__ *)
  Definition q_get (h : ghosts) (i : nat) (x : name) : res (V w) := Err KeyError.
  (** parcore.py:425-430 __iter__, one unit of fuel per generation *)
  Fixpoint q_items (fuel : nat) (h : ghosts) (i : nat) : list (name * V w) :=
    match fuel with
    | O => []
    | S f => match nth_error h i with
             | None => []
             | Some c => match q_parent c with Some p => q_items f h p | None => [] end ++ q_locus c
             end
    end.
  (** dict(core): keys() and __getitem__ (chromosome.py:32-33) *)
  Definition q_dict (h : ghosts) (i : nat) : res (dict (V w)) :=
    match nth_error h i with
    | None => Err OtherError
    | Some c => mapM (fun k => do v <- q_get h i k; Ok (k, v)) (dkeys (q_locus c))
    end.
  (** chromosome.py:29-30 __contains__ *)
  Definition q_contains (h : ghosts) (i : nat) (x : name) : bool :=
    match nth_error h i with Some c => dmem x (q_locus c) | None => false end.

  (** parcore.py:365-366 get_child *)
  Definition q_child (h : ghosts) (i : nat) (k : name) : res nat :=
    match nth_error h i with Some c => dgetE (q_children c) k | None => Err OtherError end.
  (** parcore.py:381-393 find_descendant: the first name of the address is not looked at *)
  Definition q_find (h : ghosts) (i : nat) (address : string) : res nat :=
    let names := split_at address in
    if Nat.ltb (length names) 2 then Ok i else foldM (fun sel nm => q_child h sel nm) (tl names) i.

  (** parcore.py:417-423 DeepLogPrior: integers; one unit of fuel per generation *)
  Fixpoint q_prior (fuel : nat) (h : ghosts) (i : nat) : res Z :=
    match fuel with
    | O => Err OtherError
    | S f => match nth_error h i with
             | None => Err OtherError
             | Some c => do ps <- mapM (fun kj => q_prior f h (snd kj)) (q_children c);
                         Ok (0 + fold_left Z.add ps 0)%Z
             end
    end.

  (** parcore.py:395-401 impulse *)
  Definition q_impulse (h : ghosts) (i : nat) (imp : dict (V w)) : ghosts := h.

End Ghost.

Arguments ghost w : clear implicits.
Arguments ghosts w : clear implicits.
