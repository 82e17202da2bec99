(** * Model of the samplers of parameter cores (parcore.py:95-139, actor.py:99-129)

    A sampler is the place of its actor and the address of its core, as in ModelSim. *)

Require Import Coq.ZArith.ZArith.
Require Import Verif.Base Verif.World Verif.ModelGraph Verif.ModelExpr Verif.ModelLoci Verif.ModelBN Verif.ModelSample Verif.ModelSim.

Section Draw.
  Context {w : world}.

  (** what Sampler.sample returns: a value or a list *)
  Inductive drawn := One (v : V w) | Many (vs : list (V w)).

  (** actor.py:129: the calls of the list comprehension, the first exception ends it *)
  Fixpoint draw_calls (n : nat) (h : cores w) (p : place) (i : nat) (r : RNG w) : res (list (V w)) * RNG w :=
    match n with
    | O => (Ok [], r)
    | S m => match call_sampler h p i r with
             | (Err e, r') => (Err e, r')
             | (Ok v, r') => match draw_calls m h p i r' with
                             | (Ok vs, r2) => (Ok (v :: vs), r2)
                             | (Err e, r2) => (Err e, r2)
                             end
             end
    end.
  (** actor.py:120-129 Sampler.sample; no core is changed *)
  Definition sampler_sample (h : cores w) (p : place) (i : nat) (n : Z) (r : RNG w) : res drawn * RNG w :=
    let n := Z.max n 1 in
    if Z.eqb n 1
    then match call_sampler h p i r with (Ok v, r') => (Ok (One v), r') | (Err e, r') => (Err e, r') end
    else match draw_calls (Z.to_nat n) h p i r with (Ok vs, r') => (Ok (Many vs), r') | (Err e, r') => (Err e, r') end.

  (** the name under which get_actors returns the actor at a place *)
  Definition key_of (q : place) : name := match q with PLocal _ k => k | PShared _ _ k => k end.

  (** parcore.py:95-96 list_actors *)
  Definition list_actors (sc : simcore w) (h : cores w) (i : nat) (shared : bool) (r : RNG w)
    : res (list name) * cores w * RNG w :=
    match get_actors sc h i shared r with
    | (Ok ps, h', r') => (Ok (map key_of ps), h', r')
    | (Err e, h', r') => (Err e, h', r')
    end.

  (** parcore.py:119-127 get_sampler *)
  Definition get_sampler (sc : simcore w) (h : cores w) (i : nat) (k : name) (shared : bool) (r : RNG w)
    : res place * cores w * RNG w :=
    match get_actors sc h i shared r with
    | (Err e, h', r') => (Err e, h', r')
    | (Ok ps, h', r') =>
        match find (fun q => String.eqb (key_of q) k) ps with
        | None => (Err KeyError, h', r')
        | Some q => match new_sampler h' q i r' with
                    | (Ok _, h2, r2) => (Ok q, h2, r2)
                    | (Err e, h2, r2) => (Err e, h2, r2)
                    end
        end
    end.

  (** parcore.py:117: a sampler for one actor after the other, the first exception ends it *)
  Fixpoint all_samplers (ps : list place) (i : nat) (h : cores w) (r : RNG w) : res unit * cores w * RNG w :=
    match ps with
    | [] => (Ok tt, h, r)
    | q :: ps' => match new_sampler h q i r with
                  | (Ok _, h', r') => all_samplers ps' i h' r'
                  | o => o
                  end
    end.
  (** parcore.py:115-117 get_samplers *)
  Definition get_samplers (sc : simcore w) (h : cores w) (i : nat) (shared : bool) (r : RNG w)
    : res (list place) * cores w * RNG w :=
    match get_actors sc h i shared r with
    | (Err e, h', r') => (Err e, h', r')
    | (Ok ps, h', r') => match all_samplers ps i h' r' with
                         | (Ok _, h2, r2) => (Ok ps, h2, r2)
                         | (Err e, h2, r2) => (Err e, h2, r2)
                         end
    end.

  (** parcore.py:132-139 get_child_samplers: ChildrenActors is None at first, which has no items; the
      method get_shared_actors of a missing group does not exist *)
  Definition get_child_samplers (sc : simcore w) (h : cores w) (i : nat) (gn : name) : res (list place) :=
    match nth_error h i, group_of sc h i with
    | Some c, Some g =>
        if negb (mem gn (g_children g)) then Err AssertionError
        else match k_chactors c with
             | None => Err TypeError
             | Some d => match dget d gn with
                         | Some e => Ok (map (PShared i gn) (dkeys e))
                         | None => match dget (sc_groups sc) gn with
                                   | None => Err KeyError
                                   | Some _ => Err AttributeError
                                   end
                         end
             end
    | _, _ => Err OtherError
    end.
End Draw.

Arguments drawn w : clear implicits.
