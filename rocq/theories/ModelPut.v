(** * Model of what is done to cores from outside: put_local_actors, put_shared_actors_on_parent,
      put_shared_actors (simugroup.py), reset_sc (parcore.py)

    As in ModelSim an actor is known by its place. A sampler made before actors are put again keeps, in
    Python, the old actor object; such samplers are not followed here. *)

Require Import Verif.Base Verif.World Verif.ModelGraph Verif.ModelExpr Verif.ModelLoci Verif.ModelBN Verif.ModelSample Verif.ModelSim.

Section Put.
  Context {w : world}.

  (** simugroup.py:62-67 put_local_actors; an exception comes before the assignment *)
  Definition put_local_actors (sc : simcore w) (g : group) (i : nat) (h : cores w) (r : RNG w) : res unit * cores w * RNG w :=
    match make_actors (sc_bn sc) (lookup h i) (g_local g) r with
    | (Err e, r') => (Err e, h, r')
    | (Ok acts, r') => (Ok tt, kupd h i (fun c => set_actors c acts), r')
    end.

  (** simugroup.py:69-76 put_shared_actors_on_parent *)
  Definition put_shared_on_parent (sc : simcore w) (g : group) (p : nat) (h : cores w) (r : RNG w) : res unit * cores w * RNG w :=
    match make_actors (sc_bn sc) (lookup h p) (g_shared g) r with
    | (Err e, r') => (Err e, h, r')
    | (Ok acts, r') =>
        (Ok tt, kupd h p (fun pc => set_chactors pc
           (dset (match k_chactors pc with Some d => d | None => [] end) (g_name g) acts)), r')
    end.

  (** simugroup.py:78-82 put_shared_actors *)
  Definition put_shared_actors (sc : simcore w) (g : group) (i : nat) (h : cores w) (r : RNG w) : res unit * cores w * RNG w :=
    match nth_error h i with
    | None => (Err OtherError, h, r)
    | Some c => match k_parent c with
                | None => (Err AttributeError, h, r)
                | Some p => put_shared_on_parent sc g p h r
                end
    end.

  (** Cores with the simulation cores their groups (SG) belong to: [own] gives, for each core, the position
      of its simulation core among all there are. *)
  Fixpoint replace (own : list nat) (i s : nat) : list nat :=
    match own, i with
    | [], _ => []
    | _ :: own', O => s :: own'
    | x :: own', S i' => x :: replace own' i' s
    end.
  (** parcore.py:207-210 reset_sc: the call for a child passes one argument too many *)
  Definition reset_sc (scs : list (simcore w)) (h : cores w) (own : list nat) (i s : nat) : res unit * list nat :=
    match nth_error h i, nth_error scs s with
    | Some c, Some sc =>
        match dget (sc_groups sc) (k_group c) with
        | None => (Err KeyError, own)
        | Some _ => (match k_children c with [] => Ok tt | _ :: _ => Err TypeError end, replace own i s)
        end
    | _, _ => (Err OtherError, own)
    end.
End Put.
