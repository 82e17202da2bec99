(** * Model of node sets as objects: making, extending, injecting and defrosting them
      (simulation/nodeset.py:40-87) and simulation cores made from them (simulation/simucore.py)

    Node sets live in a heap and are known by their address. The allocation itself is that of
    ModelNodeSet. Injecting writes the attributes of all node sets below, and never their names,
    requests, parents or children. Two cases are left open by the parameter [wild], which says how
    the call ends and which attributes it leaves: an injection below a parent or of node sets that
    are not a tree, and what an injection that raises on its way leaves behind.
    A simulation core copies the lists of a node set, and the dicts of its samplers are replaced and
    not changed by a later injection, so simulation cores are values here. *)

Require Import Verif.Base Verif.World Verif.ModelGraph Verif.ModelExpr Verif.ModelLoci Verif.ModelBN Verif.ModelSample
        Verif.ModelSim Verif.ModelNodeSet.

(** The attributes an injection sets. nodeset.py:48-56: all None; nodeset.py:59-68: None but for
    empty samplers; else as allocated *)
Inductive attrs := Unset | Cleared | Given (a : alloc).

(** nodeset.py:40-57 NodeSet *)
Record nobj := mkNobj {
  o_name : name;
  o_fix : list name;
  o_flo : list name;
  o_parent : option nat;
  o_kids : dict nat;
  o_attrs : attrs;
  o_frozen : bool
}.
Definition nheap := list nobj.

(** change the object at an address *)
Fixpoint nupd (h : nheap) (i : nat) (f : nobj -> nobj) : nheap :=
  match h, i with
  | [], _ => []
  | o :: h', O => f o :: h'
  | o :: h', S i' => o :: nupd h' i' f
  end.

(** nodeset.py:40-57 NodeSet(name, as_fixed, as_floating); the lists become sets *)
Definition n_new (nm : name) (fx fl : list name) (h : nheap) : nat * nheap :=
  (length h, h ++ [mkNobj nm (to_set fx) (to_set fl) None [] Unset false]).

(** nodeset.py:59-69 defrost: this node set only *)
Definition n_defrost (i : nat) (h : nheap) : nheap :=
  nupd h i (fun o => mkNobj (o_name o) (o_fix o) (o_flo o) (o_parent o) (o_kids o) Cleared false).

(** nodeset.py:71-74 add_child *)
Definition n_add (i j : nat) (h : nheap) : res unit * nheap :=
  match nth_error h i, nth_error h j with
  | Some o, Some c =>
      if o_frozen o then (Err AssertionError, h)
      else (Ok tt, nupd (nupd h i (fun o => mkNobj (o_name o) (o_fix o) (o_flo o) (o_parent o) (dset (o_kids o) (o_name c) j) (o_attrs o) (o_frozen o)))
                        j (fun c => mkNobj (o_name c) (o_fix c) (o_flo c) (Some i) (o_kids c) (o_attrs c) (o_frozen c)))
  | _, _ => (Err OtherError, h)
  end.

(** nodeset.py:76-79 new_child: the new object is made first *)
Definition n_child (i : nat) (nm : name) (fx fl : list name) (h : nheap) : res nat * nheap :=
  let (j, h1) := n_new nm fx fl h in
  match n_add i j h1 with
  | (Ok _, h2) => (Ok j, h2)
  | (Err e, h2) => (Err e, h2)
  end.

(** the node sets reached from one through Children (nodeset.py:82-83), as far as [fuel] *)
Inductive ntree := NT (i : nat) (kids : list ntree).
Definition mapO {A B : Type} (f : A -> option B) : list A -> option (list B) :=
  fix go l := match l with
              | [] => Some []
              | x :: l' => match f x, go l' with Some y, Some r => Some (y :: r) | _, _ => None end
              end.
Fixpoint tree_of (fuel : nat) (h : nheap) (i : nat) : option ntree :=
  match fuel with
  | O => None
  | S f => match nth_error h i with
           | None => None
           | Some o => match mapO (fun kj => tree_of f h (snd kj)) (o_kids o) with
                       | Some ks => Some (NT i ks)
                       | None => None
                       end
           end
  end.
Fixpoint ids (t : ntree) : list nat :=
  match t with NT i ks => i :: (fix go l := match l with [] => [] | k :: l' => ids k ++ go l' end) ks end.
(** what the injection reads of these node sets *)
Fixpoint request (h : nheap) (t : ntree) : nset :=
  match t with
  | NT i ks =>
      let ks' := (fix go l := match l with [] => [] | k :: l' => request h k :: go l' end) ks in
      match nth_error h i with
      | Some o => NSet (o_name o) (o_fix o) (o_flo o) ks'
      | None => NSet "" [] [] ks'
      end
  end.
(** which object gets which allocation *)
Fixpoint pairing (t : ntree) (s : stree) : list (nat * alloc) :=
  match t, s with
  | NT i ks, STree a _ ss =>
      (i, a) :: (fix go l m := match l, m with k :: l', s' :: m' => pairing k s' ++ go l' m' | _, _ => [] end) ks ss
  end.

Definition set_attrs (o : nobj) (a : attrs) : nobj := mkNobj (o_name o) (o_fix o) (o_flo o) (o_parent o) (o_kids o) a (o_frozen o).
Definition freeze (o : nobj) : nobj := mkNobj (o_name o) (o_fix o) (o_flo o) (o_parent o) (o_kids o) (o_attrs o) true.
Definition write (h : nheap) (l : list (nat * alloc)) : nheap :=
  fold_left (fun h p => nupd h (fst p) (fun o => set_attrs o (Given (snd p)))) l h.
(** attributes left in some other way *)
Fixpoint leave (h : nheap) (n : nat) (f : nat -> attrs) : nheap :=
  match h with [] => [] | o :: h' => set_attrs o (f n) :: leave h' (S n) f end.

Fixpoint nodupb (l : list nat) : bool :=
  match l with [] => true | x :: l' => negb (existsb (Nat.eqb x) l') && nodupb l' end.

Section Life.
  Context {w : world}.
  Context (wild : bn w -> nheap -> nat -> res unit * (nat -> attrs)).

  (** nodeset.py:89-104 inject_bn *)
  Definition n_inject (b : bn w) (i : nat) (h : nheap) : res unit * nheap :=
    match nth_error h i with
    | None => (Err OtherError, h)
    | Some o =>
        if o_frozen o then (Err AssertionError, h)
        else match o_parent o, tree_of (length h) h i with
             | None, Some t =>
                 if nodupb (ids t)
                 then match validate (dag b) (request h t) with
                      | Err e => (Err e, h)
                      | Ok false => (Err AssertionError, h)
                      | Ok true =>
                          match inject b (request h t) with
                          | Ok s => (Ok tt, nupd (write h (pairing t s)) i freeze)
                          | Err e => (Err e, leave h 0 (snd (wild b h i)))
                          end
                      end
                 else (fst (wild b h i), let h' := leave h 0 (snd (wild b h i)) in
                                         match fst (wild b h i) with Ok _ => nupd h' i freeze | Err _ => h' end)
             | _, _ => (fst (wild b h i), let h' := leave h 0 (snd (wild b h i)) in
                                          match fst (wild b h i) with Ok _ => nupd h' i freeze | Err _ => h' end)
             end
    end.
End Life.

(** simugroup.py:7-18 SimulationGroup(ns): list(None) raises TypeError unless ns has been injected *)
Definition n_group (o : nobj) : res group :=
  match o_attrs o with
  | Given a => Ok (mkGroup (o_name o) (dkeys (o_kids o)) (a_exo a) (a_fixed a) (a_local a) (a_shared a))
  | _ => Err TypeError
  end.
(** simucore.py:9-20 get_simulation_groups, along Children *)
Fixpoint n_groups (fuel : nat) (h : nheap) (i : nat) (d : dict group) : res (dict group) :=
  match fuel with
  | O => Err OtherError
  | S f => match nth_error h i with
           | None => Err OtherError
           | Some o => do g <- n_group o;
                       foldM (fun d kj => n_groups f h (snd kj) d) (o_kids o) (dset d (o_name o) g)
           end
  end.
(** simucore.py:24-31 SimulationCore(bn, root), and 62-63 clone, which makes one again from the same
    node set *)
Definition n_core {w : world} (b : bn w) (i : nat) (h : nheap) : res (simcore w) :=
  match nth_error h i with
  | None => Err OtherError
  | Some o => do gs <- n_groups (length h) h i []; Ok (mkSC b (o_name o) gs)
  end.
