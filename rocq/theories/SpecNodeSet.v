(** * Specification vocabulary for node sets *)

Require Import Verif.Base Verif.World Verif.ModelGraph Verif.ModelExpr Verif.ModelLoci Verif.ModelBN Verif.ModelSample
        Verif.ModelSim Verif.ModelNodeSet Verif.Spec Verif.SpecBN Verif.SpecSim.

(** a tree of node sets contains a node set with these nodes asked to be fixed and floating *)
Inductive asks : nset -> name -> list name -> list name -> Prop :=
| ask_here : forall nm fx fl ks, asks (NSet nm fx fl ks) nm fx fl
| ask_below : forall nm fx fl ks k n x l, In k ks -> asks k n x l -> asks (NSet nm fx fl ks) n x l.

(** all node sets of a request, parents first *)
Fixpoint requests (t : nset) : list (name * list name * list name) :=
  match t with NSet nm fx fl ks => (nm, fx, fl) :: flat_map requests ks end.

Section SpecNodeSet.
  Context {w : world}.

  (** every node named is in the network, and in no node set a node asked to float that is not asked
      to be fixed is an ancestor of one asked to be fixed *)
  Definition valid_request (b : bn w) (t : nset) : Prop :=
    forall nm fx fl, asks t nm fx fl ->
      (forall x, In x fx \/ In x fl -> node b x)
      /\ forall x y, In x fl -> ~ In x fx -> In y fx -> ~ path (dag b) x y.

  (** neither the node nor any of its ancestors is random *)
  Definition deterministic (b : bn w) (n : name) : Prop :=
    ~ random b n /\ forall a, path (dag b) a n -> ~ random b a.
End SpecNodeSet.

(** Below [anc], what a node set takes from outside is fixed in one of the node sets above it. *)
Inductive exo_fixed (anc : name -> Prop) : stree -> Prop :=
| exo_here : forall a sh ks,
    (forall x, In x (a_exo a) -> anc x) ->
    (forall k, In k ks -> exo_fixed (fun x => anc x \/ In x (a_fixed a)) k) ->
    exo_fixed anc (STree a sh ks).

(** A request in which, of several siblings, only the last has children of its own. *)
Inductive slim_request : nset -> Prop :=
| slr : forall nm fx fl ks,
    (forall l1 n x l k l2, ks = l1 ++ NSet n x l k :: l2 -> l2 <> [] -> k = []) -> (forall k, In k ks -> slim_request k) ->
    slim_request (NSet nm fx fl ks).
