(** * Independent specification vocabulary: paths, acyclicity, orders.

    Nothing here mentions the functions of the model; a graph is only read through
    its node list and its edge list. *)

Require Import Verif.Base Verif.ModelGraph.

(** There is an edge from [a] to [b]. *)
Definition edge (g : graph) (a b : name) : Prop := In (a, b) (gedges g).

(** A directed path with at least one edge. *)
Inductive path (g : graph) : name -> name -> Prop :=
| path_edge : forall a b, edge g a b -> path g a b
| path_step : forall a b c, edge g a b -> path g b c -> path g a c.

Definition acyclic (g : graph) : Prop := forall x, ~ path g x x.

(** A networkx graph: no duplicates, edges connect existing nodes. *)
Record wf (g : graph) : Prop := mkWf {
  wf_nodes : NoDup (gnodes g);
  wf_edges : NoDup (gedges g);
  wf_src : forall a b, edge g a b -> In a (gnodes g);
  wf_dst : forall a b, edge g a b -> In b (gnodes g)
}.

(** [a] occurs before [b] in [l]. *)
Definition before {A} (l : list A) (a b : A) : Prop :=
  exists l1 l2 l3, l = l1 ++ a :: l2 ++ b :: l3.

(** [l] lists exactly the members of [P] once each. *)
Definition lists {A} (l : list A) (P : A -> Prop) : Prop :=
  NoDup l /\ forall x, In x l <-> P x.

(** Topological order of the nodes in [P]: each once, and parents first. *)
Definition topo (g : graph) (l : list name) (P : name -> Prop) : Prop :=
  lists l P /\ forall a b, edge g a b -> In a l -> In b l -> before l a b.

(** Same set of elements. *)
Definition same_set {A} (l l' : list A) : Prop := forall x, In x l <-> In x l'.

(** The least set containing [included] and the parents of its members that are
    not [given]. *)
Inductive needed (g : graph) (included given : list name) : name -> Prop :=
| need_incl : forall x, In x included -> needed g included given x
| need_par : forall x p, needed g included given x -> ~ In x given -> edge g p x ->
                         needed g included given p.
