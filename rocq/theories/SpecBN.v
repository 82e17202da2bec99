(** * Specification vocabulary for Bayesian networks

    A network is read only through its nodes with definitions and descriptions and
    through the edges of its graph; none of the editing functions is mentioned. *)

Require Import Verif.Base Verif.World Verif.ModelGraph Verif.ModelExpr Verif.ModelLoci Verif.ModelBN Verif.Spec.

Section SpecBN.
  Context {w : world}.

  Definition node (b : bn w) (n : name) : Prop := In n (dkeys (b_attrs b)).

  (** node [n] holds definition [l] / carries description [d] *)
  Definition holds (b : bn w) (n : name) (l : loci w) : Prop :=
    exists a, dget (b_attrs b) n = Some a /\ a_loci a = l.
  Definition described (b : bn w) (n : name) (d : option string) : Prop :=
    exists a, dget (b_attrs b) n = Some a /\ a_des a = d.

  (** The graph is a networkx graph without cycles, every node is stored under its own
      name, and its parents are the names its definition mentions. *)
  Record coherent (b : bn w) : Prop := mkCoherent {
    co_wf : wf (dag b);
    co_acyclic : acyclic (dag b);
    co_name : forall n l, holds b n l -> loci_name l = n;
    co_parents : forall n l, holds b n l -> forall p, edge (dag b) p n <-> In p (loci_parents l)
  }.

  (** The definition of [l] added to [b] would close a cycle: it mentions itself or a name
      that can be reached from it. *)
  Definition closes_cycle (b : bn w) (l : loci w) : Prop :=
    exists p, In p (loci_parents l) /\ (p = loci_name l \/ path (dag b) (loci_name l) p).

  Definition has_parents (b : bn w) (n : name) : Prop := exists p, edge (dag b) p n.

  (** The views of a frozen network are the ones that would be computed from the graph. *)
  Definition fresh (b : bn w) : Prop :=
    b_frozen b = true ->
    exists c, b_cache b = Some c
      /\ order (dag b) = Ok (c_order c)
      /\ c_roots c = roots (dag b)
      /\ find_rv_roots b = Ok (c_rvroots c)
      /\ c_leaves c = leaves (dag b)
      /\ c_exo c = find_exo b
      /\ c_json c = mkBJ (b_name b) (js_nodes b) (Some (c_order c)) (Some (c_roots c)) None
                         (Some (c_leaves c)) (Some (c_exo c)).

  Definition random (b : bn w) (n : name) : Prop := exists l, holds b n l /\ is_rv_l l = true.

  (** Same nodes, definitions and edges. *)
  Definition same_net (b b' : bn w) : Prop :=
    (forall n, node b n <-> node b' n)
    /\ (forall n l, holds b n l <-> holds b' n l)
    /\ (forall x y, edge (dag b) x y <-> edge (dag b') x y).
End SpecBN.
