(** * Properties C01-C11: directed graphs (bayesnet/dag.py) *)

Require Import Verif.Base Verif.ModelGraph Verif.Spec Verif.ProofBase Verif.ProofGraph.

(** Example graphs: a diamond with an isolated node, and a cyclic one. *)
Definition diamond : graph :=
  mkGraph ["A"; "B"; "C"; "D"; "E"] [("A", "B"); ("A", "C"); ("B", "D"); ("C", "D")].
Definition tangle : graph :=
  mkGraph ["A"; "B"; "C"] [("A", "B"); ("B", "C"); ("C", "B")].

(** decide well-formedness of a concrete graph *)
Ltac wf_tac :=
  constructor; unfold edge; simpl;
  [ repeat constructor; simpl; intuition discriminate
  | repeat constructor; simpl; intuition discriminate
  | intros a b H; repeat (destruct H as [H|H]; [inversion H; subst; simpl; tauto|]); destruct H
  | intros a b H; repeat (destruct H as [H|H]; [inversion H; subst; simpl; tauto|]); destruct H ].

Lemma diamond_wf : wf diamond. Proof. wf_tac. Qed.
Lemma tangle_wf : wf tangle. Proof. wf_tac. Qed.
Lemma diamond_acyclic : acyclic diamond.
Proof. apply check_acyclic_spec; [apply diamond_wf|reflexivity]. Qed.
Lemma tangle_cyclic : ~ acyclic tangle.
Proof. intros A. apply check_acyclic_spec in A; [discriminate|apply tangle_wf]. Qed.

(** ** C01 *)

Theorem C01_ancestors_exact : forall g n, wf g ->
  (In n (gnodes g) ->
     exists l, ancestors g n = Ok l /\ lists l (fun x => x <> n /\ path g x n))
  /\ (~ In n (gnodes g) -> ancestors g n = Err NetworkXError).
Proof. intros g n W. split; [apply ancestors_spec; auto|apply ancestors_missing]. Qed.
Print Assumptions C01_ancestors_exact.

Theorem C01_descendants_exact : forall g n, wf g ->
  (In n (gnodes g) ->
     exists l, descendants g n = Ok l /\ lists l (fun x => x <> n /\ path g n x))
  /\ (~ In n (gnodes g) -> descendants g n = Err NetworkXError).
Proof. intros g n W. split; [apply descendants_spec; auto|apply descendants_missing]. Qed.
Print Assumptions C01_descendants_exact.

Theorem C01_upstream_exact : forall g ns, wf g ->
  (incl ns (gnodes g) -> ns <> [] ->
     exists l, upstream g ns = Ok l /\ lists l (fun x => exists n, In n ns /\ x <> n /\ path g x n))
  /\ (forall n, In n ns -> ~ In n (gnodes g) -> upstream g ns = Err NetworkXError)
  /\ upstream g [] = Err TypeError.
Proof.
  intros g ns W. split; [apply upstream_spec; auto|]. split; [|reflexivity].
  intros n. apply upstream_missing; auto.
Qed.
Print Assumptions C01_upstream_exact.

Theorem C01_downstream_exact : forall g ns, wf g ->
  (incl ns (gnodes g) -> ns <> [] ->
     exists l, downstream g ns = Ok l /\ lists l (fun x => exists n, In n ns /\ x <> n /\ path g n x))
  /\ (forall n, In n ns -> ~ In n (gnodes g) -> downstream g ns = Err NetworkXError)
  /\ downstream g [] = Err TypeError
  /\ get_offsprings g ns = downstream g ns.
Proof.
  intros g ns W. split; [apply downstream_spec; auto|]. split; [|split; reflexivity].
  intros n. apply downstream_missing; auto.
Qed.
Print Assumptions C01_downstream_exact.

Example C01_example : wf diamond /\ ancestors diamond "D" = Ok ["B"; "C"; "A"]
  /\ descendants diamond "A" = Ok ["B"; "C"; "D"] /\ upstream diamond ["B"; "C"] = Ok ["A"]
  /\ ancestors diamond "X" = Err NetworkXError
  /\ wf tangle /\ descendants tangle "B" = Ok ["C"].
Proof. split; [apply diamond_wf|]. repeat (split; [reflexivity|]). split; [apply tangle_wf|reflexivity]. Qed.

(** ** C02 *)

Theorem C02_order_topological : forall g, wf g ->
  (acyclic g -> exists l, order g = Ok l /\ topo g l (fun x => In x (gnodes g)))
  /\ (~ acyclic g -> order g = Err NetworkXUnfeasible).
Proof.
  intros g W. split.
  - intros A. destruct (order_total g W A) as [l Hl]. exists l. split; auto. apply order_topo; auto.
  - intros A. destruct (order g) as [l|e] eqn:E.
    + exfalso. apply A. apply (order_ok g l W E).
    + apply order_err in E; auto. destruct E as [-> _]. auto.
Qed.
Print Assumptions C02_order_topological.

Theorem C02_check_acyclic : forall g, wf g -> (check_acyclic g = true <-> acyclic g).
Proof. exact check_acyclic_spec. Qed.
Print Assumptions C02_check_acyclic.

(** ancestors always come first, not only parents *)
Theorem C02_order_respects_paths : forall g l a b, wf g -> order g = Ok l -> path g a b -> before l a b.
Proof. exact order_before_path. Qed.
Print Assumptions C02_order_respects_paths.

Example C02_example : wf diamond /\ acyclic diamond /\ order diamond = Ok ["A"; "E"; "B"; "C"; "D"]
  /\ wf tangle /\ ~ acyclic tangle /\ order tangle = Err NetworkXUnfeasible.
Proof.
  repeat split; try apply diamond_wf; try apply tangle_wf; try apply diamond_acyclic; try apply tangle_cyclic.
Qed.

(** ** C03 *)

Theorem C03_sort_exact : forall g ns, wf g ->
  (acyclic g -> exists l, sort g ns = Ok l /\ topo g l (fun x => In x ns /\ In x (gnodes g)))
  /\ (~ acyclic g -> sort g ns = Err NetworkXUnfeasible).
Proof. intros g ns W. split; [apply sort_spec; auto|apply sort_cyclic; auto]. Qed.
Print Assumptions C03_sort_exact.

(** the result does not depend on how the selection is written down *)
Theorem C03_sort_selection_only : forall g a b, same_set a b -> sort g a = sort g b.
Proof. exact sort_same_set. Qed.
Print Assumptions C03_sort_selection_only.

Example C03_example : wf diamond /\ acyclic diamond
  /\ sort diamond ["D"; "ghost"; "B"; "D"; "A"] = Ok ["A"; "B"; "D"].
Proof. split; [apply diamond_wf|split; [apply diamond_acyclic|reflexivity]]. Qed.

(** ** C04 *)

Theorem C04_roots_leaves_exact : forall g, wf g ->
  lists (roots g) (fun x => In x (gnodes g) /\ forall a, ~ edge g a x)
  /\ lists (leaves g) (fun x => In x (gnodes g) /\ forall a, ~ edge g x a)
  /\ (acyclic g -> gnodes g <> [] -> roots g <> [] /\ leaves g <> []).
Proof.
  intros g W. split; [apply roots_spec; auto|]. split; [apply leaves_spec; auto|].
  intros A Hne. split; [apply roots_nonempty|apply leaves_nonempty]; auto.
Qed.
Print Assumptions C04_roots_leaves_exact.

Theorem C04_insertion_order : forall g a b,
  (before (roots g) a b -> before (gnodes g) a b) /\ (before (leaves g) a b -> before (gnodes g) a b).
Proof. intros g a b. split; intros H; apply before_filter in H; tauto. Qed.
Print Assumptions C04_insertion_order.

Example C04_example : wf diamond /\ acyclic diamond /\ roots diamond = ["A"; "E"] /\ leaves diamond = ["D"; "E"].
Proof. repeat split; try apply diamond_wf; apply diamond_acyclic. Qed.

(** ** C05 *)

Theorem C05_minimal_dag : forall g ns, wf g -> acyclic g ->
  exists g', minimal_dag g ns = Ok g' /\ wf g'
   /\ (forall x, In x (gnodes g') <->
         In x (gnodes g) /\ (In x ns \/ exists a b, In a ns /\ In b ns /\ path g a x /\ path g x b))
   /\ (forall x y, edge g' x y <-> edge g x y /\ In x (gnodes g') /\ In y (gnodes g')).
Proof. exact minimal_dag_spec. Qed.
Print Assumptions C05_minimal_dag.

Example C05_example : wf diamond /\ acyclic diamond
  /\ minimal_dag diamond ["D"; "A"] =
     Ok (mkGraph ["A"; "B"; "C"; "D"] [("A", "B"); ("A", "C"); ("B", "D"); ("C", "D")])
  /\ minimal_dag diamond ["B"; "C"] = Ok (mkGraph ["B"; "C"] []).
Proof. repeat split; try apply diamond_wf; apply diamond_acyclic. Qed.

(** ** C06 *)

Theorem C06_minimal_requirements_closed_form : forall g t cond, wf g -> acyclic g -> In t (gnodes g) ->
  exists l, minimal_requirements g t cond = Ok l
    /\ topo g l (fun x => path g x t /\ ~ exists s, In s cond /\ path g s t /\ path g x s).
Proof. exact minimal_requirements_spec. Qed.
Print Assumptions C06_minimal_requirements_closed_form.

(** only the set of conditions upstream of the target matters *)
Theorem C06_conditions_as_set : forall g t c1 c2, wf g -> acyclic g -> In t (gnodes g) ->
  (forall s, path g s t -> (In s c1 <-> In s c2)) ->
  minimal_requirements g t c1 = minimal_requirements g t c2.
Proof. exact minimal_requirements_cond_ext. Qed.
Print Assumptions C06_conditions_as_set.

(** Not sufficient: A -> S, A -> T, S -> T. With S known, T still needs A, which
    is neither a condition nor returned. *)
Definition triangle : graph := mkGraph ["A"; "S"; "T"] [("A", "S"); ("A", "T"); ("S", "T")].
Lemma triangle_wf : wf triangle. Proof. wf_tac. Qed.
Lemma triangle_acyclic : acyclic triangle.
Proof. apply check_acyclic_spec; [apply triangle_wf|reflexivity]. Qed.

Theorem C06_sufficiency_refuted : exists g t cond l p,
  wf g /\ acyclic g /\ minimal_requirements g t cond = Ok l
  /\ edge g p t /\ ~ In p cond /\ ~ In p l.
Proof.
  exists triangle, "T", ["S"], ["S"], "A".
  repeat split; try apply triangle_wf; try apply triangle_acyclic.
  - unfold edge; simpl; auto.
  - simpl; intuition discriminate.
  - simpl; intuition discriminate.
Qed.
Print Assumptions C06_sufficiency_refuted.

Example C06_example : wf diamond /\ acyclic diamond
  /\ minimal_requirements diamond "D" ["B"; "C"] = Ok ["B"; "C"]
  /\ minimal_requirements diamond "D" ["C"; "E"; "B"; "B"] = Ok ["B"; "C"]
  /\ minimal_requirements diamond "D" [] = Ok ["A"; "B"; "C"].
Proof. repeat split; try apply diamond_wf; apply diamond_acyclic. Qed.

(** ** C07 *)

Theorem C07_sufficient_nodes_least : forall g included given, wf g ->
  incl included (gnodes g) -> incl given (gnodes g) -> included <> [] ->
  exists l, get_sufficient_nodes g included given = Ok l /\ NoDup l
    /\ incl included l
    /\ (forall x p, In x l -> ~ In x given -> edge g p x -> In p l)
    /\ (forall S : name -> Prop,
          (forall x, In x included -> S x) ->
          (forall x p, S x -> ~ In x given -> edge g p x -> S p) ->
          forall x, In x l -> S x).
Proof.
  intros g included given W H1 H2 H3.
  destruct (get_sufficient_nodes_spec g included given W H1 H2 H3) as [l [Hl [Hd Hi]]].
  exists l. splits; auto.
  - intros x Hx. apply Hi. apply need_incl; auto.
  - intros x p Hx Hg He. apply Hi. apply Hi in Hx. eapply need_par; eauto.
  - intros S S1 S2 x Hx. apply Hi in Hx. eapply needed_least; eauto.
Qed.
Print Assumptions C07_sufficient_nodes_least.

Theorem C07_sufficient_nodes_errors : forall g included given, wf g ->
  (forall n, In n given -> ~ In n (gnodes g) -> get_sufficient_nodes g included given = Err NetworkXError)
  /\ (incl given (gnodes g) -> get_sufficient_nodes g [] given = Err TypeError)
  /\ (forall l, get_sufficient_nodes g included given = Ok l ->
        incl included (gnodes g) /\ incl given (gnodes g) /\ included <> []).
Proof.
  intros g included given W. splits.
  - intros n H1 H2. unfold get_sufficient_nodes. rewrite (cut_all_missing given g n); auto.
  - intros H. unfold get_sufficient_nodes.
    destruct (cut_all_spec given g W H) as [mi [Hmi _]]. rewrite Hmi. reflexivity.
  - intros l H. apply get_sufficient_nodes_ok in H; auto. tauto.
Qed.
Print Assumptions C07_sufficient_nodes_errors.

Example C07_example : wf diamond /\ get_sufficient_nodes diamond ["D"] ["B"] = Ok ["B"; "C"; "A"; "D"]
  /\ get_sufficient_nodes diamond ["D"] ["B"; "C"] = Ok ["B"; "C"; "D"].
Proof. split; [apply diamond_wf|split; reflexivity]. Qed.

(** ** C08 *)

Theorem C08_minimal_nodes : forall g included given, wf g ->
  incl included (gnodes g) -> incl given (gnodes g) -> included <> [] ->
  exists l suf, get_minimal_nodes g included (Some given) = Ok l
    /\ get_sufficient_nodes g included given = Ok suf
    /\ lists l (fun x => In x suf /\ ~ In x given).
Proof.
  intros g included given W H1 H2 H3.
  destruct (get_minimal_nodes_spec g included given W H1 H2 H3) as [l [Hl [Hd Hi]]].
  destruct (get_sufficient_nodes_spec g included given W H1 H2 H3) as [s [Hs [_ Hsi]]].
  exists l, s. splits; auto. split; auto. intros x. rewrite Hi, Hsi. tauto.
Qed.
Print Assumptions C08_minimal_nodes.

(** although [given] is optional, leaving it out never works *)
Theorem C08_minimal_nodes_without_given_fails : forall g included, wf g ->
  exists e, get_minimal_nodes g included None = Err e /\ (e = TypeError \/ e = NetworkXError).
Proof. exact get_minimal_nodes_none. Qed.
Print Assumptions C08_minimal_nodes_without_given_fails.

Example C08_example : wf diamond
  /\ get_minimal_nodes diamond ["D"] (Some ["B"; "C"]) = Ok ["D"]
  /\ get_minimal_nodes diamond ["D"] None = Err TypeError.
Proof. split; [apply diamond_wf|split; reflexivity]. Qed.

(** ** C09 *)

Theorem C09_remove_upstream : forall g ns, wf g -> acyclic g -> incl ns (gnodes g) ->
  exists g', remove_upstream g ns = Ok g' /\ wf g'
   /\ (forall x, In x (gnodes g') <-> In x (gnodes g) /\ ~ (~ In x ns /\ exists p, In p ns /\ edge g p x))
   /\ (forall x y, edge g' x y <-> edge g x y /\ In x (gnodes g') /\ In y (gnodes g')).
Proof. exact remove_upstream_spec. Qed.
Print Assumptions C09_remove_upstream.

Theorem C09_remove_downstream : forall g ns, wf g -> acyclic g -> incl ns (gnodes g) ->
  exists g', remove_downstream g ns = Ok g' /\ wf g'
   /\ (forall x, In x (gnodes g') <-> In x (gnodes g) /\ ~ (~ In x ns /\ exists p, In p ns /\ edge g x p))
   /\ (forall x y, edge g' x y <-> edge g x y /\ In x (gnodes g') /\ In y (gnodes g')).
Proof. exact remove_downstream_spec. Qed.
Print Assumptions C09_remove_downstream.

(** the names promise the removal of everything up- or downstream; false both ways:
    a chain where the grandchild survives and the parent survives *)
Definition chain4 : graph := mkGraph ["P"; "N"; "C"; "G"] [("P", "N"); ("N", "C"); ("C", "G")].
Lemma chain4_wf : wf chain4. Proof. wf_tac. Qed.
Lemma chain4_acyclic : acyclic chain4.
Proof. apply check_acyclic_spec; [apply chain4_wf|reflexivity]. Qed.

Theorem C09_removes_closure_refuted : exists g ns g',
  wf g /\ acyclic g /\ remove_upstream g ns = Ok g'
  /\ (exists x n, In n ns /\ path g x n /\ ~ In x ns /\ In x (gnodes g'))
  /\ (exists x n, In n ns /\ path g n x /\ ~ In x ns /\ In x (gnodes g')).
Proof.
  exists chain4, ["N"], (mkGraph ["P"; "N"; "G"] [("P", "N")]).
  splits; try apply chain4_wf; try apply chain4_acyclic; try reflexivity.
  - exists "P", "N". splits; simpl; auto; [apply path_edge; unfold edge; simpl; auto|intuition discriminate].
  - exists "G", "N". splits; simpl; auto; [|intuition discriminate].
    eapply path_step; [|apply path_edge]; unfold edge; simpl; auto.
Qed.
Print Assumptions C09_removes_closure_refuted.

Example C09_example : wf chain4 /\ acyclic chain4 /\ incl ["N"] (gnodes chain4)
  /\ remove_downstream chain4 ["C"] = Ok (mkGraph ["P"; "C"; "G"] [("C", "G")]).
Proof. splits; try apply chain4_wf; try apply chain4_acyclic; try reflexivity. intros x [<-|[]]; simpl; auto. Qed.

(** ** C10 *)

Theorem C10_remove_out_edges : forall g n, wf g -> In n (gnodes g) ->
  exists g', remove_out_edges g n = Ok g' /\ wf g' /\ gnodes g' = gnodes g
    /\ forall x y, edge g' x y <-> edge g x y /\ x <> n.
Proof. exact remove_out_edges_spec. Qed.
Print Assumptions C10_remove_out_edges.

Theorem C10_remove_in_edges_never_works : forall g n, wf g -> acyclic g -> In n (gnodes g) ->
  ((exists a, edge g a n) -> remove_in_edges g n = (Err NetworkXError, g))
  /\ ((forall a, ~ edge g a n) -> remove_in_edges g n = (Ok tt, g)).
Proof.
  intros g n W A Hn. split.
  - intros [a Ha]. eapply remove_in_edges_fails; eauto.
  - apply remove_in_edges_root; auto.
Qed.
Print Assumptions C10_remove_in_edges_never_works.

Example C10_example : wf diamond /\ acyclic diamond
  /\ remove_out_edges diamond "A" = Ok (mkGraph ["A"; "B"; "C"; "D"; "E"] [("B", "D"); ("C", "D")])
  /\ remove_in_edges diamond "D" = (Err NetworkXError, diamond)
  /\ remove_in_edges diamond "A" = (Ok tt, diamond).
Proof. splits; try apply diamond_wf; try apply diamond_acyclic; reflexivity. Qed.

(** ** C11 *)

Theorem C11_merge_is_union : forall g1 g2, wf g1 -> wf g2 ->
  wf (merge_dag g1 g2)
  /\ (forall x, In x (gnodes (merge_dag g1 g2)) <-> In x (gnodes g1) \/ In x (gnodes g2))
  /\ (forall a b, edge (merge_dag g1 g2) a b <-> edge g1 a b \/ edge g2 a b).
Proof. exact merge_dag_spec. Qed.
Print Assumptions C11_merge_is_union.

Theorem C11_merge_keeps_acyclic_refuted : exists g1 g2,
  wf g1 /\ wf g2 /\ acyclic g1 /\ acyclic g2 /\ ~ acyclic (merge_dag g1 g2).
Proof.
  exists (mkGraph ["A"; "B"] [("A", "B")]), (mkGraph ["A"; "B"] [("B", "A")]).
  assert (W1 : wf (mkGraph ["A"; "B"] [("A", "B")])) by wf_tac.
  assert (W2 : wf (mkGraph ["A"; "B"] [("B", "A")])) by wf_tac.
  splits; auto; try (apply check_acyclic_spec; auto; reflexivity).
  intros A. apply check_acyclic_spec in A; [discriminate|]. apply merge_dag_spec; auto.
Qed.
Print Assumptions C11_merge_keeps_acyclic_refuted.

Example C11_example : merge_dag diamond chain4 =
  mkGraph ["A"; "B"; "C"; "D"; "E"; "P"; "N"; "G"]
          [("A", "B"); ("A", "C"); ("B", "D"); ("C", "D"); ("P", "N"); ("N", "C"); ("C", "G")].
Proof. reflexivity. Qed.
