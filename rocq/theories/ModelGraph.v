(** * Model of networkx.DiGraph as used by sims_pars and of bayesnet/dag.py *)

Require Import Verif.Base.

(** A DiGraph: nodes and edges in insertion order (networkx keeps dicts, so both
    node iteration and the successors/predecessors of a node follow insertion).
    Node attributes are kept separately (see ModelBN.v). *)
Record graph := mkGraph { gnodes : list name; gedges : list (name * name) }.

Definition gempty : graph := mkGraph [] [].

Definition edge_eqb (e f : name * name) : bool :=
  String.eqb (fst e) (fst f) && String.eqb (snd e) (snd f).

Definition has_node (g : graph) (n : name) : bool := mem n (gnodes g).
Definition has_edge (g : graph) (a b : name) : bool := existsb (edge_eqb (a, b)) (gedges g).

(** networkx DiGraph.predecessors / successors (iteration over adjacency dicts).
    The callers below check node existence where networkx would raise. *)
Definition preds (g : graph) (n : name) : list name :=
  map fst (filter (fun e => String.eqb n (snd e)) (gedges g)).
Definition succs (g : graph) (n : name) : list name :=
  map snd (filter (fun e => String.eqb n (fst e)) (gedges g)).

(** networkx add_node / add_edge / remove_node / remove_edge. *)
Definition add_node (g : graph) (n : name) : graph :=
  mkGraph (sadd n (gnodes g)) (gedges g).
Definition add_edge (g : graph) (a b : name) : graph :=
  mkGraph (sadd b (sadd a (gnodes g)))
          (if has_edge g a b then gedges g else gedges g ++ [(a, b)]).
Definition del_node (g : graph) (n : name) : graph :=
  mkGraph (filter (fun x => negb (String.eqb n x)) (gnodes g))
          (filter (fun e => negb (String.eqb n (fst e)) && negb (String.eqb n (snd e))) (gedges g)).
Definition del_edge (g : graph) (a b : name) : graph :=
  mkGraph (gnodes g) (filter (fun e => negb (edge_eqb (a, b) e)) (gedges g)).
Definition remove_node (g : graph) (n : name) : res graph :=
  if has_node g n then Ok (del_node g n) else Err NetworkXError.
Definition remove_edge (g : graph) (a b : name) : res graph :=
  if has_edge g a b then Ok (del_edge g a b) else Err NetworkXError.

(** networkx bfs (generic_bfs_edges): [queue] is the FIFO of visited nodes whose
    neighbours are still to be expanded, [seen] the visited nodes in order.
    Fuel: one unit per expanded node; [S (length nodes)] always suffices (proved). *)
Fixpoint bfs (fuel : nat) (nbr : name -> list name) (queue seen : list name) : list name :=
  match fuel with
  | O => seen
  | S f =>
      match queue with
      | [] => seen
      | x :: q =>
          let new := filter (fun y => negb (mem y seen)) (to_set (nbr x)) in
          bfs f nbr (q ++ new) (seen ++ new)
      end
  end.

(** nx.ancestors / nx.descendants: BFS over the reversed / forward edges, source
    excluded; NetworkXError if the source is not in the graph.
    dag.py:30-46 wraps them in set(). *)
Definition nx_reach (g : graph) (nbr : name -> list name) (n : name) : res (list name) :=
  if has_node g n
  then Ok (diff (bfs (S (length (gnodes g))) nbr [n] [n]) [n])
  else Err NetworkXError.

(** dag.py:30-37 DAG.ancestors *)
Definition ancestors (g : graph) (n : name) : res (list name) := nx_reach g (preds g) n.
(** dag.py:39-46 DAG.descendants *)
Definition descendants (g : graph) (n : name) : res (list name) := nx_reach g (succs g) n.

(** dag.py:12-19 DAG.parents, dag.py:21-28 DAG.children *)
Definition parents (g : graph) (n : name) : res (list name) :=
  if has_node g n then Ok (to_set (preds g n)) else Err NetworkXError.
Definition children (g : graph) (n : name) : res (list name) :=
  if has_node g n then Ok (to_set (succs g n)) else Err NetworkXError.

(** dag.py:48-54 DAG.upstream *)
Definition upstream (g : graph) (ns : list name) : res (list name) :=
  do ls <- mapM (ancestors g) ns; set_union_star ls.
(** dag.py:56-62 DAG.downstream *)
Definition downstream (g : graph) (ns : list name) : res (list name) :=
  do ls <- mapM (descendants g) ns; set_union_star ls.
(** dag.py:203-210 get_offsprings: same expression as DAG.downstream *)
Definition get_offsprings (g : graph) (ns : list name) : res (list name) :=
  do ls <- mapM (descendants g) ns; set_union_star ls.

(** dag.py:64-69 DAG.roots *)
Definition roots (g : graph) : list name :=
  filter (fun k => Nat.eqb (length (preds g k)) 0) (gnodes g).
(** dag.py:71-76 DAG.leaves *)
Definition leaves (g : graph) : list name :=
  filter (fun k => Nat.eqb (length (succs g k)) 0) (gnodes g).

(** One step of networkx topological_generations for a node: decrement the
    in-degree of each child; children reaching zero leave the map and join the
    next generation. *)
Fixpoint dec_children (indeg : dict nat) (chd : list name) : dict nat * list name :=
  match chd with
  | [] => (indeg, [])
  | c :: chd' =>
      match dget indeg c with
      | Some (S k) =>
          if Nat.eqb k 0
          then let (d, new) := dec_children (ddel indeg c) chd' in (d, c :: new)
          else dec_children (dset indeg c k) chd'
      | _ => dec_children indeg chd'   (* KeyError in Python; unreachable (proved by the order theorem) *)
      end
  end.

(** networkx topological_sort. Generations are yielded one after the other in the
    order in which their members were appended, which is exactly a FIFO queue. *)
Fixpoint kahn (fuel : nat) (g : graph) (indeg : dict nat) (queue out : list name) : res (list name) :=
  match queue with
  | [] => match indeg with [] => Ok out | _ => Err NetworkXUnfeasible end
  | x :: q =>
      match fuel with
      | O => Err OtherError  (* never reached from [order]: proved *)
      | S f =>
          let (d, new) := dec_children indeg (succs g x) in
          kahn f g d (q ++ new) (out ++ [x])
      end
  end.

Definition in_degree (g : graph) (n : name) : nat := length (preds g n).

(** dag.py:78-83 DAG.order *)
Definition order (g : graph) : res (list name) :=
  let pos := filter (fun n => negb (Nat.eqb (in_degree g n) 0)) (gnodes g) in
  let zero := filter (fun n => Nat.eqb (in_degree g n) 0) (gnodes g) in
  kahn (S (length (gnodes g))) g (map (fun n => (n, in_degree g n)) pos) zero [].

(** dag.py:85-90 DAG.sort *)
Definition sort (g : graph) (ns : list name) : res (list name) :=
  do od <- order g; Ok (filter (fun n => mem n ns) od).

(** dag.py:92-97 DAG.check_acyclic: nx.is_directed_acyclic_graph runs the
    topological sort and looks whether it raises. *)
Definition check_acyclic (g : graph) : bool := is_ok (order g).

(** dag.py:99-105 DAG.remove_out_edges *)
Definition remove_out_edges (g : graph) (n : name) : res graph :=
  do cs <- children g n; foldM (fun g c => remove_edge g n c) cs g.

(** dag.py:107-113 DAG.remove_in_edges: note the argument order of remove_edge.
    Returns the outcome and the graph left behind. *)
Fixpoint remove_in_edges_loop (g : graph) (n : name) (ps : list name) : res unit * graph :=
  match ps with
  | [] => (Ok tt, g)
  | p :: ps' =>
      match remove_edge g n p with
      | Ok g' => remove_in_edges_loop g' n ps'
      | Err e => (Err e, g)
      end
  end.
Definition remove_in_edges (g : graph) (n : name) : res unit * graph :=
  match parents g n with
  | Ok ps => remove_in_edges_loop g n ps
  | Err e => (Err e, g)
  end.

(** dag.py:115-124 DAG.remove_upstream (list argument) *)
Definition remove_upstream (g : graph) (ns : list name) : res graph :=
  do od <- order g;
  foldM (fun g s =>
           if mem s ns then Ok g
           else do anc <- ancestors g s;
                if Nat.eqb (length (inter ns anc)) 0 then Ok g else remove_node g s) od g.

(** dag.py:126-136 DAG.remove_downstream (list argument) *)
Definition remove_downstream (g : graph) (ns : list name) : res graph :=
  do od <- order g;
  foldM (fun g s =>
           if mem s ns then Ok g
           else do des <- descendants g s;
                if Nat.eqb (length (inter ns des)) 0 then Ok g else remove_node g s) (rev od) g.

(** dag.py:145-146 merge_dag = nx.compose: nodes then edges of the first, then of the second *)
Definition merge_dag (g1 g2 : graph) : graph :=
  mkGraph (union (gnodes g1) (gnodes g2))
          (fold_left (fun acc e => if existsb (edge_eqb e) acc then acc else acc ++ [e])
                     (gedges g2) (gedges g1)).

(** networkx all_simple_paths: depth-first enumeration of the paths from [a] to [b]
    without repeated nodes ([vis] = path so far, excluding [a]); nothing for a = b.
    Fuel bounds the length, [length nodes] suffices. *)
Fixpoint simple_paths (fuel : nat) (g : graph) (vis : list name) (a b : name) : list (list name) :=
  match fuel with
  | O => []
  | S f =>
      flat_map (fun c => if String.eqb c b then [vis ++ [a; b]]
                         else if mem c (vis ++ [a]) then []
                         else simple_paths f g (vis ++ [a]) c b) (succs g a)
  end.
Definition all_simple_paths (g : graph) (a b : name) : list (list name) :=
  if String.eqb a b then [] else simple_paths (length (gnodes g)) g [] a b.

(** nx subgraph view restricted to the given nodes *)
Definition subgraph (g : graph) (ns : list name) : graph :=
  mkGraph (inter (gnodes g) ns)
          (filter (fun e => mem (fst e) ns && mem (snd e) ns) (gedges g)).

(** dag.py:149-158 minimal_dag *)
Fixpoint collect_paths (g : graph) (ns : list name) (acc : list name) : list name :=
  match ns with
  | [] => acc
  | a :: ns' =>
      collect_paths g ns'
        (fold_left (fun acc b => fold_left union (all_simple_paths g a b) acc) (a :: ns') acc)
  end.
Definition minimal_dag (g : graph) (ns : list name) : res graph :=
  do ns <- sort g ns;
  Ok (subgraph g (collect_paths g ns (to_set ns))).

(** dag.py:161-168 minimal_requirements *)
Definition minimal_requirements (g : graph) (target : name) (cond : list name) : res (list name) :=
  do anc <- ancestors g target;
  do anc <- foldM (fun anc s => if mem s anc
                                then do a <- ancestors g s; Ok (diff anc a)
                                else Ok anc) cond anc;
  sort g anc.

(** dag.py:182-185: cut the edges entering a given node *)
Definition cut_given (g : graph) (n : name) : res graph :=
  if has_node g n
  then foldM (fun g pa => remove_edge g pa n) (preds g n) g
  else Err NetworkXError.

(** dag.py:171-187 get_sufficient_nodes ([given=None] is the empty list) *)
Definition get_sufficient_nodes (g : graph) (included given : list name) : res (list name) :=
  do mi <- foldM cut_given given g;
  do ls <- mapM (ancestors mi) included;
  do u <- set_union_star ls;
  Ok (union u included).

(** dag.py:190-200 get_minimal_nodes; [given = None] makes difference_update raise *)
Definition get_minimal_nodes (g : graph) (included : list name) (given : option (list name)) : res (list name) :=
  do suf <- get_sufficient_nodes g included (match given with Some l => l | None => [] end);
  match given with
  | Some l => Ok (diff suf l)
  | None => Err TypeError
  end.
