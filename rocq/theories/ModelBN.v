(** * Model of bayesnet/bn.py: BayesianNetwork *)

Require Import Verif.Base Verif.World Verif.ModelGraph Verif.ModelExpr Verif.ModelLoci.

Section BN.
  Context {w : world}.

  (** attributes of a node of the DiGraph: 'loci' and optionally 'Des' *)
  Record attr := mkAttr { a_loci : loci w; a_des : option string }.

  (** bn.py:30-39 form_js and the dict read by bayes_net_from_json (a missing key is None) *)
  Record bnjson := mkBJ {
    bj_name : name;
    bj_nodes : list (jloci w);
    bj_order : option (list name);
    bj_roots : option (list name);
    bj_rvroots : option (list name);
    bj_leaves : option (list name);
    bj_exo : option (list name)
  }.

  (** the private fields filled by complete(): bn.py:60-64, 132-140. The cached script text
      is not kept here (scripts are modelled in ModelScript.v). *)
  Record cache := mkCache {
    c_order : list name;
    c_roots : list name;
    c_rvroots : list name;
    c_leaves : list name;
    c_exo : list name;
    c_json : bnjson
  }.

  (** bn.py:53-64. Nodes with attributes, edges, the frozen flag of the DiGraph, the caches
      (None: the fields are None), the user functions (identified by a number). *)
  Record bn := mkBn {
    b_name : name;
    b_attrs : dict attr;
    b_edges : list (name * name);
    b_frozen : bool;
    b_cache : option cache;
    b_udf : dict nat
  }.

  (** bn.py:54-64 BayesianNetwork.__init__ *)
  Definition bn_new (nm : name) : bn := mkBn nm [] [] false None [].

  (** self.DAG *)
  Definition dag (b : bn) : graph := mkGraph (dkeys (b_attrs b)) (b_edges b).

  Definition set_attrs (b : bn) (d : dict attr) : bn :=
    mkBn (b_name b) d (b_edges b) (b_frozen b) (b_cache b) (b_udf b).
  Definition set_edges (b : bn) (es : list (name * name)) : bn :=
    mkBn (b_name b) (b_attrs b) es (b_frozen b) (b_cache b) (b_udf b).
  Definition set_udf (b : bn) (u : dict nat) : bn :=
    mkBn (b_name b) (b_attrs b) (b_edges b) (b_frozen b) (b_cache b) u.

  (** networkx add_node(name, loci=.., **kwargs): the attribute dict is updated, so an old
      'Des' survives when none is given *)
  Definition put_node (b : bn) (l : loci w) (des : option string) : bn :=
    let old := match dget (b_attrs b) (loci_name l) with Some a => a_des a | None => None end in
    set_attrs b (dset (b_attrs b) (loci_name l)
                      (mkAttr l (match des with Some d => Some d | None => old end))).
  (** networkx remove_node of an existing node *)
  Definition drop_node (b : bn) (n : name) : bn :=
    mkBn (b_name b) (ddel (b_attrs b) n) (gedges (del_node (dag b) n))
         (b_frozen b) (b_cache b) (b_udf b).
  (** networkx add_edge between existing nodes *)
  Definition link (b : bn) (p n : name) : bn := set_edges b (gedges (add_edge (dag b) p n)).

  Definition in_dag (b : bn) (n : name) : bool := dmem n (b_attrs b).

  (** bn.py:79-83: the loop over loci.Parents. [rec] is self.append_loci. Returns outcome,
      network and new_pa. *)
  Fixpoint add_parents (rec : bn -> loci w -> res unit * bn) (b : bn) (n : name)
           (pas newp : list name) : res unit * bn * list name :=
    match pas with
    | [] => (Ok tt, b, newp)
    | pa :: pas' =>
        if in_dag b pa then add_parents rec (link b pa n) n pas' newp
        else match rec b (LExo pa) with
             | (Ok _, b') => add_parents rec (link b' pa n) n pas' (newp ++ [pa])
             | (Err e, b') => (Err e, b', newp)
             end
    end.

  (** bn.py:66-90 append_loci: outcome and the network left behind *)
  Definition append_body (rec : bn -> loci w -> res unit * bn) (b : bn) (l : loci w)
             (des : option string) : res unit * bn :=
    if b_frozen b then (Err AttributeError, b)
    else
      let n := loci_name l in
      let b1 := put_node b l des in
      let (r, g') := remove_in_edges (dag b1) n in
      let b2 := set_edges b1 (gedges g') in
      match r with
      | Err e => (Err e, b2)
      | Ok _ =>
          match add_parents rec b2 n (loci_parents l) [] with
          | (Err e, b3, _) => (Err e, b3)
          | (Ok _, b3, newp) =>
              if check_acyclic (dag b3) then (Ok tt, b3)
              else (Err AttributeError, fold_left drop_node newp (drop_node b3 n))
          end
      end.
  (** the nested call of bn.py:81; an exogenous node has no parents, so it never recurses *)
  Definition append_exo (b : bn) (l : loci w) : res unit * bn :=
    append_body (fun b' _ => (Err OtherError, b')) b l None.
  Definition append_loci (b : bn) (l : loci w) (des : option string) : res unit * bn :=
    append_body append_exo b l des.

  (** bn.py:92-97 append_from_js *)
  Definition append_from_js (b : bn) (j : jloci w) : res unit * bn :=
    match loci_from_json j with
    | Ok l => append_loci b l (j_des j)
    | Err e => (Err e, b)
    end.

  (** bn.py:109-111 add_user_defined_func *)
  Definition add_user_defined_func (b : bn) (fn : name) (f : nat) : res unit * bn :=
    if dmem fn (b_udf b) then (Err AssertionError, b)
    else (Ok tt, set_udf b (dset (b_udf b) fn f)).

  (** bn.py:210-214 __getitem__, __contains__ *)
  Definition bget (b : bn) (n : name) : res (loci w) :=
    match dget (b_attrs b) n with Some a => Ok (a_loci a) | None => Err KeyError end.

  (** bn.py:26-27 find_exo *)
  Definition find_exo (b : bn) : list name :=
    map fst (filter (fun p => is_exo_l (a_loci (snd p))) (b_attrs b)).

  (** bn.py:182-183 is_rv, 175-176 needs_calculation, 178-180 is_exogenous *)
  Definition is_rv (b : bn) (n : name) : res bool := do l <- bget b n; Ok (is_rv_l l).
  Definition needs_calculation (b : bn) (n : name) : res bool :=
    do l <- bget b n; Ok (is_rv_l l || is_func_l l).
  Definition is_exogenous (b : bn) (n : name) : res bool :=
    do l <- bget b n; Ok (is_pseudo_l l || is_exo_l l).

  (** "for a in ..: if is_rv(a): break / else": does any of them satisfy is_rv *)
  Fixpoint any_rv (b : bn) (ns : list name) : res bool :=
    match ns with
    | [] => Ok false
    | a :: ns' => do r <- is_rv b a; if r then Ok true else any_rv b ns'
    end.

  (** bn.py:13-23 find_rv_roots, over the given order *)
  Fixpoint rv_roots_of (b : bn) (od : list name) : res (list name) :=
    match od with
    | [] => Ok []
    | k :: od' =>
        do r <- is_rv b k;
        if r then do anc <- ancestors (dag b) k;
                  do a <- any_rv b anc;
                  do rest <- rv_roots_of b od';
                  Ok (if a then rest else k :: rest)
        else rv_roots_of b od'
    end.
  Definition find_rv_roots (b : bn) : res (list name) :=
    do od <- order (dag b); rv_roots_of b od.

  (** bn.py:155-173 the properties. Reading a field that is None (complete() raised) is
      reported as TypeError: every use iterates over it. *)
  Definition cached {A} (b : bn) (f : cache -> A) (fresh : res A) : res A :=
    if b_frozen b then match b_cache b with Some c => Ok (f c) | None => Err TypeError end else fresh.
  Definition Order (b : bn) : res (list name) := cached b c_order (order (dag b)).
  Definition Roots (b : bn) : res (list name) := cached b c_roots (Ok (roots (dag b))).
  Definition RVRoots (b : bn) : res (list name) := cached b c_rvroots (find_rv_roots b).
  Definition Leaves (b : bn) : res (list name) := cached b c_leaves (Ok (leaves (dag b))).
  Definition Exo (b : bn) : res (list name) := cached b c_exo (Ok (find_exo b)).

  (** bn.py:31: the node entries *)
  Definition js_nodes (b : bn) : list (jloci w) :=
    map (fun p => loci_to_json (a_loci (snd p))) (b_attrs b).
  (** bn.py:30-39 form_js *)
  Definition form_js (b : bn) : res bnjson :=
    do od <- Order b; do rs <- Roots b; do ls <- Leaves b; do ex <- Exo b;
    Ok (mkBJ (b_name b) (js_nodes b) (Some od) (Some rs) None (Some ls) (Some ex)).

  (** bn.py:132-140 complete. Simplification: when the topological order does not exist all
      caches are left at None (Python would keep caches of an earlier complete). *)
  Definition complete (b : bn) : res unit * bn :=
    let frz c := mkBn (b_name b) (b_attrs b) (b_edges b) true c (b_udf b) in
    match order (dag b) with
    | Err e => (Err e, frz None)
    | Ok od =>
        match rv_roots_of b od with
        | Err e => (Err e, frz None)
        | Ok rv =>
            let rs := roots (dag b) in
            let ls := leaves (dag b) in
            let ex := find_exo b in
            (Ok tt, frz (Some (mkCache od rs rv ls ex
                       (mkBJ (b_name b) (js_nodes b) (Some od) (Some rs) None (Some ls) (Some ex)))))
        end
    end.

  (** DAG(self.DAG): node order and attributes are kept, edges are re-inserted grouped by source *)
  Definition regroup (g : graph) : list (name * name) :=
    flat_map (fun n => map (pair n) (succs g n)) (gnodes g).
  (** bn.py:142-150 defrost *)
  Definition defrost (b : bn) : bn :=
    mkBn (b_name b) (b_attrs b) (regroup (dag b)) false None (b_udf b).

  (** bn.py:185-193 is_deterministic; given=None is the empty list *)
  Definition is_deterministic (b : bn) (n : name) (given : list name) : res bool :=
    do l <- bget b n;
    if is_value_l l then Ok true
    else match given with
         | [] => Ok false
         | _ => do req <- minimal_requirements (dag b) n given;
                do ls <- mapM (bget b) (diff req given);
                Ok (forallb is_value_l ls)
         end.

  (** bn.py:195-208 has_randomness *)
  Definition has_randomness (b : bn) (n : name) (given : list name) : res bool :=
    do r <- is_rv b n;
    if r then Ok true
    else do req <- match given with
                   | [] => ancestors (dag b) n
                   | _ => do req <- minimal_requirements (dag b) n given; Ok (diff req given)
                   end;
         any_rv b req.

  (** bn.py:216-217 sort *)
  Definition bn_sort (b : bn) (ns : list name) : res (list name) :=
    do od <- Order b; Ok (filter (fun n => mem n ns) od).

  (** bn.py:222-223 to_json *)
  Definition to_json (b : bn) : res bnjson := cached b c_json (form_js b).

  (** run a list of appends, stopping at the first exception *)
  Fixpoint append_all_js (b : bn) (js : list (jloci w)) : res unit * bn :=
    match js with
    | [] => (Ok tt, b)
    | j :: js' => match append_from_js b j with
                  | (Ok _, b') => append_all_js b' js'
                  | (Err e, b') => (Err e, b')
                  end
    end.

  (** bn.py:266-281 copy; the new network is local, so an exception loses it *)
  Definition copy (b : bn) (nm : option name) : res bn :=
    let nm := match nm with Some n => if String.eqb n "" then b_name b else n | None => b_name b end in
    let b0 := bn_new nm in
    do b1 <- (if b_frozen b then
                match b_cache b with
                | None => Err TypeError
                | Some c =>
                    match append_all_js b0 (bj_nodes (c_json c)) with
                    | (Err e, _) => Err e
                    | (Ok _, b1) => match complete b1 with (Ok _, b2) => Ok b2 | (Err e, _) => Err e end
                    end
                end
              else match append_all_js b0 (js_nodes b) with (Ok _, b1) => Ok b1 | (Err e, _) => Err e end);
    Ok (set_udf b1 (dupdate (b_udf b1) (b_udf b))).

  (** bn.py:113-122: first loop of __check_edges; returns the network and the set exo *)
  Fixpoint check_edges_loop (b : bn) (od exo : list name) : res (bn * list name) :=
    match od with
    | [] => Ok (b, exo)
    | n :: od' =>
        do l <- bget b n;
        let pars := to_set (loci_parents l) in
        do ps <- parents (dag b) n;
        do g' <- foldM (fun g k => if mem k pars then Ok g else remove_edge g k n) ps (dag b);
        let b' := set_edges b (gedges g') in
        do ps' <- parents (dag b') n;
        check_edges_loop b' od' (union exo (diff pars ps'))
    end.
  (** bn.py:124-125 *)
  Fixpoint append_exos (b : bn) (ns : list name) : res bn :=
    match ns with
    | [] => Ok b
    | n :: ns' => match append_loci b (LExo n) None with
                  | (Ok _, b') => append_exos b' ns'
                  | (Err e, _) => Err e
                  end
    end.
  (** bn.py:127-130 *)
  Fixpoint drop_childless (b : bn) (ns : list name) : res bn :=
    match ns with
    | [] => Ok b
    | n :: ns' => do cs <- children (dag b) n;
                  drop_childless (match cs with [] => drop_node b n | _ => b end) ns'
    end.
  (** bn.py:113-130 __check_edges *)
  Definition check_edges (b : bn) : res bn :=
    do od <- order (dag b);
    do (b1, exo) <- check_edges_loop b od [];
    do b2 <- append_exos b1 exo;
    drop_childless b2 (find_exo b2).

  (** bn.py:239-244: the loop of merge *)
  Fixpoint merge_loop (b sub : bn) (od : list name) : res bn :=
    match od with
    | [] => Ok b
    | n :: od' =>
        do ex <- is_exogenous sub n;
        if ex then merge_loop b sub od'
        else do l <- bget sub n;
             let b1 := if in_dag b n then drop_node b n else b in
             match append_from_js b1 (loci_to_json l) with
             | (Ok _, b2) => merge_loop b2 sub od'
             | (Err e, _) => Err e
             end
    end.
  (** bn.py:234-249 merge *)
  Definition merge (b : bn) (nm : name) (sub : bn) : res bn :=
    if String.eqb nm (b_name b) || String.eqb nm (b_name sub) then Err AssertionError
    else
      do b0 <- copy b (Some nm);
      do od <- Order sub;
      do b1 <- merge_loop (defrost b0) sub od;
      do b2 <- check_edges b1;
      Ok (set_udf b2 (dupdate (dupdate (b_udf b2) (b_udf b)) (b_udf sub))).

  (** bn.py:259-261. append_from_definition of a bare name is an exogenous node
      (Simplification: node names are identifiers; see ModelScript.v for the text level). *)
  Fixpoint extend_loop (nb : bn) (od ext : list name) (override : bool) : res unit * bn :=
    match od with
    | [] => (Ok tt, nb)
    | n :: od' =>
        if override || negb (mem n ext)
        then match append_loci nb (LExo n) None with
             | (Ok _, nb') => extend_loop nb' od' ext override
             | (Err e, nb') => (Err e, nb')
             end
        else extend_loop nb od' ext override
    end.
  (** bn.py:251-264 extend: outcome and the network new_bn *)
  Definition extend (b : bn) (new_bn : option bn) (override : bool) : res unit * bn :=
    let nb := match new_bn with None => bn_new (b_name b) | Some n => defrost n end in
    match (match new_bn with None => Ok [] | Some _ => order (dag nb) end) with
    | Err e => (Err e, nb)
    | Ok ext =>
        match Order b with
        | Err e => (Err e, nb)
        | Ok od => match extend_loop nb od ext override with
                   | (Ok _, nb') => complete nb'
                   | (Err e, nb') => (Err e, nb')
                   end
        end
    end.

  (** bn.py:313-330 bayes_net_from_json. nx.freeze is applied to the network object, not
      to its DAG, so the result is not frozen; the private caches are not set either (they
      are written under unmangled names). *)
  Definition bayes_net_from_json (js : bnjson) : res bn :=
    match append_all_js (bn_new (bj_name js)) (bj_nodes js) with
    | (Err e, _) => Err e
    | (Ok _, b) =>
        match bj_order js, bj_roots js, bj_rvroots js, bj_leaves js, bj_exo js with
        | Some _, Some _, Some _, Some _, Some _ => Ok b
        | _, _, _, _, _ => Err KeyError
        end
    end.

  (** bn.py:219-220 clone *)
  Definition clone (b : bn) : res bn := do js <- to_json b; bayes_net_from_json js.
End BN.

Arguments attr w : clear implicits.
Arguments bn w : clear implicits.
Arguments bnjson w : clear implicits.
Arguments cache w : clear implicits.
