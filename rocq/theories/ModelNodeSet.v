(** * Model of simulation/nodeset.py, simulation/fn.py and the set-up in simucore.py

    Sets are lists without repetitions, in some order. The children of a node set are a dict keyed
    by their names, so their names differ; here they are a list. Simplifications: inject_bn is
    called on a root (a node set without a parent), the trees are finite (add_child would allow a
    node set below itself), and an injection that raises yields no state. *)

Require Import Verif.Base Verif.World Verif.ModelGraph Verif.ModelExpr Verif.ModelLoci Verif.ModelBN Verif.ModelSample Verif.ModelSim.

(** nodeset.py:40-57 NodeSet before injection: name, as_fixed, as_floating, children *)
Inductive nset := NSet (nm : name) (afix aflo : list name) (kids : list nset).
Definition ns_name (t : nset) : name := match t with NSet n _ _ _ => n end.

(** the attributes of an injected node set *)
Record alloc := mkAlloc {
  a_name : name;
  a_exo : list name;                 (* ExoNodes *)
  a_listen : list name;              (* ListeningNodes *)
  a_fixed : list name;               (* FixedNodes *)
  a_float : list name;               (* FloatingNodes *)
  a_was : list name;                 (* __was_fixed *)
  a_will : list name;                (* __will_be_floating *)
  a_local : dict blueprint;          (* LocalSamplers *)
  a_shared : dict blueprint          (* SharedSamplers *)
}.
(** [share]: the children use one set object as their __was_fixed (nodeset.py:143, all_fixed is
    not empty); otherwise each child has a set of its own. *)
Inductive stree := STree (a : alloc) (share : bool) (kids : list stree).
Definition s_alloc (t : stree) : alloc := match t with STree a _ _ => a end.
Definition s_kids (t : stree) : list stree := match t with STree _ _ ks => ks end.

(** all node sets of a tree, parents first *)
Fixpoint allocs (t : stree) : list alloc :=
  match t with STree a _ ks => a :: (fix go l := match l with [] => [] | k :: l' => allocs k ++ go l' end) ks end.

Section NodeSet.
  Context {w : world}.

  (** nodeset.py:106-123 _validate_initial_conditions *)
  Fixpoint validate (g : graph) (t : nset) : res bool :=
    match t with
    | NSet _ afix aflo ks =>
        do ok <- (fix go l := match l with
                              | [] => Ok true
                              | k :: l' => do v <- validate g k; if v then go l' else Ok false
                              end) ks;
        if ok
        then match afix with
             | [] => Ok true
             | _ => do anc <- upstream g afix;
                    Ok (forallb (fun d => mem d afix || negb (mem d anc)) aflo)
             end
        else Ok false
    end.

  (** nodeset.py:148-153: mediators; the state is (floating, fixed, all_fixed) *)
  Definition med_step (b : bn w) (s : list name * list name * list name) (d : name)
    : res (list name * list name * list name) :=
    match s with (flo, fx, al) =>
      do r <- has_randomness b d al;
      Ok (if r : bool then (sadd d flo, fx, al) else (flo, sadd d fx, sadd d al))
    end.
  (** nodeset.py:155-159 *)
  Definition flo_step (b : bn w) (s : list name * list name * list name) (d : name)
    : res (list name * list name * list name) :=
    match s with (flo, fx, al) =>
      do r <- has_randomness b d al;
      Ok (if r : bool then (flo, fx, al) else (diff flo [d], sadd d fx, sadd d al))
    end.
  (** nodeset.py:161-165 *)
  Definition root_step (b : bn w) (s : list name * list name * list name) (d : name)
    : res (list name * list name * list name) :=
    match s with (flo, fx, al) =>
      do r <- has_randomness b d [];
      Ok (if r : bool then (flo, fx, al) else (flo, sadd d fx, sadd d al))
    end.
  (** nodeset.py:173-181: requirements given the nodes before; the state is (listening, exo) *)
  Fixpoint reqs (g : graph) (flo par mini : list name) (s : list name * list name) : res (list name * list name) :=
    match mini with
    | [] => Ok s
    | n :: mini' =>
        do rq <- minimal_requirements g n par;
        reqs g flo (par ++ [n]) mini'
             (if mem n flo then (union (fst s) rq, snd s) else (fst s, union (snd s) rq))
    end.

  (** nodeset.py:130-183: one node set; the second component is all_fixed *)
  Definition local_one (b : bn w) (isroot : bool) (nm : name) (was afix aflo : list name) : res (alloc * list name) :=
    let g := dag b in
    do m <- minimal_dag g (union afix aflo);
    do mini <- order m;
    do med <- sort g (diff (diff mini afix) aflo);
    do s1 <- foldM (med_step b) med (to_set aflo, to_set afix, union was afix);
    do sf <- bn_sort b (fst (fst s1));
    do s2 <- foldM (flo_step b) sf s1;
    do s3 <- (if isroot then do rs <- Roots b; foldM (root_step b) rs s2 else Ok s2);
    match s3 with (flo, fx, al) =>
      do le <- reqs g flo [] mini ([], []);
      Ok (mkAlloc nm (diff (snd le) fx) (diff (fst le) mini) fx flo was [] [] [], al)
    end.
  (** nodeset.py:125-186 _resolve_local_nodes *)
  Fixpoint resolve_local (b : bn w) (isroot : bool) (was : list name) (t : nset) : res stree :=
    match t with
    | NSet nm afix aflo ks =>
        do p <- local_one b isroot nm was afix aflo;
        do ks' <- (fix go l := match l with
                               | [] => Ok []
                               | k :: l' => do k' <- resolve_local b false (snd p) k; do r <- go l'; Ok (k' :: r)
                               end) ks;
        Ok (STree (fst p) (match snd p with [] => false | _ => true end) ks')
    end.

  Definition set_will (a : alloc) (l : list name) : alloc :=
    mkAlloc (a_name a) (a_exo a) (a_listen a) (a_fixed a) (a_float a) (a_was a) l (a_local a) (a_shared a).
  (** nodeset.py:193-198 _raise_up_floating *)
  Fixpoint raise_up (t : stree) : stree :=
    match t with
    | STree a sh ks =>
        let ks' := (fix go l := match l with [] => [] | k :: l' => raise_up k :: go l' end) ks in
        STree (set_will a (fold_left (fun acc k => union acc (union (a_will (s_alloc k)) (a_float (s_alloc k)))) ks' [])) sh ks'
    end.

  (** filter by a test that may raise *)
  Fixpoint filterM {A : Type} (f : A -> res bool) (l : list A) : res (list A) :=
    match l with
    | [] => Ok []
    | x :: l' => do v <- f x; do r <- filterM f l'; Ok (if v : bool then x :: r else r)
    end.

  Definition set_relation (a : alloc) (exo listen fx flo was : list name) : alloc :=
    mkAlloc (a_name a) exo listen fx flo was (a_will a) (a_local a) (a_shared a).
  Definition set_was (a : alloc) (was : list name) : alloc :=
    set_relation a (a_exo a) (a_listen a) (a_fixed a) (a_float a) was.
  (** nodeset.py:201-226: one node set, given its __was_fixed; the second component is what is
      passed to the parent's _hoist_node *)
  Definition relate_one (b : bn w) (isroot : bool) (was : list name) (a : alloc) : res (alloc * list name) :=
    let to_shift := diff (a_exo a) was in
    do to_hoist <- filterM (fun d => do r <- has_randomness b d was; Ok (negb r)) to_shift;
    let to_shift := diff to_shift to_hoist in
    let exo := diff (a_exo a) to_shift in
    let fx := union (a_fixed a) to_shift in
    let fx := if isroot then union fx to_hoist else fx in
    let exo := if isroot then diff exo to_hoist else exo in
    let given := union (union fx exo) was in
    do cand <- filterM (fun d => do e <- is_exogenous b d; Ok (negb e)) (diff (a_listen a) was);
    do p <- foldM (fun s d => do r <- has_randomness b d given;
                              Ok (if r : bool then (sadd d (fst s), snd s) else (fst s, sadd d (snd s)))) cand (a_float a, fx);
    Ok (set_relation a exo (diff (diff (a_listen a) (snd p)) (fst p)) (snd p) (fst p) was, if isroot then [] else to_hoist).

  (** nodeset.py:188-191 _hoist_node for each node; the state is (fixed, was_fixed) *)
  Definition hoist (s : list name * list name) (d : name) : list name * list name :=
    if mem d (snd s) then s else (sadd d (fst s), snd s ++ [d]).

  (** nodeset.py:200-229 _resolve_relations. [was] is the content of the set used as __was_fixed
      when the call starts; the result has its content when the call ends, and the nodes passed to
      the parent. The children of a node set are treated in turn; [sh] is their common set. *)
  Fixpoint relate (b : bn w) (isroot : bool) (was : list name) (t : stree) : res (stree * list name * list name) :=
    match t with
    | STree a share ks =>
        do p <- relate_one b isroot was a;
        do q <- (fix go l (s : list name * list name) (sh : list name) :=
                   match l with
                   | [] => Ok ([], s, sh)
                   | k :: l' =>
                       do x <- relate b false (if share then sh else a_was (s_alloc k)) k;
                       match x with (k', was', hs) =>
                         do y <- go l' (fold_left hoist hs s) (if share then was' else sh);
                         match y with (r, s', sh') =>
                           Ok (STree (if share then set_was (s_alloc k') sh' else s_alloc k')
                                     (match k' with STree _ f _ => f end) (s_kids k') :: r, s', sh')
                         end
                       end
                   end) ks (a_fixed (fst p), was) (match ks with k :: _ => a_was (s_alloc k) | [] => [] end);
        match q with (ks', (fx, was'), _) =>
          Ok (STree (set_relation (fst p) (a_exo (fst p)) (a_listen (fst p)) fx (a_float (fst p)) was') share ks', was', snd p)
        end
    end.

  (** nodeset.py:231-237 _claim_used_nodes *)
  Fixpoint claim (t : stree) : list name :=
    match t with
    | STree a _ ks => (fix go l acc := match l with [] => acc | k :: l' => go l' (union acc (claim k)) end)
                        ks (union (a_fixed a) (a_float a))
    end.
  Definition set_nodes (a : alloc) (fx flo : list name) : alloc :=
    set_relation a (a_exo a) (a_listen a) fx flo (a_was a).
  (** nodeset.py:248-259: the state is (fixed, floating, to_pass_down) *)
  Definition down_step (b : bn w) (gfi gfl : list name) (s : list name * list name * list name) (n : name)
    : res (list name * list name * list name) :=
    match s with (fx, flo, down) =>
      do l <- bget b n;
      let ps := loci_parents l in
      if forallb (fun p => mem p gfi) ps
      then do r <- is_rv b n; Ok (if r : bool then (fx, sadd n flo, down) else (sadd n fx, flo, down))
      else Ok (if forallb (fun p => mem p gfl) ps then (fx, sadd n flo, down) else (fx, flo, sadd n down))
    end.
  (** nodeset.py:239-261 _pass_down_undefined *)
  Fixpoint pass_down (b : bn w) (fixed floating nodes : list name) (t : stree) : res stree :=
    match t with
    | STree a share ks =>
        let gfi := union (to_set (a_fixed a)) fixed in
        let gfl := union (union (to_set (a_float a)) floating) gfi in
        do s <- foldM (down_step b gfi gfl) nodes (a_fixed a, a_float a, []);
        match s with (fx, flo, down) =>
          do ks' <- (fix go l := match l with
                                 | [] => Ok []
                                 | k :: l' => do k' <- pass_down b gfi gfl down k; do r <- go l'; Ok (k' :: r)
                                 end) ks;
          Ok (STree (set_nodes a fx flo) share ks')
        end
    end.
  (** nodeset.py:263-266 _locate_undefined *)
  Definition locate_undefined (b : bn w) (t : stree) : res stree :=
    do od <- Order b; pass_down b [] [] (diff od (claim t)) t.

  (** nodeset.py:279-294: the blueprints of a node; [af] is was_fixed and FixedNodes together *)
  Definition blueprint_of (b : bn w) (af fx : list name) (d : name) : res (blueprint * blueprint) :=
    do l <- bget b d;
    let pars := to_set (loci_parents l) in
    if forallb (fun p => mem p af) pars
    then let f := mkBp d Frozen pars [] in
         Ok (f, if existsb (fun p => mem p fx) pars then mkBp d Single pars [] else f)
    else do req <- minimal_requirements (dag b) d af;
         do to_read <- filterM (fun n => if mem n af then Ok true else is_exogenous b n) req;
         let p := mkBp d Compound to_read (diff req to_read) in
         Ok (p, p).
  Definition set_samplers (a : alloc) (l s : dict blueprint) : alloc :=
    mkAlloc (a_name a) (a_exo a) (a_listen a) (a_fixed a) (a_float a) (a_was a) (a_will a) l s.
  (** nodeset.py:268-297 _define_sampler_blueprints *)
  Definition samplers_one (b : bn w) (a : alloc) : res alloc :=
    let af := union (a_was a) (a_fixed a) in
    do p <- foldM (fun s d => do bp <- blueprint_of b af (a_fixed a) d;
                              Ok (dset (fst s) d (fst bp), dset (snd s) d (snd bp)))
                  (union (a_float a) (a_will a)) ([], []);
    Ok (set_samplers a (fst p) (snd p)).
  Fixpoint define_samplers (b : bn w) (t : stree) : res stree :=
    match t with
    | STree a share ks =>
        do a' <- samplers_one b a;
        do ks' <- (fix go l := match l with
                               | [] => Ok []
                               | k :: l' => do k' <- define_samplers b k; do r <- go l'; Ok (k' :: r)
                               end) ks;
        Ok (STree a' share ks')
    end.

  (** nodeset.py:299-302 _sort_fixed_nodes *)
  Fixpoint sort_fixed (b : bn w) (t : stree) : res stree :=
    match t with
    | STree a share ks =>
        do fx <- bn_sort b (a_fixed a);
        do ks' <- (fix go l := match l with
                               | [] => Ok []
                               | k :: l' => do k' <- sort_fixed b k; do r <- go l'; Ok (k' :: r)
                               end) ks;
        Ok (STree (set_nodes a fx (a_float a)) share ks')
    end.

  (** nodeset.py:89-104 inject_bn *)
  Definition inject (b : bn w) (t : nset) : res stree :=
    do v <- validate (dag b) t;
    if v : bool
    then do t1 <- resolve_local b true [] t;
         do x <- relate b true [] (raise_up t1);
         do t3 <- locate_undefined b (fst (fst x));
         do t4 <- define_samplers b t3;
         sort_fixed b t4
    else Err AssertionError.

  (** simugroup.py:7-18 *)
  Definition group_from (t : stree) : group :=
    match t with
    | STree a _ ks => mkGroup (a_name a) (map (fun k => a_name (s_alloc k)) ks) (a_exo a) (a_fixed a) (a_local a) (a_shared a)
    end.
  (** simucore.py:9-20 get_simulation_groups: a later group of the same name replaces an earlier one *)
  Fixpoint groups_from (t : stree) (sgs : dict group) : dict group :=
    match t with
    | STree _ _ ks => (fix go l d := match l with [] => d | k :: l' => go l' (groups_from k d) end) ks (dset sgs (a_name (s_alloc t)) (group_from t))
    end.

  (** fn.py:13-24 as_simulation_core and simucore.py:24-31 *)
  Definition as_simulation_core (b : bn w) (t : option nset) : res (simcore w) :=
    do s <- inject b (match t with Some t => t | None => NSet "Root" [] (leaves (dag b)) [] end);
    Ok (mkSC b (a_name (s_alloc s)) (groups_from s [])).
  (** fn.py:27-32, 35-40 get_all_float_sc and get_all_fixed_sc, from the network on *)
  Definition all_float_sc (b : bn w) : res (simcore w) :=
    do od <- Order b; as_simulation_core b (Some (NSet "Root" [] od [])).
  Definition all_fixed_sc (b : bn w) : res (simcore w) :=
    do od <- Order b; as_simulation_core b (Some (NSet "Root" od [] [])).
  (** fn.py:43-47 find_free_parameters: the keys of a generated core among the random roots. (With no
      key at all RVRoots is not read; it cannot fail for a network that was built.) *)
  Definition find_free (sc : simcore w) (exo : dict (V w)) (h : cores w) (r : RNG w) : res (list name) * cores w * RNG w :=
    match sc_generate sc "" exo h r with
    | (Err e, h', r') => (Err e, h', r')
    | (Ok i, h', r') =>
        ((do rv <- RVRoots (sc_bn sc);
          Ok (filter (fun k => mem k rv) (match nth_error h' i with Some c => dkeys (k_locus c) | None => [] end))), h', r')
    end.
End NodeSet.
