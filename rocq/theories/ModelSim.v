(** * Model of simulation/: actor.py, simugroup.py, simucore.py, parcore.py

    Parameter cores are mutable objects that refer to each other; they live in a heap and are
    known by their address. Simplifications: one simulation core at a time (reset_sc is in ModelPut.v,
    clone(copy_sc=True) is left out), printing and PseudoParameterCore are left out, and lists
    made from sets are given as lists in some order. *)

Require Import Verif.Base Verif.World Verif.ModelGraph Verif.ModelExpr Verif.ModelLoci Verif.ModelBN Verif.ModelSample.

Section Sim.
  Context {w : world}.

  (** ** Actors (actor.py) *)

  (** the attribute Sampler of a frozen actor: None, a distribution or a value *)
  Inductive asamp := SNone | SDist (d : Dist w) | SVal (v : V w).

  (** actor.py:8-12, 29-32, 54-56, 69-72 *)
  Inductive actor :=
  | AFrozen (field : name) (l : loci w) (rd : list name) (s : asamp)
  | ASingle (field : name) (l : loci w) (rd : list name)
  | ACompound (field : name) (l : loci w) (rd : list name) (flow : list (loci w)).

  Definition is_frozen (a : actor) : bool := match a with AFrozen _ _ _ _ => true | _ => false end.

  (** actor.py:18-26 read_upstream: the exception list is [KeyError or ...], that is KeyError.
      [pas=None] is the empty environment. *)
  Definition read_upstream (rd : list name) (pas : env w) : dict (V w) :=
    fold_left (fun up p => match pas p with Some v => dset up p v | None => up end) rd [].

  (** actor.py:40-45 FrozenSingleActor.update *)
  Definition a_update (a : actor) (pas : env w) (r : RNG w) : res actor * RNG w :=
    match a with
    | AFrozen f l rd _ =>
        let up := dget (read_upstream rd pas) in
        match l with
        | LDist _ fn _ => match get_distribution fn up with
                          | Ok d => (Ok (AFrozen f l rd (SDist d)), r)
                          | Err e => (Err e, r)
                          end
        | _ => match render l up r with
               | Ok (v, r') => (Ok (AFrozen f l rd (SVal v)), r')
               | Err e => (Err e, r)
               end
        end
    | _ => (Err AttributeError, r)
    end.

  (** actor.py:77-78 and 85-86: the mediators; [pas] and [out] are the two dicts *)
  Fixpoint run_flow (flow : list (loci w)) (pas out : dict (V w)) (r : RNG w)
    : res (dict (V w) * dict (V w)) * RNG w :=
    match flow with
    | [] => (Ok (pas, out), r)
    | l :: flow' =>
        match render l (dget pas) r with
        | Ok (v, r') => run_flow flow' (dset pas (loci_name l) v) (dset out (loci_name l) v) r'
        | Err e => (Err e, r)
        end
    end.

  (** render as outcome and generator *)
  Definition render1 (l : loci w) (pas : env w) (r : RNG w) : res (V w) * RNG w :=
    match render l pas r with Ok (v, r') => (Ok v, r') | Err e => (Err e, r) end.

  (** actor.py:34-38, 58-60, 74-79 sample *)
  Definition a_sample (a : actor) (pas : env w) (r : RNG w) : res (V w) * RNG w :=
    match a with
    | AFrozen _ l _ s =>
        match is_rv_l l, s with
        | true, SDist d => let (v, r') := w_sample w d r in (Ok v, r')
        | true, _ => (Err AttributeError, r)             (* None.sample() *)
        | false, SVal v => (Ok v, r)
        | false, SNone => (Ok (w_none w), r)
        | false, SDist _ => (Err OtherError, r)          (* update never stores it *)
        end
    | ASingle _ l rd => render1 l (dget (read_upstream rd pas)) r
    | ACompound _ l rd flow =>
        match run_flow flow (read_upstream rd pas) [] r with
        | (Ok (p, _), r') => render1 l (dget p) r'
        | (Err e, r') => (Err e, r')
        end
    end.

  (** actor.py:81-88 CompoundActor.sample_with_mediators *)
  Definition sample_with_mediators (f : name) (l : loci w) (rd : list name) (flow : list (loci w))
             (pas : env w) (r : RNG w) : res (dict (V w)) * RNG w :=
    match run_flow flow (read_upstream rd pas) [] r with
    | (Ok (p, out), r') => match render1 l (dget p) r' with
                           | (Ok v, r2) => (Ok (dset out f v), r2)
                           | (Err e, r2) => (Err e, r2)
                           end
    | (Err e, r') => (Err e, r')
    end.

  (** nodeset.py:9-18 ActorBlueprint *)
  Inductive bptype := Compound | Single | Frozen.
  Record blueprint := mkBp { bp_name : name; bp_type : bptype; bp_read : list name; bp_sample : list name }.

  (** nodeset.py:20-27 compose_actor *)
  Definition compose_actor (b : bn w) (p : blueprint) : res actor :=
    match bp_type p with
    | Frozen => do l <- bget b (bp_name p); Ok (AFrozen (bp_name p) l (bp_read p) SNone)
    | Single => do l <- bget b (bp_name p); Ok (ASingle (bp_name p) l (bp_read p))
    | Compound => do ls <- mapM (bget b) (bp_sample p);
                  do l <- bget b (bp_name p); Ok (ACompound (bp_name p) l (bp_read p) ls)
    end.

  (** ** Groups (simugroup.py:7-18, simucore.py:23-34) *)

  Record group := mkGroup {
    g_name : name;
    g_children : list name;
    g_exo : list name;
    g_fixed : list name;
    g_local : dict blueprint;
    g_shared : dict blueprint
  }.
  Record simcore := mkSC { sc_bn : bn w; sc_root : name; sc_groups : dict group }.

  (** ** Cores (parcore.py:8-16) *)

  (** [k_prior] is the attribute LogPrior, absent until set_response assigns it *)
  Record core := mkCore {
    k_nick : name;
    k_group : name;
    k_locus : dict (V w);
    k_lp : LP w;
    k_prior : option (LP w);
    k_parent : option nat;
    k_children : dict nat;
    k_actors : option (dict actor);
    k_chactors : option (dict (dict actor))
  }.
  Definition cores := list core.

  Definition set_locus (c : core) (d : dict (V w)) : core :=
    mkCore (k_nick c) (k_group c) d (k_lp c) (k_prior c) (k_parent c) (k_children c) (k_actors c) (k_chactors c).
  Definition set_lp (c : core) (p : LP w) : core :=
    mkCore (k_nick c) (k_group c) (k_locus c) p (k_prior c) (k_parent c) (k_children c) (k_actors c) (k_chactors c).
  Definition set_prior (c : core) (p : LP w) : core :=
    mkCore (k_nick c) (k_group c) (k_locus c) (k_lp c) (Some p) (k_parent c) (k_children c) (k_actors c) (k_chactors c).
  Definition set_parent (c : core) (p : option nat) : core :=
    mkCore (k_nick c) (k_group c) (k_locus c) (k_lp c) (k_prior c) p (k_children c) (k_actors c) (k_chactors c).
  Definition set_children (c : core) (d : dict nat) : core :=
    mkCore (k_nick c) (k_group c) (k_locus c) (k_lp c) (k_prior c) (k_parent c) d (k_actors c) (k_chactors c).
  Definition set_actors (c : core) (d : dict actor) : core :=
    mkCore (k_nick c) (k_group c) (k_locus c) (k_lp c) (k_prior c) (k_parent c) (k_children c) (Some d) (k_chactors c).
  Definition set_chactors (c : core) (d : dict (dict actor)) : core :=
    mkCore (k_nick c) (k_group c) (k_locus c) (k_lp c) (k_prior c) (k_parent c) (k_children c) (k_actors c) (Some d).

  (** change the object at an address *)
  Fixpoint kupd (h : cores) (i : nat) (f : core -> core) : cores :=
    match h, i with
    | [], _ => []
    | c :: h', O => f c :: h'
    | c :: h', S i' => c :: kupd h' i' f
    end.

  (** chromosome.py:22-23 and parcore.py:227-234 __getitem__: own value, else the parent's. Fuel:
      one unit per generation; parents are older, so [S i] suffices (proved). *)
  Fixpoint look (fuel : nat) (h : cores) (i : nat) (x : name) : option (V w) :=
    match fuel with
    | O => None
    | S f => match nth_error h i with
             | None => None
             | Some c => match dget (k_locus c) x with
                         | Some v => Some v
                         | None => match k_parent c with
                                   | Some p => look f h p x
                                   | None => None
                                   end
                         end
             end
    end.
  Definition lookup (h : cores) (i : nat) : env w := look (S i) h i.

  (** chromosome.py:25-27 __setitem__ *)
  Definition kset (h : cores) (i : nat) (x : name) (v : V w) : cores :=
    kupd h i (fun c => set_lp (set_locus c (dset (k_locus c) x v)) (lp_nan w)).

  (** simugroup.py:34-39: the exogenous values. [vs[d] = self.BN[d].fill(vs)] stores the value
      and then overwrites it by None, the result of fill. *)
  Fixpoint gen_exo (b : bn w) (h : cores) (parent : option nat) (ds : list name) (vs : dict (V w)) (r : RNG w)
    : res (dict (V w)) * RNG w :=
    match ds with
    | [] => (Ok vs, r)
    | d :: ds' =>
        if dmem d vs then gen_exo b h parent ds' vs r
        else match (match parent with Some p => lookup h p d | None => None end) with
             | Some v => gen_exo b h parent ds' (dset vs d v) r
             | None => match (do l <- bget b d; fill l vs r) with
                       | Ok (vs', r') => gen_exo b h parent ds' (dset vs' d (w_none w)) r'
                       | Err e => (Err e, r)
                       end
             end
    end.

  (** simugroup.py:41-51: the fixed nodes and the sum of their log densities *)
  Fixpoint gen_fixed (b : bn w) (ds : list name) (vs : dict (V w)) (prior : LP w) (r : RNG w)
    : res (dict (V w) * LP w) * RNG w :=
    match ds with
    | [] => (Ok (vs, prior), r)
    | d :: ds' =>
        match bget b d with
        | Err e => (Err e, r)
        | Ok l =>
            match (if dmem d vs then Ok (vs, r)
                   else match fill l vs r with
                        | Err KeyError => Ok (vs, r)
                        | o => o
                        end) with
            | Err e => (Err e, r)
            | Ok (vs', r') =>
                if dmem d vs'
                then match evaluate l (dget vs') with
                     | Ok p => gen_fixed b ds' vs' (lp_add w prior p) r'
                     | Err e => (Err e, r')
                     end
                else gen_fixed b ds' vs' prior r'
            end
        end
    end.

  (** simugroup.py:24-60 generate: the address of the new core *)
  Definition generate (sc : simcore) (g : group) (nick : name) (parent : option nat) (exo : dict (V w))
             (h : cores) (r : RNG w) : res nat * cores * RNG w :=
    match gen_exo (sc_bn sc) h parent (g_exo g) exo r with
    | (Err e, r') => (Err e, h, r')
    | (Ok vs, r1) =>
        match gen_fixed (sc_bn sc) (g_fixed g) vs (lp_zero w) r1 with
        | (Err e, r') => (Err e, h, r')
        | (Ok (vs', prior), r2) =>
            let vs2 := dupdate (dfilter (fun k => mem k (g_fixed g)) vs') exo in
            (Ok (length h), h ++ [mkCore nick (g_name g) vs2 prior None parent [] None None], r2)
        end
    end.

  (** simucore.py:42-51 SimulationCore.generate: a root core. An empty nickname is replaced by the
      name of the network. *)
  Definition sc_generate (sc : simcore) (nick : name) (exo : dict (V w)) (h : cores) (r : RNG w)
    : res nat * cores * RNG w :=
    match dget (sc_groups sc) (sc_root sc) with
    | None => (Err KeyError, h, r)
    | Some g => generate sc g (if String.eqb nick "" then b_name (sc_bn sc) else nick) None exo h r
    end.

  (** the group object of a core *)
  Definition group_of (sc : simcore) (h : cores) (i : nat) : option group :=
    match nth_error h i with Some c => dget (sc_groups sc) (k_group c) | None => None end.

  (** simugroup.py:103-109 SimulationGroup.breed *)
  Definition sg_breed (sc : simcore) (i : nat) (nick gname : name) (exo : dict (V w)) (h : cores) (r : RNG w)
    : res nat * cores * RNG w :=
    match group_of sc h i with
    | None => (Err KeyError, h, r)
    | Some g =>
        if negb (mem gname (g_children g)) then (Err KeyError, h, r)
        else match dget (sc_groups sc) gname with
             | None => (Err KeyError, h, r)
             | Some g' => generate sc g' nick (Some i) exo h r
             end
    end.

  (** parcore.py:22-37 breed *)
  Definition breed (sc : simcore) (i : nat) (nick gname : name) (exo : dict (V w)) (h : cores) (r : RNG w)
    : res nat * cores * RNG w :=
    match nth_error h i with
    | None => (Err OtherError, h, r)
    | Some c =>
        if dmem nick (k_children c) then (Err ValueError, h, r)
        else match sg_breed sc i nick gname exo h r with
             | (Ok j, h', r') => (Ok j, kupd h' i (fun c => set_children c (dset (k_children c) nick j)), r')
             | (Err e, h', r') => (Err e, h', r')
             end
    end.

  (** parcore.py:39-48 get_sibling: a root has the parent None *)
  Definition get_sibling (sc : simcore) (i : nat) (nick : name) (exo : dict (V w)) (h : cores) (r : RNG w)
    : res nat * cores * RNG w :=
    match nth_error h i with
    | Some c => match k_parent c with
                | Some p => breed sc p nick (k_group c) exo h r
                | None => (Err AttributeError, h, r)
                end
    | None => (Err OtherError, h, r)
    end.

  (** parcore.py:50-59 get_prototype: not entered into Children *)
  Definition get_prototype (sc : simcore) (i : nat) (gname : name) (exo : dict (V w)) (h : cores) (r : RNG w)
    : res nat * cores * RNG w := sg_breed sc i "prototype" gname exo h r.

  (** parcore.py:61-64 duplicate: Parent.bread does not exist *)
  Definition duplicate (h : cores) (i : nat) (nick : name) : res nat := Err AttributeError.

  (** parcore.py:81-93 remove_children; the removed core keeps its Parent *)
  Definition remove_children (h : cores) (i : nat) (k : name) : cores :=
    kupd h i (fun c => set_children c (ddel (k_children c) k)).

  (** parcore.py:220-225 __iter__: the items of the oldest ancestor first *)
  Fixpoint items (fuel : nat) (h : cores) (i : nat) : list (name * V w) :=
    match fuel with
    | O => []
    | S f => match nth_error h i with
             | None => []
             | Some c => match k_parent c with Some p => items f h p | None => [] end ++ k_locus c
             end
    end.

  (** parcore.py:66-79 detach_from_parent. With collect_pars the method set_local_actors is
      called, which does not exist. *)
  Definition detach (h : cores) (i : nat) (collect : bool) : res unit * cores :=
    match nth_error h i with
    | None => (Err OtherError, h)
    | Some c =>
        match k_parent c with
        | None => (Ok tt, h)
        | Some p =>
            let h1 := remove_children h p (k_nick c) in
            if collect
            then (Err AttributeError, fold_left (fun h kv => kset h i (fst kv) (snd kv)) (items (S p) h1 p) h1)
            else (Ok tt, kupd h1 i (fun c => set_parent c None))
        end
    end.

  (** parcore.py:129-130 get_child *)
  Definition get_child (h : cores) (i : nat) (k : name) : res nat :=
    match nth_error h i with Some c => dgetE (k_children c) k | None => Err OtherError end.
  (** str.split('@') *)
  Fixpoint split_at (s : string) : list string :=
    match s with
    | EmptyString => [""]
    | String ch s' =>
        if Ascii.eqb ch "@"%char then "" :: split_at s'
        else match split_at s' with
             | [] => [String ch ""]
             | x :: xs => String ch x :: xs
             end
    end.
  (** parcore.py:141-152 find_descendant *)
  Definition find_descendant (h : cores) (i : nat) (address : string) : res nat :=
    foldM (fun sel nm => get_child h sel nm) (split_at address) i.

  (** parcore.py:245-260 clone (copy_sc=False). Nothing in simulation/ assigns LogLikelihood, so
      reading it raises; the new core is lost. *)
  Definition clone_core (sc : simcore) (h : cores) (i : nat) (r : RNG w) : res nat * cores * RNG w :=
    match nth_error h i with
    | None => (Err OtherError, h, r)
    | Some c =>
        match k_parent c with
        | Some _ => (Err AttributeError, h, r)
        | None => match group_of sc h i with
                  | None => (Err KeyError, h, r)
                  | Some g => match generate sc g (k_nick c) None (k_locus c) h r with
                              | (Err e, h', r') => (Err e, h', r')
                              | (Ok _, h', r') => (Err AttributeError, h', r')
                              end
                  end
        end
    end.

  (** parcore.py:212-218 DeepLogPrior *)
  Fixpoint deep_prior (fuel : nat) (h : cores) (i : nat) : res (LP w) :=
    match fuel with
    | O => Err OtherError
    | S f => match nth_error h i with
             | None => Err OtherError
             | Some c =>
                 match k_prior c with
                 | None => Err AttributeError
                 | Some p => do ps <- mapM (fun kj => deep_prior f h (snd kj)) (k_children c);
                             Ok (lp_add w p (lp_sum ps))
                 end
             end
    end.

  (** ** Actors of cores *)

  (** simugroup.py:64-66 and 71-73: bring the frozen actors up to date; [pas] is the core *)
  Fixpoint update_all (pas : env w) (l : dict actor) (r : RNG w) : res (dict actor) * RNG w :=
    match l with
    | [] => (Ok [], r)
    | (k, a) :: l' =>
        match (if is_frozen a then a_update a pas r else (Ok a, r)) with
        | (Err e, r') => (Err e, r')
        | (Ok a', r') => match update_all pas l' r' with
                         | (Ok l2, r2) => (Ok ((k, a') :: l2), r2)
                         | (Err e, r2) => (Err e, r2)
                         end
        end
    end.
  (** simugroup.py:62-67 put_local_actors and 69-73 put_shared_actors_on_parent: the actors *)
  Definition make_actors (b : bn w) (pas : env w) (ps : dict blueprint) (r : RNG w) : res (dict actor) * RNG w :=
    match mapM (fun kp => do a <- compose_actor b (snd kp); Ok (fst kp, a)) ps with
    | Err e => (Err e, r)
    | Ok actors => update_all pas actors r
    end.

  (** where an actor object is: in Actors of a core, or in ChildrenActors[group] of a core *)
  Inductive place := PLocal (i : nat) (k : name) | PShared (i : nat) (g k : name).

  Definition actor_at (h : cores) (p : place) : option actor :=
    match p with
    | PLocal i k => match nth_error h i with
                    | Some c => match k_actors c with Some d => dget d k | None => None end
                    | None => None
                    end
    | PShared i g k => match nth_error h i with
                       | Some c => match k_chactors c with
                                   | Some d => match dget d g with Some e => dget e k | None => None end
                                   | None => None
                                   end
                       | None => None
                       end
    end.
  Definition put_actor (h : cores) (p : place) (a : actor) : cores :=
    match p with
    | PLocal i k => kupd h i (fun c => match k_actors c with
                                       | Some d => set_actors c (dset d k a)
                                       | None => c
                                       end)
    | PShared i g k => kupd h i (fun c => match k_chactors c with
                                          | Some d => match dget d g with
                                                      | Some e => set_chactors c (dset d g (dset e k a))
                                                      | None => c
                                                      end
                                          | None => c
                                          end)
    end.

  (** parcore.py:98-113 get_actors: the places of the actors *)
  Definition get_actors (sc : simcore) (h : cores) (i : nat) (shared : bool) (r : RNG w)
    : res (list place) * cores * RNG w :=
    match nth_error h i, group_of sc h i with
    | Some c, Some g =>
        match (if shared then k_parent c else None) with
        | Some p =>
            match nth_error h p with
            | None => (Err OtherError, h, r)
            | Some pc =>
                match (match k_chactors pc with Some d => dget d (k_group c) | None => None end) with
                | Some e => (Ok (map (PShared p (k_group c)) (dkeys e)), h, r)
                | None =>
                    match make_actors (sc_bn sc) (lookup h p) (g_shared g) r with
                    | (Err e, r') => (Err e, h, r')
                    | (Ok acts, r') =>
                        (Ok (map (PShared p (k_group c)) (dkeys acts)),
                         kupd h p (fun pc => set_chactors pc
                           (dset (match k_chactors pc with Some d => d | None => [] end) (k_group c) acts)), r')
                    end
                end
            end
        | None =>
            match k_actors c with
            | Some d => (Ok (map (PLocal i) (dkeys d)), h, r)
            | None => match make_actors (sc_bn sc) (lookup h i) (g_local g) r with
                      | (Err e, r') => (Err e, h, r')
                      | (Ok acts, r') => (Ok (map (PLocal i) (dkeys acts)), kupd h i (fun c => set_actors c acts), r')
                      end
            end
        end
    | _, _ => (Err OtherError, h, r)
    end.

  (** actor.py:40-45 on an actor object, for the core [i] *)
  Definition update_at (h : cores) (p : place) (i : nat) (r : RNG w) : res unit * cores * RNG w :=
    match actor_at h p with
    | None => (Err KeyError, h, r)
    | Some a => match a_update a (lookup h i) r with
                | (Ok a', r') => (Ok tt, put_actor h p a', r')
                | (Err e, r') => (Err e, h, r')
                end
    end.

  (** actor.py:100-104, 113-118 Sampler: an actor object and a core; a frozen actor is updated
      with the values of that core *)
  Definition new_sampler (h : cores) (p : place) (i : nat) (r : RNG w) : res unit * cores * RNG w :=
    match actor_at h p with
    | None => (Err KeyError, h, r)
    | Some a => if is_frozen a then update_at h p i r else (Ok tt, h, r)
    end.
  (** actor.py:106-111 Sampler.__call__ *)
  Definition call_sampler (h : cores) (p : place) (i : nat) (r : RNG w) : res (V w) * RNG w :=
    match actor_at h p with
    | None => (Err KeyError, r)
    | Some a => a_sample a (lookup h i) r
    end.

  (** ** Interventions *)

  (** simugroup.py:86-92: the loop of set_response over the fixed nodes *)
  Fixpoint resp_fixed (b : bn w) (imp : dict (V w)) (shocked : list name) (i : nat) (ds : list name)
           (prior : LP w) (h : cores) (r : RNG w) : res (LP w) * cores * RNG w :=
    match ds with
    | [] => (Ok prior, h, r)
    | d :: ds' =>
        match bget b d with
        | Err e => (Err e, h, r)
        | Ok l =>
            match (match dget imp d with
                   | Some v => (Ok tt, kupd h i (fun c => set_locus c (dset (k_locus c) d v)), r)
                   | None =>
                       if mem d shocked
                       then match render l (lookup h i) r with
                            | Ok (v, r') => (Ok tt, kset h i (loci_name l) v, r')
                            | Err e => (Err e, h, r)
                            end
                       else (Ok tt, h, r)
                   end) with
            | (Err e, h', r') => (Err e, h', r')
            | (Ok _, h', r') =>
                match evaluate l (lookup h' i) with
                | Ok p => resp_fixed b imp shocked i ds' (lp_add w prior p) h' r'
                | Err e => (Err e, h', r')
                end
            end
        end
    end.

  (** simugroup.py:96-101: update the given actors with the core [i] *)
  Fixpoint resp_actors (i : nat) (ps : list place) (h : cores) (r : RNG w) : res unit * cores * RNG w :=
    match ps with
    | [] => (Ok tt, h, r)
    | p :: ps' => match update_at h p i r with
                  | (Ok _, h', r') => resp_actors i ps' h' r'
                  | o => o
                  end
    end.

  (** parcore.py:181-194: the frozen actors of a core among the shocked nodes *)
  Definition shocked_places (c : core) (i : nat) (shocked : list name) : list place :=
    let sel (d : dict actor) := map fst (filter (fun ka => mem (fst ka) shocked && is_frozen (snd ka)) d) in
    match k_actors c with Some d => map (PLocal i) (sel d) | None => [] end
    ++ match k_chactors c with
       | Some d => flat_map (fun ge => map (PShared i (fst ge)) (sel (snd ge))) d
       | None => []
       end.

  (** parcore.py:198-199: the children one after the other, stopping at an exception *)
  Fixpoint each_child (f : nat -> cores -> RNG w -> res unit * cores * RNG w) (js : list nat) (h : cores) (r : RNG w)
    : res unit * cores * RNG w :=
    match js with
    | [] => (Ok tt, h, r)
    | j :: js' => match f j h r with
                  | (Ok _, h', r') => each_child f js' h' r'
                  | o => o
                  end
    end.

  (** parcore.py:179-202 __set_response with simugroup.py:84-101. Fuel: one unit per generation;
      children are younger, so the number of cores suffices (proved). *)
  Fixpoint respond (fuel : nat) (sc : simcore) (imp : dict (V w)) (shocked : list name) (i : nat) (h : cores) (r : RNG w)
    : res unit * cores * RNG w :=
    match fuel with
    | O => (Err OtherError, h, r)
    | S f =>
        match nth_error h i, group_of sc h i with
        | Some c, Some g =>
            let sl := filter (fun s => dmem s (k_locus c)) shocked in
            let places := shocked_places c i shocked in
            match resp_fixed (sc_bn sc) imp sl i (g_fixed g) (lp_zero w) h r with
            | (Err e, h1, r1) => (Err e, h1, r1)
            | (Ok prior, h1, r1) =>
                match resp_actors i places (kupd h1 i (fun c => set_prior c prior)) r1 with
                | (Err e, h2, r2) => (Err e, h2, r2)
                | (Ok _, h2, r2) =>
                    match each_child (respond f sc imp shocked) (map snd (k_children c)) h2 r2 with
                    | (Err e, h3, r3) => (Err e, h3, r3)
                    | (Ok _, h3, r3) =>
                        (Ok tt, match sl with [] => h3 | _ => kupd h3 i (fun c => set_lp c (lp_nan w)) end, r3)
                    end
                end
            end
        | _, _ => (Err OtherError, h, r)
        end
    end.

  (** parcore.py:154-177 impulse: a dict, or a list of nodes to draw again *)
  Definition impulse_core (sc : simcore) (imp : dict (V w)) (i : nat) (h : cores) (r : RNG w)
    : res unit * cores * RNG w :=
    match downstream (dag (sc_bn sc)) (dkeys imp) with
    | Err e => (Err e, h, r)
    | Ok sh =>
        let non_imp := map fst (filter (fun p => w_is_none w (snd p)) imp) in
        let imp' := filter (fun p => negb (w_is_none w (snd p))) imp in
        respond (S (length h)) sc imp' (union (diff sh (dkeys imp')) non_imp) i h r
    end.
  Definition impulse_list (sc : simcore) (imp : list name) (i : nat) (h : cores) (r : RNG w)
    : res unit * cores * RNG w :=
    match downstream (dag (sc_bn sc)) imp with
    | Err e => (Err e, h, r)
    | Ok sh => respond (S (length h)) sc [] (union sh imp) i h r
    end.
End Sim.

Arguments actor w : clear implicits.
Arguments core w : clear implicits.
Arguments cores w : clear implicits.
Arguments simcore w : clear implicits.
Arguments asamp w : clear implicits.
