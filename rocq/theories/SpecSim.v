(** * Specification vocabulary for parameter cores

    A heap of cores is read only through the fields of its cores. *)

Require Import Verif.Base Verif.World Verif.ModelGraph Verif.ModelExpr Verif.ModelLoci Verif.ModelBN Verif.ModelSample
        Verif.ModelSim Verif.Spec Verif.SpecBN Verif.SpecSample.

Section SpecSim.
  Context {w : world}.

  Definition at_ (h : cores w) (i : nat) (c : core w) : Prop := nth_error h i = Some c.

  (** [j] is [i] or an ancestor of [i] *)
  Inductive above (h : cores w) : nat -> nat -> Prop :=
  | above_self : forall i c, at_ h i c -> above h i i
  | above_up : forall i c p j, at_ h i c -> k_parent c = Some p -> above h p j -> above h i j.

  (** the value held by the nearest core on the way to the root *)
  Inductive nearest (h : cores w) : nat -> name -> V w -> Prop :=
  | nr_own : forall i c x v, at_ h i c -> dget (k_locus c) x = Some v -> nearest h i x v
  | nr_up : forall i c p x v, at_ h i c -> ~ In x (dkeys (k_locus c)) -> k_parent c = Some p -> nearest h p x v ->
                              nearest h i x v.

  (** [j] is [i] or is reached from [i] through Children *)
  Inductive reached (h : cores w) : nat -> nat -> Prop :=
  | re_self : forall i, reached h i i
  | re_step : forall i c k m j, at_ h i c -> dget (k_children c) k = Some m -> reached h m j -> reached h i j.

  (** [j] is reached from [i] along the nicknames [ks] *)
  Inductive route (h : cores w) : nat -> list name -> nat -> Prop :=
  | ro_nil : forall i, route h i [] i
  | ro_cons : forall i c k ks m j, at_ h i c -> dget (k_children c) k = Some m -> route h m ks j -> route h i (k :: ks) j.

  (** A forest: parents are older, children are stored once under their own nickname with the core
      as their parent. *)
  Record forest (h : cores w) : Prop := mkForest {
    fo_parent : forall i c p, at_ h i c -> k_parent c = Some p -> p < i;
    fo_child : forall i c k j, at_ h i c -> dget (k_children c) k = Some j ->
      exists cj, at_ h j cj /\ k_parent cj = Some i /\ k_nick cj = k;
    fo_keys : forall i c, at_ h i c -> NoDup (dkeys (k_children c))
  }.

  (** Everything a program can do to a heap of cores, whether the call raises or not. *)
  Inductive history (sc : simcore w) : cores w -> Prop :=
  | hi_none : history sc []
  | hi_root : forall h nick exo r o h' r', history sc h -> sc_generate sc nick exo h r = (o, h', r') -> history sc h'
  | hi_breed : forall h i nick g exo r o h' r', history sc h -> breed sc i nick g exo h r = (o, h', r') -> history sc h'
  | hi_sibling : forall h i nick exo r o h' r', history sc h -> get_sibling sc i nick exo h r = (o, h', r') -> history sc h'
  | hi_prototype : forall h i g exo r o h' r', history sc h -> get_prototype sc i g exo h r = (o, h', r') -> history sc h'
  | hi_remove : forall h i k, history sc h -> history sc (remove_children h i k)
  | hi_detach : forall h i col o h', history sc h -> detach h i col = (o, h') -> history sc h'
  | hi_clone : forall h i r o h' r', history sc h -> clone_core sc h i r = (o, h', r') -> history sc h'
  | hi_set : forall h i x v, history sc h -> history sc (kset h i x v)
  | hi_actors : forall h i s r o h' r', history sc h -> get_actors sc h i s r = (o, h', r') -> history sc h'
  | hi_sampler : forall h p i r o h' r', history sc h -> new_sampler h p i r = (o, h', r') -> history sc h'
  | hi_impulse : forall h imp i r o h' r', history sc h -> impulse_core sc imp i h r = (o, h', r') -> history sc h'
  | hi_impulse_list : forall h imp i r o h' r', history sc h -> impulse_list sc imp i h r = (o, h', r') -> history sc h'.

  (** The value [v] of [n] was made by its definition: rendered with the values its parents have in
      [d], from nothing but values that [d] has as well, not knowing [n] itself. *)
  Definition made (b : bn w) (d : env w) (n : name) (v : V w) : Prop :=
    exists l rho r r', holds b n l /\ (forall p, In p (loci_parents l) -> rho p = d p) /\ below rho d /\ rho n = None
      /\ render l rho r = Ok (v, r').
  (** The same without a condition on names other than the parents. *)
  Definition remade (b : bn w) (d : env w) (n : name) (v : V w) : Prop :=
    exists l rho r r', holds b n l /\ (forall p, In p (loci_parents l) -> rho p = d p) /\ render l rho r = Ok (v, r').

  (** what a core would inherit: the values its parent sees *)
  Definition from_parent (h : cores w) (par : option nat) (x : name) (v : V w) : Prop :=
    exists p, par = Some p /\ nearest h p x v.

  (** [imp] assigns [v] to [k]; [x] has to be computed anew: it is asked for, or lies downstream of
      an entry of [imp] without being assigned itself. *)
  Definition assigns (imp : dict (V w)) (k : name) (v : V w) : Prop := dget imp k = Some v /\ w_is_none w v = false.
  Definition renews (b : bn w) (imp : dict (V w)) (x : name) : Prop :=
    (exists v, dget imp x = Some v /\ w_is_none w v = true)
    \/ ((forall v, ~ assigns imp x v) /\ exists k, In k (dkeys imp) /\ path (dag b) k x).

  (** A successful intervention at the core [i], by a dict or by a list of nodes to draw again:
      [A] are the assignments, [T] the nodes to be computed anew. *)
  Inductive intervened (sc : simcore w) (h : cores w) (i : nat) (r : RNG w) (h' : cores w) (r' : RNG w)
    : (name -> V w -> Prop) -> (name -> Prop) -> Prop :=
  | iv_dict : forall imp, NoDup (dkeys imp) -> impulse_core sc imp i h r = (Ok tt, h', r') ->
      intervened sc h i r h' r' (assigns imp) (renews (sc_bn sc) imp)
  | iv_list : forall ns, impulse_list sc ns i h r = (Ok tt, h', r') ->
      intervened sc h i r h' r' (fun _ _ => False) (fun x => In x ns \/ exists k, In k ns /\ path (dag (sc_bn sc)) k x).

  (** [ns] lists nodes once each, parents before children. *)
  Definition sorted (b : bn w) (ns : list name) : Prop :=
    NoDup ns /\ (forall n, In n ns -> node b n)
    /\ forall p n, edge (dag b) p n -> In p ns -> In n ns -> before ns p n.

  (** the groups of a simulation core fix nodes of the network in topological order *)
  Definition groups_sorted (sc : simcore w) : Prop :=
    forall k g, dget (sc_groups sc) k = Some g -> sorted (sc_bn sc) (g_fixed g).

  (** A frozen actor agrees with the visible values [vis], restricted to the names it reads. *)
  Definition up_to_date (vis : env w) (a : actor w) : Prop :=
    match a with
    | AFrozen _ l rd s =>
        let up x := if mem x rd then vis x else None in
        match l with
        | LDist _ f _ => exists d, get_distribution f up = Ok d /\ s = SDist d
        | _ => exists v, (forall r, render l up r = Ok (v, r)) /\ s = SVal v
        end
    | _ => True
    end.

  (** The blueprints belong to nodes of the network, and a frozen one reads parents of its node. *)
  Definition blueprint_ok (b : bn w) (k : name) (p : blueprint) : Prop :=
    bp_name p = k /\ (bp_type p = Frozen -> forall x, In x (bp_read p) -> edge (dag b) x k).
  Definition blueprints_ok (sc : simcore w) : Prop :=
    forall gn g k p, dget (sc_groups sc) gn = Some g -> In (k, p) (g_local g) \/ In (k, p) (g_shared g) -> blueprint_ok (sc_bn sc) k p.

  (** The mediators of a compound blueprint and its target are listed parents first, and none of
      them is read. *)
  Definition compound_ok (b : bn w) (p : blueprint) : Prop :=
    sorted b (bp_sample p ++ [bp_name p]) /\ forall x, In x (bp_read p) -> ~ In x (bp_sample p ++ [bp_name p]).

  (** the name under which the actor at a place is stored, and the core it belongs to *)
  Definition place_key (q : place) : name := match q with PLocal _ k => k | PShared _ _ k => k end.
  Definition place_owner (q : place) : nat := match q with PLocal i _ => i | PShared i _ _ => i end.
End SpecSim.
