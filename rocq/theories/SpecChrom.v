(** * Specification vocabulary for interventions on chromosomes *)

Require Import Verif.Base Verif.World Verif.ModelGraph Verif.ModelExpr Verif.ModelLoci Verif.ModelBN Verif.ModelSample
        Verif.Spec Verif.SpecBN Verif.SpecSample.

Section SpecChrom.
  Context {w : world}.

  (** [new] assigns the value [v] to the entry [k] / asks for a new value of the entry [k] *)
  Definition assigned (keys : list name) (new : dict (V w)) (k : name) (v : V w) : Prop :=
    In k keys /\ dget new k = Some v /\ w_is_none w v = false.
  Definition redrawn (keys : list name) (new : dict (V w)) (k : name) : Prop :=
    In k keys /\ exists v, dget new k = Some v /\ w_is_none w v = true.
  (** [new] concerns the entry [k] *)
  Definition hit (keys : list name) (new : dict (V w)) (k : name) : Prop :=
    In k keys /\ In k (dkeys new).
  (** entries that have to be computed anew *)
  Definition affected (b : bn w) (keys : list name) (new : dict (V w)) (x : name) : Prop :=
    In x keys /\ (forall v, ~ assigned keys new x v)
    /\ (redrawn keys new x \/ exists k, hit keys new k /\ path (dag b) k x).

  (** The values of the nodes [ns] are replaced one after the other by values produced by their
      definitions from the values at that moment. *)
  Inductive rerun (b : bn w) : list name -> dict (V w) -> RNG w -> dict (V w) -> RNG w -> Prop :=
  | rerun_nil : forall d r, rerun b [] d r d r
  | rerun_cons : forall n l ns d r v r1 d2 r2,
      holds b n l -> In n (dkeys d) -> render l (dget d) r = Ok (v, r1) ->
      rerun b ns (dset d n v) r1 d2 r2 -> rerun b (n :: ns) d r d2 r2.

  (** Chromosomes reachable by item assignments, successful interventions with and without
      network, and evaluation (fit/base.py:107-110). *)
  Inductive history (b : bn w) : chrom w -> Prop :=
  | hi_new : forall d, history b (mkChrom d (lp_nan w))
  | hi_sampled : forall cond r c r', sample_chromosome b cond r = (Ok c, r') -> history b c
  | hi_set : forall c k v, history b c -> history b (ch_set c k v)
  | hi_impulse : forall c new r c' r', history b c -> NoDup (dkeys new) ->
      impulse c new b r = (Ok tt, c', r') -> history b c'
  | hi_impulse_plain : forall c new, history b c -> history b (impulse_plain c new)
  | hi_evaluate : forall c s, history b c -> evaluate_nodes b (ch_locus c) = Ok s -> history b (mkChrom (ch_locus c) s)
  | hi_clone : forall c, history b c -> history b (ch_clone c)
  | hi_json : forall c, history b c -> history b (ch_from_json (ch_to_json c)).
End SpecChrom.
