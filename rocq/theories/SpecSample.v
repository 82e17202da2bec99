(** * Specification vocabulary for sampling and chromosomes *)

Require Import Verif.Base Verif.World Verif.ModelGraph Verif.ModelExpr Verif.ModelLoci Verif.ModelBN
        Verif.Spec Verif.SpecBN.

Section SpecSample.
  Context {w : world}.

  (** everything [r1] knows, [r2] knows with the same value *)
  Definition below (r1 r2 : env w) : Prop := forall x v, r1 x = Some v -> r2 x = Some v.

  (** The values of the nodes [ns] are produced one after the other by the definitions in [b],
      each once, never replacing a value, from values of all parents that are already known,
      the generator being handed on from one to the next. *)
  Inductive run (b : bn w) : list name -> dict (V w) -> RNG w -> dict (V w) -> RNG w -> Prop :=
  | run_nil : forall d r, run b [] d r d r
  | run_cons : forall n l ns d r v r1 d2 r2,
      holds b n l -> ~ In n (dkeys d) ->
      (forall p, In p (loci_parents l) -> In p (dkeys d)) ->
      render l (dget d) r = Ok (v, r1) ->
      run b ns (dset d n v) r1 d2 r2 ->
      run b (n :: ns) d r d2 r2.

  (** The value of [n] in [d] comes from its definition: rendered in an environment that is part
      of [d], has the values of all parents, and does not know [n] itself. *)
  Definition produced (b : bn w) (d : env w) (n : name) : Prop :=
    exists l rho r1 v r2, holds b n l /\ below rho d /\ rho n = None
      /\ (forall p, In p (loci_parents l) -> rho p <> None)
      /\ render l rho r1 = Ok (v, r2) /\ d n = Some v.

  (** A function node agrees with the values of its parents. *)
  Definition consistent (b : bn w) (d : env w) (n : name) : Prop :=
    forall e ps, holds b n (LFunc n e ps) ->
      (forall p, In p ps -> d p <> None) /\
      exists v, execute e (fun x => if mem x ps then d x else None) = Ok v /\ d n = Some v.

  (** The definition of [n] can be evaluated whenever all its parents have values, the names known
      are in [scope] and the values known are as [P] says; and it gives a value as [P] says. *)
  Definition total_node (P : name -> V w -> Prop) (scope : name -> Prop) (b : bn w) (n : name) : Prop :=
    forall l rho r, holds b n l -> (forall k v, rho k = Some v -> scope k /\ P k v) ->
      (forall p, In p (loci_parents l) -> rho p <> None) ->
      exists v r', render l rho r = Ok (v, r') /\ P n v.
End SpecSample.
