(** * Model of models with read targets: fit/toys.py and fit/targets together *)

Require Import Coq.Reals.Reals.
Require Import Verif.ModelNum Verif.ModelTargets.
Require Import Verif.Base Verif.World Verif.ModelGraph Verif.ModelExpr Verif.ModelLoci Verif.ModelBN Verif.ModelSample
        Verif.ModelFitBase Verif.ModelFloat.
Local Open Scope nat_scope.

Section Toys.
  Context {w : world}.
  (** the float a simulated value is (None: no number, arithmetic with it raises TypeError); it is a
      numpy number, as all simulated by toys.py are *)
  Context (number : V w -> option flt).
  (** minus the log density of a distribution at nan and at the infinities *)
  Context (nonfinite : fdist -> flt -> flt).

  (** targets/single.py:22-23, 43-44, 63-64 calc_distance at any float *)
  Definition distance_at (t : tdef) (x : flt) : flt :=
    match x, t with
    | Fin s, _ => ModelTargets.distance t s
    | _, TDistr d => nonfinite d x
    | NaN, _ => NaN
    | _, TPoint v e => fdivf PInf (Fin (p_std v e))
    | _, TRange _ l u => fmul (fdivf PInf (Fin (t_range l u))) (Fin z95)
    end.

  (** a target object as the models of fit/base.py use it; single.py:22-23, 25-26, 43-47, 63-71 *)
  Definition data_of (t : single) : target w flt :=
    let look (ys : dict (V w)) : res flt :=
      do v <- dgetE ys (s_name t);
      match number v with Some x => Ok (distance_at (s_def t) x) | None => Err TypeError end in
    mkTarget look
      (fun ys => match s_def t with TDistr _ => do x <- look ys; Ok (fopp x) | _ => Err AttributeError end).

  (** DataModel(read_targets(...), bn, exo) as in toys.py:23-28, 56-61, 85-87; the free parameters are given *)
  Definition data_model (ts : dict single) (b : bn w) (exo : dict (V w)) (free : list name) : dmodel w flt :=
    mkDM (map (fun kt => (fst kt, data_of (snd kt))) ts) b exo free.

  (** toys.py:37-38 BetaBin.simulate: Particle(pars, sample(self.DataBN, pars)); a chromosome is
      always true (chromosome.py:20-21), so it is the [cond] of sample also when it is empty *)
  Definition two_step (data_bn : bn w) (c : chrom w) (r : RNG w) : res (particle w flt) * RNG w :=
    match sample data_bn (ch_locus c) r with
    | (Ok d, r') => (Ok (pt_new c d), r')
    | (Err e, r') => (Err e, r')
    end.
End Toys.
