(** * Model of the traces that fitters keep: fit/base.py (fit) with fit/abc_smc/alg.py, and fit/ga/alg.py

    The loops of the fitters (ModelSMC, ModelGA) with the monitor of ModelMonitor threaded through.
    The monitor is made when the fitter is (base.py:176, fitting/fitter.py:41) and outlives the fits. *)

Require Import Coq.Reals.Reals.
Require Import Verif.Base Verif.World Verif.ModelMonitor Verif.ModelSample Verif.ModelFitBase Verif.ModelFloat Verif.ModelResample Verif.ModelABC Verif.ModelSMC
        Verif.ModelGA.
Local Open Scope nat_scope.

(** one call of fit: how it starts, one round, the test after the round *)
Record job (G S : Type) := mkJob { j_init : comp G S; j_round : S -> comp G S; j_stop : S -> bool }.
Arguments mkJob {G S}.
Arguments j_init {G S}.
Arguments j_round {G S}.
Arguments j_stop {G S}.

Section Trace.
  Context {G S E : Type}.
  Context (row : S -> dict E).                        (* the keyword arguments of Monitor.keep *)
  Notation M := (monitor E).

  (** a computation that does not touch the monitor *)
  Definition beside {A} (c : comp G A) : comp (G * M) A := fun rm =>
    match c (fst rm) with
    | Some (x, r') => Some (x, (r', snd rm))
    | None => None
    end.

  (** Monitor.keep(...) and Monitor.step() (abc_smc/alg.py:151-152 and 198-199, ga/alg.py:146-147) *)
  Definition note (st : S) : comp (G * M) unit := fun rm =>
    let (o, mon) := mon_step None (mon_keep (row st) (snd rm)) in Some (o, (fst rm, mon)).

  (** abc_smc/alg.py:168-172, ga/alg.py:61-70 update: [fuel] bounds the number of rounds *)
  Fixpoint tr_loop (fuel : nat) (j : job G S) (st : S) : comp (G * M) S :=
    match fuel with
    | O => fun _ => None
    | Datatypes.S n =>
        dc st' <- beside (j_round j st);
        dc _ <- note st';
        if j_stop j st' then cret st' else tr_loop n j st'
    end.

  (** fit/base.py:211-217, fitting/fitter.py:76-82 fit *)
  Definition tr_fit (fuel : nat) (j : job G S) : comp (G * M) S :=
    dc st <- beside (j_init j);
    dc _ <- note st;
    tr_loop fuel j st.

  (** calls of fit on one fitter, each from some state of the generator; exceptions are caught *)
  Fixpoint tr_fits (fuel : nat) (js : list (job G S * G)) (mon : M) : option M :=
    match js with
    | [] => Some mon
    | (j, r) :: js' => match tr_fit fuel j (r, mon) with
                       | Some (_, (_, mon')) => tr_fits fuel js' mon'
                       | None => None
                       end
    end.
End Trace.

(** entries of the records: counters, floats *)
Inductive tval := TN (n : nat) | TF (x : flt) | TR (x : R).

Section Rows.
  Context {w : world}.

  (** abc_smc/alg.py:151 and 198 (the entry Eval, the number of simulations, is left out) *)
  Definition smc_row (st : state w) : dict tval :=
    [("Round", TN (s_rnd st)); ("Eps", TF (s_eps st)); ("ESS", TF (s_ess st)); ("Acc", TR (s_acc st))].

  (** ga/alg.py:146 (the entry MeanFitness is left out) *)
  Definition ga_row {I : Type} (st : gstate (I:=I)) : dict tval :=
    [("Round", TN (ga_gen st)); ("Stay", TN (ga_stay st)); ("MaxFitness", TF (ga_max st))].

  Section SMC.
    Context (simulate : chrom w -> RNG w -> res (particle w flt) * RNG w) (lp_isinf : LP w -> bool) {step : Type}
      (normal : step -> RNG w -> V w * RNG w) (vadd : V w -> V w -> res (V w))
      (wstd : dmodel w flt -> list (particle w flt) -> list flt -> RNG w -> res (dict step) * RNG w)
      (draw : RNG w -> list R -> nat -> list nat) (draw_next : RNG w -> RNG w) (unif : RNG w -> R * RNG w).

    (** abc_smc/alg.py: one fit *)
    Definition smc_job (fuel : nat) (g : cfg) (m : dmodel w flt) (pars0 : option (list (dict (V w)))) : job (RNG w) (state w) :=
      mkJob (initialise simulate draw draw_next fuel g m pars0)
            (a_round simulate lp_isinf normal vadd wstd draw draw_next unif fuel g m)
            (check_termination g).

    (** abc_smc/alg.py:329-330: the notes Trace and Eps of a posterior sample *)
    Definition smc_notes (st : state w) (mon : monitor tval) : res (list (option (mval tval) * dict (mval tval)) * flt) :=
      do tr <- trajectories mon; Ok (tr, s_eps st).
  End SMC.

  Section GA.
    Context {G I : Type}.
    Context (loc : I -> dict flt) (loglik logpost : I -> flt) (clone : I -> I) (domain : G -> res (list (name * flt * flt)) * G)
      (rnd : flt -> flt) (random : G -> R * G) (normal : flt -> flt -> G -> res flt * G) (binomial : R -> nat -> G -> res (list bool) * G)
      (choice : nat -> nat -> G -> res (list nat) * G) (choice_p : list flt -> nat -> G -> res (list nat) * G)
      (norm_wts : list flt -> list flt) (draw : G -> res I * G) (serve : dict flt -> G -> res I * G).

    (** ga/alg.py: one fit; [sc] are the scales the mutator has *)
    Definition ga_job (g : gcfg) (sc : dict flt) : job G (gstate (I:=I)) :=
      mkJob (ga_initialise loglik logpost draw g sc)
            (generation loc loglik logpost clone domain rnd random normal binomial choice choice_p norm_wts serve g)
            (finished g).
  End GA.
End Rows.
