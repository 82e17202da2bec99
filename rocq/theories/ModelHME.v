(** * Model of fit/hme/alg.py: Bayesian history matching with emulators

    Computations as in ModelABC. The emulators (fit/hme/emulator.py, gpflow) are parameters: any
    training and any prediction. Simplifications: logs and progress bars are left out; after an
    exception the state of the fitter is not followed; Particle.Pars, here a plain dict, is only
    read as a mapping and is kept in the same record as a chromosome. *)

Require Import Verif.Base Verif.World Verif.ModelGraph Verif.ModelExpr Verif.ModelLoci Verif.ModelBN Verif.ModelSample
        Verif.ModelFitBase Verif.ModelFloat Verif.ModelTargets Verif.ModelConverter Verif.ModelABC.
Require Import Coq.ZArith.ZArith.
Local Open Scope nat_scope.

(** np.abs, np.sqrt, a - b *)
Definition fabs (x : flt) : flt := match x with Fin a => Fin (Rabs a) | NaN => NaN | _ => PInf end.
Definition fsqrt (x : flt) : flt :=
  match x with Fin a => if rltb a 0 then NaN else Fin (sqrt a) | PInf => PInf | _ => NaN end.
Definition fsub (a b : flt) : flt := fadd a (fopp b).
(** np.mean: nan for the empty list (with a warning) *)
Definition fmean (l : list flt) : flt := match l with [] => NaN | _ => fdivf (fsum l) (Fin (INR (length l))) end.
(** np.max: ValueError for the empty list, nan as soon as one entry is nan *)
Definition fmax2 (a b : flt) : flt :=
  match a, b with NaN, _ | _, NaN => NaN | _, _ => if fltb a b then b else a end.
Definition fmaximum (l : list flt) : res flt :=
  match l with [] => Err ValueError | x :: l' => Ok (fold_left fmax2 l' x) end.

Section HME.
  Context {w : world}.
  Notation pt := (particle w flt).
  Notation G := (RNG w).
  Implicit Types (m : dmodel w flt).

  Context (simulate : dict (V w) -> G -> res pt * G).            (* DataModel.simulate *)
  Context (dom_of : Dist w -> domain).                           (* base.py:93: limits, mean and std of a distribution *)
  Context (vflt : flt -> V w).                                   (* floats as values *)
  Context (lhs : nat -> nat -> G -> res (list (list R)) * G).    (* LatinHypercube(d).random(n) *)
  Context (rand : nat -> nat -> G -> list (list R) * G).         (* rd.random((n, d)) *)
  Context {emu : Type} (emu_new : name -> emu).                  (* GPREmulator(k) *)
  Context (train : emu -> list (list (V w)) -> list (dict (V w)) -> G -> res emu * G).
  Context (predict : emu -> list (list R) -> res (list flt * list flt)).
  Context (obs : dict tdef).                                     (* model.Data: value and variance of each target *)

  (** the particles made by _emulate (alg.py:147-151) *)
  Record hpt := mkHpt { h_pars : dict (V w); h_sims : dict flt; h_vs : dict flt; h_xs : list R; h_imp : flt }.

  (** alg.py:13-23 StateHME (Matchers: obs and var_model) *)
  Record hstate := mkH {
    hs_emus : dict emu; hs_cons : list conv; hs_pts : list hpt; hs_lo : list R; hs_up : list R;
    hs_wave : nat; hs_mse : flt; hs_cutoff : flt; hs_acc : R
  }.
  (** alg.py:51-61 the settings *)
  Record hcfg := mkHcfg {
    c_sims : Z; c_ems : Z; c_pars : nat; c_wave : Z; c_var : R; c_cutoff : R; c_acc : R
  }.

  (** alg.py:31-40 eval_implausibility *)
  Definition eval_implausibility (v_m : R) (ys vs : dict flt) : res flt :=
    do ims <- mapM (fun kt =>
                do y <- dgetE ys (fst kt);
                do v_e <- dgetE vs (fst kt);
                Ok (fdivf (fabs (fsub (Fin (t_value (snd kt))) y))
                          (fsqrt (fadd (Fin (v_m + var_obs (snd kt))) v_e)))) obs;
    fmaximum ims.

  (** alg.py:42-44 eval_mse *)
  Definition eval_mse (pts : list hpt) : res flt :=
    do rs <- mapM (fun p =>
               do ds <- mapM (fun kt => do y <- dgetE (h_sims p) (fst kt);
                                        let d := fsub y (Fin (t_value (snd kt))) in Ok (fmul d d)) obs;
               Ok (fmean ds)) pts;
    Ok (fmean rs).

  (** alg.py:63-83 initialise: the settings and the state. The local variable n_sims is bound only
      if the setting was not positive. *)
  Definition h_initialise (g : hcfg) m : comp G (hcfg * hstate) :=
    dc dom <- clift (dm_domain m);
    let n := length dom in
    let local := if Z.leb (c_sims g) 0 then Some (Z.of_nat n * 10)%Z else None in
    let sims := match local with Some k => k | None => c_sims g end in
    dc ems <- cres (if Z.leb (c_ems g) 0
                    then match local with Some k => Ok (k * 100)%Z | None => Err UnboundLocalError end
                    else Ok (c_ems g));
    dc dom <- clift (dm_domain m);
    dc cvs <- cres (mapM (fun nd => get_converter (dom_of (snd nd))) dom);
    cret (mkHcfg sims ems n (c_wave g) (c_var g) (c_cutoff g) (c_acc g),
          mkH (map (fun kt => (fst kt, emu_new (fst kt))) (dm_data m)) cvs []
              (repeat 0%R n) (repeat 1%R n) 0 PInf PInf 1).

  (** lower + x * (upper - lower), for one row *)
  Fixpoint scale (lo up x : list R) : list R :=
    match lo, up, x with
    | a :: lo', b :: up', u :: x' => (a + u * (b - a))%R :: scale lo' up' x'
    | _, _, _ => []
    end.

  (** {dom.Name: con.uniform2value(x) for dom, con, x in zip(model.Domain, cons, xs)} *)
  Definition to_pars (ns : list name) (cvs : list conv) (xs : list R) : dict (V w) :=
    dupdate [] (combine ns (map (fun cx => vflt (uniform2value (fst cx) (snd cx))) (combine cvs xs))).

  (** alg.py:117-121, 189-192 one simulation *)
  Definition h_run m (cvs : list conv) (xs : list R) : comp G pt :=
    dc dom <- clift (dm_domain m);
    dc sim <- clift (simulate (to_pars (map fst dom) cvs xs));
    flatten_c m sim.

  (** alg.py:108-122 _simulate *)
  Definition h_simulate (g : hcfg) m (st : hstate) : comp G (list pt) :=
    dc xss <- clift (lhs (c_pars g) (Z.to_nat (c_sims g)));
    cmap (fun xs => h_run m (hs_cons st) (scale (hs_lo st) (hs_up st) xs)) xss.

  (** alg.py:129-130: Notes['Xs'], Notes['Ys'] *)
  Definition notes_of (p : pt) : res (list (V w) * dict (V w)) :=
    match p_xs p, p_ys p with Some x, Some y => Ok (x, y) | _, _ => Err KeyError end.

  (** alg.py:141-152: one emulated particle *)
  Definition h_emulated (g : hcfg) m (cvs : list conv) (yss : dict (list flt * list flt)) (i : nat) (xs : list R) : comp G hpt :=
    dc dom <- clift (dm_domain m);
    dc sims <- cres (mapM (fun ky => match nth_error (fst (snd ky)) i with Some y => Ok (fst ky, y) | None => Err IndexError end) yss);
    dc vs <- cres (mapM (fun ky => match nth_error (snd (snd ky)) i with Some y => Ok (fst ky, y) | None => Err IndexError end) yss);
    dc imp <- cres (eval_implausibility (c_var g) sims vs);
    cret (mkHpt (to_pars (map fst dom) cvs xs) sims vs xs imp).

  (** for i in range(n): ... *)
  Fixpoint h_emulate_all (g : hcfg) m cvs yss (i : nat) (xss : list (list R)) : comp G (list hpt) :=
    match xss with
    | [] => cret []
    | xs :: xss' =>
        dc p <- h_emulated g m cvs yss i xs;
        dc ps <- h_emulate_all g m cvs yss (S i) xss';
        cret (p :: ps)
    end.

  (** alg.py:124-153 _emulate: the trained emulators and the particles *)
  Definition h_emulate (g : hcfg) m (st : hstate) (pts : list pt) : comp G (dict emu * list hpt) :=
    dc xy <- cres (mapM notes_of pts);
    dc emus <- cmap (fun ke => dc e <- clift (train (snd ke) (map fst xy) (map snd xy)); cret (fst ke, e)) (hs_emus st);
    dc xss <- clift (fun r => let (x, r') := rand (Z.to_nat (c_ems g)) (c_pars g) r in (Ok x, r'));
    let xss := map (scale (hs_lo st) (hs_up st)) xss in
    dc yss <- cres (mapM (fun ke => do y <- predict (snd ke) xss; Ok (fst ke, y)) emus);
    dc ps <- h_emulate_all g m (hs_cons st) yss 0 xss;
    cret (emus, ps).

  (** alg.py:155-163 _keep_plausible; max(co, q) is q only if co < q *)
  Definition keep_plausible (g : hcfg) (ps : list hpt) : res (list hpt * flt * R) :=
    do q <- quantile (map h_imp ps) (c_acc g);
    let co := if fltb (Fin (c_cutoff g)) q then q else Fin (c_cutoff g) in
    let kept := filter (fun p => fltb (h_imp p) co) ps in
    do a <- idiv (length kept) (length ps);
    Ok (kept, co, a).

  (** xss.min(0), xss.max(0): ValueError when there is no row *)
  Fixpoint zip2 (f : R -> R -> R) (a b : list R) : list R :=
    match a, b with x :: a', y :: b' => f x y :: zip2 f a' b' | _, _ => [] end.
  Definition extent (f : R -> R -> R) (rows : list (list R)) : res (list R) :=
    match rows with [] => Err ValueError | x :: l => Ok (fold_left (zip2 f) l x) end.

  (** alg.py:91-106 _a_wave *)
  Definition a_wave (g : hcfg) m (st : hstate) : comp G hstate :=
    dc pts <- h_simulate g m st;
    dc ep <- h_emulate g m st pts;
    dc kca <- cres (keep_plausible g (snd ep));
    let '(kept, co, acc) := kca in
    dc mse <- cres (eval_mse kept);
    dc lo <- cres (extent Rmin (map h_xs kept));
    dc up <- cres (extent Rmax (map h_xs kept));
    cret (mkH (fst ep) (hs_cons st) kept lo up (S (hs_wave st)) mse co acc).

  (** alg.py:85-89 update, 165-171 _check_termination; [fuel] bounds the number of waves *)
  Fixpoint h_update (fuel : nat) (g : hcfg) m (st : hstate) : comp G hstate :=
    match fuel with
    | O => fun _ => None
    | S n =>
        dc st' <- a_wave g m st;
        if Z.leb (c_wave g) (Z.of_nat (hs_wave st')) then cret st' else h_update n g m st'
    end.

  (** base.py:211-217 fit, for this fitter *)
  Definition h_fit (fuel : nat) (g : hcfg) m : comp G (hcfg * hstate) :=
    dc gs <- h_initialise g m;
    dc st <- h_update fuel (fst gs) m (snd gs);
    cret (fst gs, st).

  (** alg.py:176-201 sample_posteriors: the particles and the note Bounds *)
  Definition h_posteriors (g : hcfg) m (st : hstate) (n : nat) : comp G (list pt * list (name * flt * flt)) :=
    dc xss <- clift (fun r => let (x, r') := rand n (c_pars g) r in (Ok x, r'));
    dc ps <- cmap (fun xs => h_run m (hs_cons st) (scale (hs_lo st) (hs_up st) xs)) xss;
    dc dom <- clift (dm_domain m);
    cret (ps, map (fun t => (fst t, uniform2value (fst (snd t)) (fst (snd (snd t))), uniform2value (fst (snd t)) (snd (snd (snd t)))))
                  (combine (map fst dom) (combine (hs_cons st) (combine (hs_lo st) (hs_up st))))).
End HME.
Arguments hstate w emu : clear implicits.
Arguments hpt w : clear implicits.
