(** * Model of fit/abc_smc/alg.py: approximate Bayesian computation by sequential Monte Carlo

    Computations as in ModelABC (None: the fuel of a loop is used up). Simplifications: as there for
    joblib and the log; the monitor is left out (ModelMonitor); after an exception the state of the
    fitter is not followed. *)

Require Import Verif.Base Verif.World Verif.ModelGraph Verif.ModelExpr Verif.ModelLoci Verif.ModelBN Verif.ModelSample
        Verif.ModelFitBase Verif.ModelFloat Verif.ModelResample Verif.ModelABC.
Require Import Coq.ZArith.ZArith.
Local Open Scope nat_scope.

Section SMC.
  Context {w : world}.
  Notation pt := (particle w flt).
  Notation G := (RNG w).
  Implicit Types (m : dmodel w flt).

  Context (simulate : chrom w -> G -> res pt * G).    (* DataModel.simulate *)
  Context (lp_isinf : LP w -> bool).                  (* np.isinf(LogProb) *)
  Context {step : Type}.                              (* step sizes *)
  Context (normal : step -> G -> V w * G).            (* np.random.normal(0, v) *)
  Context (vadd : V w -> V w -> res (V w)).           (* p0[k] + size *)
  Context (wstd : dmodel w flt -> list pt -> list flt -> G -> res (dict step) * G).
                                                      (* alg.py:267-278 calc_weighted_std, see ModelSpread *)
  Context (draw : G -> list R -> nat -> list nat).    (* the indices np.random.choice gives *)
  Context (draw_next : G -> G).                       (* the generator after it *)
  Context (unif : G -> R * G).                        (* rd.random() *)

  (** np.random.choice(range(k), n, replace=True, p=p) *)
  Definition choice_c (k n : nat) (p : list flt) : comp G (list nat) := fun r =>
    if Nat.eqb (length p) k then Some (choice (draw r) n p, draw_next r) else Some (Err ValueError, r).

  (** alg.py:12-21 StateABCSMC *)
  Record state := mkSt {
    s_wts : list flt; s_pts : list pt; s_rnd : nat; s_stay : nat;
    s_ess : flt; s_acc : R; s_eps : flt; s_thres : R
  }.
  (** alg.py:105-117 the settings used *)
  Record cfg := mkCfg {
    n_iter : nat; parallel : bool; alpha : R; p_thres : R; max_round : Z; max_stay : Z; min_acc : R
  }.

  (** sim.to_json() in the worker and Particle.from_json in the parent; without parallel neither *)
  Definition through (par : bool) (p : pt) : pt := if par then pt_from_json (pt_to_json p) else p.

  (** alg.py:24-34 sample_fin *)
  Definition sample_fin (fuel : nat) m (par : bool) : comp G (flt * pt * nat) :=
    dc x <- seek fuel (attempt simulate m) isinf PInf 0 None;
    let '(di, sim, n) := x in
    dc p <- cres (bound sim);
    cret (di, through par p, n).

  (** alg.py:42-45: a draw from the prior with some values imposed *)
  Definition attempt_from m (p0 : dict (V w)) : comp G (flt * pt) :=
    dc c <- clift (sample_prior (dm_bn m) (dm_exo m));
    dc c <- clift (fun r => match impulse c p0 (dm_bn m) r with
                            | (Ok _, c', r') => (Ok c', r')
                            | (Err e, _, r') => (Err e, r')
                            end);
    dc p <- clift (simulate c);
    distance m p.
  (** alg.py:37-48 sample_fin_cont *)
  Definition sample_fin_cont (fuel : nat) m (par : bool) (p0 : dict (V w)) : comp G (flt * pt * nat) :=
    dc x <- seek fuel (attempt_from m p0) isinf PInf 0 None;
    let '(di, sim, n) := x in
    dc p <- cres (bound sim);
    cret (di, through par p, n).

  (** alg.py:64-66 mutate *)
  Definition mutate (p0 : dict (V w)) (steps : dict step) : comp G (dict (V w)) :=
    dc sizes <- cmap (fun kv => clift (fun r => let (v, r') := normal (snd kv) r in (Ok (fst kv, v), r'))) steps;
    cres (mapM (fun ks => do v <- dgetE p0 (fst ks); do x <- vadd v (snd ks); Ok (fst ks, x)) sizes).

  (** the argument pt0 of sample_mutation: a particle, or its JSON in a worker *)
  Inductive source := SPt (p : pt) | SJs (j : jpt w).
  (** alg.py:72: the values to perturb *)
  Definition src_pars (s : source) : dict (V w) :=
    match s with SPt p => ch_locus (p_pars p) | SJs j => fst (j_pars j) end.
  (** alg.py:86: pt0['distance']: an entry of Notes for a particle; the JSON has only the keys
      Pars, Sims and Notes *)
  Definition src_distance (s : source) : res flt :=
    match s with
    | SPt p => match p_distance p with Some d => Ok d | None => Err KeyError end
    | SJs _ => Err KeyError
    end.

  (** alg.py:73-87 the loop of sample_mutation *)
  Fixpoint mut_loop (fuel : nat) m (s : source) (steps : dict step) (di : flt) (n : nat) (sim : option source)
    : comp G (flt * option source * nat) :=
    if isinf di then
      match fuel with
      | O => fun _ => None
      | S f =>
          dc p1 <- mutate (src_pars s) steps;
          dc c <- clift (serve m p1);
          if lp_isinf (ch_lp c) then mut_loop f m s steps di n sim
          else
            dc p <- clift (simulate c);
            dc dp <- distance m p;
            if Nat.ltb 20 (S n) then
              dc d <- cres (src_distance s);
              cret (d, Some s, S n)
            else mut_loop f m s steps (fst dp) (S n) (Some (SPt (snd dp)))
      end
    else cret (di, sim, n).

  (** alg.py:69-90 sample_mutation; in the worker sim.to_json() (a dictionary has no such method),
      which the parent turns back into a particle *)
  Definition sample_mutation (fuel : nat) m (par : bool) (steps : dict step) (p : pt) : comp G (flt * pt * nat) :=
    let s := if par then SJs (pt_to_json p) else SPt p in
    dc x <- mut_loop fuel m s steps PInf 0 None;
    let '(di, sim, n) := x in
    dc q <- cres (bound sim);
    dc q <- cres (match q with SPt q => Ok (through par q) | SJs _ => Err AttributeError end);
    cret (di, q, n).

  (** np.ones(n) / n *)
  Definition ones (n : nat) : list flt := repeat (fdivf (Fin 1) (Fin (INR n))) n.
  (** 1 / sum(wts * wts): for the empty array the sum is the integer 0 *)
  Definition ess_of (wts : list flt) : res flt :=
    match wts with
    | [] => Err ZeroDivisionError
    | _ => Ok (fdivf (Fin 1) (fsum (map (fun x => fmul x x) wts)))
    end.

  (** alg.py:122-158 initialise; [pars0] is set by set_parents (119-120) *)
  Definition initialise (fuel : nat) (g : cfg) m (pars0 : option (list (dict (V w)))) : comp G state :=
    let n := n_iter g in
    dc samples <- match pars0 with
                  | Some ps =>
                      dc ind <- choice_c (length ps) n (ones (length ps));
                      dc p0s <- cres (pick ps ind);
                      cmap (sample_fin_cont fuel m (parallel g)) p0s
                  | None => cmap (fun _ => sample_fin fuel m (parallel g)) (seq 0 n)
                  end;
    let pts := map (fun s => snd (fst s)) samples in
    let wts := ones n in
    dc ess <- cres (ess_of wts);
    cret (mkSt wts pts 0 0 ess 1 PInf (INR n * p_thres g)).

  (** [calc_distance(pt) for pt in theta]: the distances and the annotated particles *)
  Definition distances m (theta : list pt) : comp G (list flt * list pt) :=
    dc l <- cmap (distance m) theta;
    cret (map fst l, map snd l).

  Definition count {A} (f : A -> bool) (l : list A) : nat := length (filter f l).

  (** alg.py:160-166 find_eps *)
  Definition find_eps (g : cfg) m (eps0 : flt) (theta0 : list pt) : comp G (flt * list pt) :=
    dc l <- distances m theta0;
    let '(ds, theta0) := l in
    let e0 := (INR (count (fun d => fleb d eps0) ds) / INR (length ds))%R in
    dc q <- cres (quantile ds (alpha g * e0)%R);
    cret (q, theta0).

  (** alg.py:206-209 *)
  Fixpoint reweigh (eps0 eps1 : flt) (wts ds : list flt) : res (list flt) :=
    match wts, ds with
    | [], _ => Ok []
    | _, [] => Err IndexError
    | x :: wts', d :: ds' =>
        do l <- reweigh eps0 eps1 wts' ds';
        Ok ((if fltb d eps0 then (if fltb d eps1 then x else Fin 0) else x) :: l)
    end.
  (** wts /= wts.sum() *)
  Definition normalise (wts : list flt) : list flt := map (fun x => fdivf x (fsum wts)) wts.
  (** alg.py:202-211 update_wts *)
  Definition update_wts m (eps0 : flt) (theta0 : list pt) (wts0 : list flt) (eps1 : flt) : comp G (list flt * list pt) :=
    dc l <- distances m theta0;
    let '(ds, theta0) := l in
    dc wts <- cres (reweigh eps0 eps1 wts0 ds);
    cret (normalise wts, theta0).

  (** np.where(wts > 0, wts, 0), normalised *)
  Definition selection (wts : list flt) : list flt :=
    normalise (map (fun x => if fltb (Fin 0) x then x else Fin 0) wts).

  (** alg.py:213-228 resample *)
  Definition resample_smc (g : cfg) (theta0 : list pt) (wts : list flt) (thres : R) : comp G (list flt * list pt) :=
    if Nat.ltb 2 (count (fltb (Fin 0)) wts) then
      if fltb (Fin 1) (fmul (Fin thres) (fsum (map (fun x => fmul x x) wts))) then
        dc ind <- choice_c (length theta0) (n_iter g) (selection wts);
        dc theta1 <- cres (pick theta0 ind);
        cret (ones (n_iter g), map (fun p => pt_copy p) theta1)
      else cret (wts, map (fun p => pt_copy p) theta0)
    else cfail AssertionError.

  (** alg.py:244-248: which proposals are acceptable *)
  Fixpoint marks (eps1 : flt) (ps : list pt) (n : nat) : res (list bool) :=
    match ps with
    | [] => Ok (repeat false n)
    | p :: ps' =>
        do d <- src_distance (SPt p);
        match n with
        | O => if fltb d eps1 then Err IndexError else marks eps1 ps' O
        | S n' => do l <- marks eps1 ps' n'; Ok (fltb d eps1 :: l)
        end
    end.
  (** alg.py:251-260: the particles taken and the number of accepted proposals *)
  Fixpoint select (acc : list bool) (theta_p theta1 : list pt) : comp G (list pt * nat) :=
    match acc with
    | [] => cret ([], 0)
    | a :: acc' =>
        dc u <- clift (fun r => let (u, r') := unif r in (Ok u, r'));
        let hit := rltb u (if a then 1 else 0)%R in
        dc p <- cres (match (if hit then theta_p else theta1) with p :: _ => Ok p | [] => Err IndexError end);
        dc l <- select acc' (tl theta_p) (tl theta1);
        cret (p :: fst l, (if hit then 1 else 0) + snd l)
    end.

  (** alg.py:230-265 mcmc_proposal *)
  Definition mcmc_proposal (fuel : nat) (g : cfg) m (theta1 : list pt) (wts : list flt) (eps1 : flt)
    : comp G (list pt * flt * R) :=
    dc tau <- clift (wstd m theta1 wts);
    dc sample_p <- cmap (sample_mutation fuel m (parallel g) tau) theta1;
    let theta_p := map (fun s => snd (fst s)) sample_p in
    dc acc <- cres (marks eps1 theta_p (n_iter g));
    dc sel <- select acc theta_p theta1;
    dc ess <- cres (ess_of wts);
    dc a <- cres (idiv (snd sel) (n_iter g));
    cret (fst sel, ess, a).

  (** alg.py:174-200 _a_round *)
  Definition a_round (fuel : nat) (g : cfg) m (st : state) : comp G state :=
    let eps0 := s_eps st in
    dc x <- find_eps g m eps0 (s_pts st);
    let '(e, theta0) := x in
    let stay := if fleb eps0 e then S (s_stay st) else 0 in
    let eps1 := if fleb eps0 e then eps0 else e in
    dc x <- update_wts m eps0 theta0 (s_wts st) eps1;
    let '(wts, theta0) := x in
    dc x <- resample_smc g theta0 wts (s_thres st);
    let '(wts, theta1) := x in
    dc x <- mcmc_proposal fuel g m theta1 wts eps1;
    let '(pts, ess, acc) := x in
    cret (mkSt wts pts (S (s_rnd st)) stay ess acc eps1 (s_thres st)).

  (** alg.py:280-291 _check_termination *)
  Definition check_termination (g : cfg) (st : state) : bool :=
    if Z.leb (max_round g) (Z.of_nat (s_rnd st)) then true
    else if Nat.leb 3 (s_rnd st) && Z.leb (max_stay g) (Z.of_nat (s_stay st)) then true
    else rltb (s_acc st) (min_acc g).

  (** alg.py:168-172 update: [rounds] is the fuel of the outer loop *)
  Fixpoint update (rounds fuel : nat) (g : cfg) m (st : state) : comp G state :=
    match rounds with
    | O => fun _ => None
    | S n =>
        dc st' <- a_round fuel g m st;
        if check_termination g st' then cret st' else update n fuel g m st'
    end.

  (** base.py:211-217 fit, for this fitter *)
  Definition smc_fit (rounds fuel : nat) (g : cfg) m (pars0 : option (list (dict (V w)))) : comp G state :=
    dc st <- initialise fuel g m pars0;
    update rounds fuel g m st.

  (** alg.py:322-327: both branches append pt1 *)
  Fixpoint collect_smc (eps : flt) (theta1 theta_p : list pt) : res (list pt) :=
    match theta1, theta_p with
    | pt1 :: theta1', ptp :: theta_p' =>
        do d <- src_distance (SPt ptp);
        do l <- collect_smc eps theta1' theta_p';
        Ok ((if fltb d eps then pt1 else pt1) :: l)
    | _, _ => Ok []
    end.
  (** alg.py:296-332 sample_posteriors *)
  Definition smc_posteriors (fuel : nat) (g : cfg) m (st : state) (n_collect : nat) : comp G (list pt) :=
    dc ind <- choice_c (length (s_pts st)) n_collect (selection (s_wts st));
    dc theta1 <- cres (pick (s_pts st) ind);
    dc tau <- clift (wstd m (s_pts st) (s_wts st));
    dc sample_p <- cmap (sample_mutation fuel m (parallel g) tau) theta1;
    cres (collect_smc (s_eps st) theta1 (map (fun s => snd (fst s)) sample_p)).
End SMC.
Arguments state w : clear implicits.
Arguments source w : clear implicits.
