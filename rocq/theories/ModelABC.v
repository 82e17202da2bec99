(** * Model of fit/abcom/alg.py: approximate Bayesian computation by rejection

    A computation takes the generator and gives None when the fuel of one of its loops is used up
    (the Python loop is then still running), otherwise an outcome and the generator left behind.
    Simplifications: tasks handed to joblib are run one after the other on one generator (the
    generator's type and all functions of it are arbitrary, so it may consist of one part per
    worker); the log messages are left out, except that their divisions are kept. *)

Require Import Verif.Base Verif.World Verif.ModelGraph Verif.ModelExpr Verif.ModelLoci Verif.ModelBN Verif.ModelSample
        Verif.ModelFitBase Verif.ModelFloat.

Section Comp.
  Context {G : Type}.
  Definition comp (A : Type) : Type := G -> option (res A * G).
  Definition cret {A} (a : A) : comp A := fun r => Some (Ok a, r).
  Definition cfail {A} (e : exn) : comp A := fun r => Some (Err e, r).
  Definition cbind {A B} (x : comp A) (f : A -> comp B) : comp B := fun r =>
    match x r with
    | None => None
    | Some (Err e, r') => Some (Err e, r')
    | Some (Ok a, r') => f a r'
    end.
  (** a function that always returns *)
  Definition clift {A} (f : G -> res A * G) : comp A := fun r => Some (f r).
  Definition cres {A} (x : res A) : comp A := fun r => Some (x, r).
  (** [f x for x in l], in order *)
  Fixpoint cmap {A B} (f : A -> comp B) (l : list A) : comp (list B) :=
    match l with
    | [] => cret []
    | a :: l' => cbind (f a) (fun b => cbind (cmap f l') (fun bs => cret (b :: bs)))
    end.
End Comp.
Arguments comp : clear implicits.
Notation "'dc' x <- a ; b" := (cbind a (fun x => b)) (at level 200, x pattern, a at level 100, b at level 200).

Section ABC.
  Context {w : world}.
  Notation pt := (particle w flt).
  Notation G := (RNG w).
  Implicit Types (m : dmodel w flt).

  (** DataModel.simulate, abstract in base.py:112-114 *)
  Context (simulate : chrom w -> G -> res pt * G).

  (** base.py:116-131 calc_distance on floats: the distance and the annotated particle *)
  Definition distance m (p : pt) : comp G (flt * pt) := fun r =>
    match calc_distance (Fin 0) fadd m p r with
    | (Ok d, p', r') => Some (Ok (d, p'), r')
    | (Err e, _, r') => Some (Err e, r')
    end.

  (** abcom/alg.py:22-24, abc_smc/alg.py:29-31, 57-58: one draw from the prior, simulated and measured *)
  Definition attempt m : comp G (flt * pt) :=
    dc c <- clift (sample_prior (dm_bn m) (dm_exo m));
    dc p <- clift (simulate c);
    distance m p.

  (** while test(di): n_eval += 1; ...; di = ...  The local variable sim is None before it is bound. *)
  Fixpoint seek (fuel : nat) (draw : comp G (flt * pt)) (test : flt -> bool) (di : flt) (n : nat) (sim : option pt)
    : comp G (flt * option pt * nat) :=
    if test di then
      match fuel with
      | O => fun _ => None
      | S f => dc dp <- draw; seek f draw test (fst dp) (S n) (Some (snd dp))
      end
    else cret (di, sim, n).

  (** reading the local variable sim *)
  Definition bound {A} (o : option A) : res A := match o with Some a => Ok a | None => Err UnboundLocalError end.

  (** abcom/alg.py:17-25 *)
  Definition sample_fin_abc (fuel : nat) m : comp G (flt * nat) :=
    dc x <- seek fuel (attempt m) isinf PInf 0 None;
    let '(di, _, n) := x in cret (di, n).

  (** abcom/alg.py:28-36; the particle is returned as JSON *)
  Record jpt := mkJ {
    j_pars : dict (V w) * LP w; j_sims : dict (V w);
    j_xs : option (list (V w)); j_ys : option (dict (V w));
    j_distance : option flt; j_loglik : option flt; j_notes : dict (V w)
  }.
  (** base.py:39-44 to_json, 55-59 from_json *)
  Definition pt_to_json (p : pt) : jpt :=
    mkJ (ch_to_json (p_pars p)) (p_sims p) (p_xs p) (p_ys p) (p_distance p) (p_loglik p) (p_notes p).
  Definition pt_from_json (j : jpt) : pt :=
    mkPt (ch_from_json (j_pars j)) (j_sims j) (j_xs j) (j_ys j) (j_distance j) (j_loglik j) (j_notes j).

  Definition sample_ess_abc (fuel : nat) m (eps : flt) : comp G (flt * jpt * nat) :=
    dc x <- seek fuel (attempt m) (fun di => fltb eps di) PInf 0 None;
    let '(di, sim, n) := x in
    dc p <- cres (bound sim);
    cret (di, pt_to_json p, n).

  (** sum of the evaluation counters *)
  Definition nsum (l : list nat) : nat := fold_left Nat.add l 0%nat.

  (** a / b of Python integers *)
  Definition idiv (a b : nat) : res R := if Nat.eqb b 0 then Err ZeroDivisionError else Ok (INR a / INR b)%R.

  (** abcom/alg.py:53-82 initialise: the tolerance State.Eps. The two branches collect the same lists. *)
  Definition abc_initialise (fuel : nat) m (n_test : nat) (p_test : R) : comp G flt :=
    dc samples <- cmap (fun _ => sample_fin_abc fuel m) (seq 0 n_test);
    dc eps <- cres (quantile (map fst samples) p_test);
    dc _ <- cres (idiv n_test (nsum (map snd samples)));
    cret eps.

  (** base.py:150-155 flatten of the particles in place *)
  Definition flatten_c m (p : pt) : comp G pt := fun r =>
    match flatten m p r with
    | (Ok _, p', r') => Some (Ok p', r')
    | (Err e, _, r') => Some (Err e, r')
    end.

  (** abcom/alg.py:90-119 sample_posteriors: the particles, the acceptance and the number of evaluations.
      Without parallel the list holds JSON dictionaries, which have no attribute Pars. *)
  Definition abc_posteriors (fuel : nat) m (parallel : bool) (eps : flt) (n_collect : nat) : comp G (list pt * R * nat) :=
    dc samples <- cmap (fun _ => sample_ess_abc fuel m eps) (seq 0 n_collect);
    let n_eval := nsum (map (fun s => snd s) samples) in
    dc post <- (if parallel then cmap (fun s => flatten_c m (pt_from_json (snd (fst s)))) samples
                else match samples with [] => cret [] | _ => cfail AttributeError end);
    dc acc <- cres (idiv n_collect n_eval);
    cret (post, acc, n_eval).
End ABC.
Arguments jpt w : clear implicits.
