(** * Model of fit/base.py: Particle, DataModel, settings of Fitter *)

Require Import Verif.Base Verif.World Verif.ModelGraph Verif.ModelExpr Verif.ModelLoci Verif.ModelBN Verif.ModelSample.

Section FitBase.
  Context {w : world}.
  (** distances and log-likelihoods: numbers with 0 and + *)
  Context {D : Type} (d0 : D) (dadd : D -> D -> D).
  (** isinstance(v, float) *)
  Context (is_float : V w -> bool).

  (** targets/base.py AbsData: the two functions of the simulated values *)
  Record target := mkTarget { t_dist : dict (V w) -> res D; t_lik : dict (V w) -> res D }.

  (** base.py:27-37 Particle. Of the dict Notes the entries written in base.py are fields of
      their own (None: no such key), all others are in [p_notes]. *)
  Record particle := mkPt {
    p_pars : chrom w; p_sims : dict (V w);
    p_xs : option (list (V w)); p_ys : option (dict (V w));
    p_distance : option D; p_loglik : option D; p_notes : dict (V w)
  }.
  Definition pt_new (c : chrom w) (sims : dict (V w)) : particle := mkPt c sims None None None None [].
  Definition pt_set_xs (p : particle) x := mkPt (p_pars p) (p_sims p) (Some x) (p_ys p) (p_distance p) (p_loglik p) (p_notes p).
  Definition pt_set_ys (p : particle) y := mkPt (p_pars p) (p_sims p) (p_xs p) (Some y) (p_distance p) (p_loglik p) (p_notes p).
  Definition pt_set_distance (p : particle) d := mkPt (p_pars p) (p_sims p) (p_xs p) (p_ys p) (Some d) (p_loglik p) (p_notes p).
  Definition pt_set_loglik (p : particle) d := mkPt (p_pars p) (p_sims p) (p_xs p) (p_ys p) (p_distance p) (Some d) (p_notes p).

  (** base.py:46-53 Particle.copy: Xs and Ys are taken along, nothing else *)
  Definition pt_copy (p : particle) : particle :=
    mkPt (ch_clone (p_pars p)) (p_sims p) (p_xs p) (p_ys p) None None [].

  (** base.py:62-79 DataModel: FreeParameters, ExoParameters, BayesianNetwork, Data *)
  Record dmodel := mkDM { dm_data : dict target; dm_bn : bn w; dm_exo : dict (V w); dm_free : list name }.

  (** base.py:101-105 sample_prior *)
  Definition sample_prior (b : bn w) (exo : dict (V w)) (r : RNG w) : res (chrom w) * RNG w :=
    match sample b exo r with
    | (Err e, r') => (Err e, r')
    | (Ok p, r') => match evaluate_nodes b p with
                    | Err e => (Err e, r')
                    | Ok lp => (Ok (mkChrom p lp), r')
                    end
    end.

  (** base.py:63-79 DataModel.__init__ for a network object *)
  Definition dm_init (data : dict target) (b : bn w) (exo : dict (V w)) (r : RNG w) : res dmodel * RNG w :=
    match RVRoots b with
    | Err e => (Err e, r)
    | Ok rv =>
        let free := filter (fun n => negb (dmem n exo)) rv in
        match sample_prior b exo r with
        | (Err e, r') => (Err e, r')
        | (Ok p0, r') =>
            let pfs := map fst (filter (fun kv => is_float (snd kv)) (ch_locus p0)) in
            (Ok (mkDM data b exo (filter (fun n => mem n pfs) free)), r')
        end
    end.

  (** base.py:81-85 serve *)
  Definition serve (m : dmodel) (p : dict (V w)) (r : RNG w) : res (chrom w) * RNG w :=
    sample_chromosome (dm_bn m) (dupdate p (dm_exo m)) r.

  (** base.py:96-99 serve_from_json *)
  Definition serve_from_json (m : dmodel) (js : dict (V w) * LP w) (r : RNG w) : res (chrom w) * RNG w :=
    match serve m (fst js) r with
    | (Ok c, r') => (Ok (mkChrom (ch_locus c) (snd js)), r')
    | (Err e, r') => (Err e, r')
    end.

  (** bn[node].get_distribution(p): only distribution nodes have it *)
  Definition node_distribution (b : bn w) (n : name) (p : env w) : res (Dist w) :=
    do l <- bget b n;
    match l with LDist _ f _ => get_distribution f p | _ => Err AttributeError end.

  (** base.py:87-94 the property Domain: names with their distributions (type, limits, mean
      and standard deviation are read off the distribution) *)
  Definition dm_domain (m : dmodel) (r : RNG w) : res (list (name * Dist w)) * RNG w :=
    match sample_prior (dm_bn m) (dm_exo m) r with
    | (Err e, r') => (Err e, r')
    | (Ok p, r') =>
        (do rv <- RVRoots (dm_bn m);
         mapM (fun n => do d <- node_distribution (dm_bn m) n (dget (ch_locus p)); Ok (n, d)) rv, r')
    end.

  (** base.py:107-110 evaluate_prior: the value returned and the chromosome left behind *)
  Definition evaluate_prior (m : dmodel) (c : chrom w) : res (LP w) * chrom w :=
    if ch_evaluated c then (Ok (ch_lp c), c)
    else match evaluate_nodes (dm_bn m) (ch_locus c) with
         | Ok lp => (Ok lp, mkChrom (ch_locus c) lp)
         | Err e => (Err e, c)
         end.

  (** {k: sim[k] for k in ks} *)
  Definition pick (sims : dict (V w)) (ks : list name) : res (dict (V w)) :=
    mapM (fun k => do v <- dgetE sims k; Ok (k, v)) ks.

  (** base.py:150-155 flatten: outcome, particle left behind, generator *)
  Definition flatten (m : dmodel) (p : particle) (r : RNG w) : res unit * particle * RNG w :=
    match dm_domain m r with
    | (Err e, r') => (Err e, p, r')
    | (Ok dom, r') =>
        match mapM (fun nd => dgetE (ch_locus (p_pars p)) (fst nd)) dom with
        | Err e => (Err e, p, r')
        | Ok xs =>
            let p1 := pt_set_xs p xs in
            match pick (p_sims p) (dkeys (dm_data m)) with
            | Err e => (Err e, p1, r')
            | Ok ys => (Ok tt, pt_set_ys p1 ys, r')
            end
        end
    end.

  (** try: particle['Ys'] except KeyError: flatten *)
  Definition need_ys (m : dmodel) (p : particle) (r : RNG w) : res (dict (V w)) * particle * RNG w :=
    match p_ys p with
    | Some ys => (Ok ys, p, r)
    | None => match flatten m p r with
              | (Err e, p', r') => (Err e, p', r')
              | (Ok _, p', r') => (match p_ys p' with Some ys => Ok ys | None => Err KeyError end, p', r')
              end
    end.

  (** base.py:126-128, 143-145 the loop over the data *)
  Definition total (f : target -> dict (V w) -> res D) (data : dict target) (ys : dict (V w)) : res D :=
    foldM (fun acc kt => do d <- f (snd kt) ys; Ok (dadd acc d)) data d0.

  (** base.py:116-131 calc_distance *)
  Definition calc_distance (m : dmodel) (p : particle) (r : RNG w) : res D * particle * RNG w :=
    match p_distance p with
    | Some d => (Ok d, p, r)
    | None =>
        match need_ys m p r with
        | (Err e, p', r') => (Err e, p', r')
        | (Ok ys, p', r') => match total t_dist (dm_data m) ys with
                             | Err e => (Err e, p', r')
                             | Ok d => (Ok d, pt_set_distance p' d, r')
                             end
        end
    end.

  (** base.py:133-148 calc_likelihood *)
  Definition calc_likelihood (m : dmodel) (p : particle) (r : RNG w) : res D * particle * RNG w :=
    match p_loglik p with
    | Some d => (Ok d, p, r)
    | None =>
        match need_ys m p r with
        | (Err e, p', r') => (Err e, p', r')
        | (Ok ys, p', r') => match total t_lik (dm_data m) ys with
                             | Err e => (Err e, p', r')
                             | Ok d => (Ok d, pt_set_loglik p' d, r')
                             end
        end
    end.
End FitBase.
Arguments target w D : clear implicits.
Arguments particle w D : clear implicits.
Arguments dmodel w D : clear implicits.

(** base.py:206-209 Fitter.update_settings *)
Definition update_settings {V : Type} (settings kwargs : dict V) : dict V :=
  fold_left (fun s kv => if dmem (fst kv) s then dset s (fst kv) (snd kv) else s) kwargs settings.

(** base.py:175-181 Fitter.__init__ and 211-217 fit: constructor keywords, then the keywords of
    every call of fit *)
Definition settings_after {V : Type} (defaults : dict V) (calls : list (dict V)) : dict V :=
  fold_left update_settings calls defaults.
