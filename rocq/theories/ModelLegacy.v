(** * Model of the older package fitting/ (base.py, util.py, fitter.py)

    The classes use the Chromosome of bayesnet/chromosome.py. Its instances take any attribute, so
    LogPrior and LogLikelihood exist once they have been assigned; the methods is_prior_evaluated and
    is_likelihood_evaluated that base.py calls exist nowhere in the repository, a call is an
    AttributeError. fitter.py imports a package `fit` instead of `sims_pars.fit`; it is transcribed
    as if that import gave sims_pars.fit. Log messages and verbose output are left out, joblib
    tasks run one after the other on one generator (as in ModelABC). *)

Require Import Coq.Reals.Reals.
Require Import Verif.Base Verif.World Verif.ModelGraph Verif.ModelExpr Verif.ModelLoci Verif.ModelBN Verif.ModelSample
        Verif.ModelScript Verif.ModelNum Verif.ModelFloat Verif.ModelFitBase Verif.ModelABC.
Local Open Scope nat_scope.

Section Legacy.
  Context {w : world}.
  Notation G := (RNG w).

  (** A chromosome (chromosome.py:8-11) with the attributes base.py and util.py assign to it *)
  Record lchrom := mkL { l_ch : chrom w; l_prior : option flt; l_lik : option flt }.
  (** chromosome.py:9-11 Chromosome(vs): LogProb is nan, nothing else assigned *)
  Definition l_new (d : dict (V w)) : lchrom := mkL (mkChrom d (lp_nan w)) None None.
  (** chromosome.py:68-70 clone: only Locus and LogProb are handed on *)
  Definition l_clone (c : lchrom) : lchrom := mkL (ch_clone (l_ch c)) None None.
  (** fitting/util.py:18-19, 57-58: the empty chromosome that stands for a failure *)
  Definition l_failed : lchrom := mkL (mkChrom [] (lp_nan w)) None (Some NInf).
  (** reading an attribute *)
  Definition getattr {A} (o : option A) : res A := match o with Some a => Ok a | None => Err AttributeError end.

  (** fitting/base.py:14-53 AbsObjective: what the functions of util.py call. evaluate_prior and
      evaluate may assign attributes, so they give the chromosome back; [ob_eval] also the value. *)
  Record objective := mkOb {
    ob_sample : comp G lchrom;
    ob_serve : dict (V w) -> comp G lchrom;
    ob_prior : lchrom -> comp G lchrom;
    ob_eval : lchrom -> comp G (flt * lchrom)
  }.

  (** fitting/base.py:45-49 evaluate as inherited: calls the missing is_likelihood_evaluated *)
  Definition base_evaluate (c : lchrom) : comp G (flt * lchrom) := cfail AttributeError.

  (** fitting/base.py:28-31 serve_from_json: p = serve(js['Locus']), then js['LogPrior']; the JSON
      of chromosome.py:87-91 has the keys Locus and LogProb only *)
  Definition l_serve_from_json (ob : objective) (js : dict (V w) * LP w) : comp G lchrom :=
    dc _ <- ob_serve ob (fst js); cfail KeyError.

  (** ** fitting/base.py:56-107 AbsObjectiveBN *)

  (** base.py:96-99 evaluate_prior: calls the missing is_prior_evaluated *)
  Definition bn_evaluate_prior (b : bn w) (c : lchrom) : res lchrom := Err AttributeError.

  (** base.py:89-94 sample_prior *)
  Definition bn_sample_prior (b : bn w) (exo : dict (V w)) (r : G) : res lchrom * G :=
    match sample b exo r with
    | (Err e, r') => (Err e, r')
    | (Ok p, r') => (bn_evaluate_prior b (l_new (dupdate p exo)), r')
    end.

  (** base.py:73-78 serve *)
  Definition bn_serve (b : bn w) (exo : dict (V w)) (p : dict (V w)) (r : G) : res lchrom * G :=
    match sample b (dupdate p exo) r with
    | (Err e, r') => (Err e, r')
    | (Ok p, r') => (bn_evaluate_prior b (l_new p), r')
    end.

  (** [node for node in l if f(node)] where f may raise *)
  Fixpoint filterM {A} (f : A -> res bool) (l : list A) : res (list A) :=
    match l with
    | [] => Ok []
    | a :: l' => do b <- f a; do l2 <- filterM f l'; Ok (if b then a :: l2 else l2)
    end.

  (** base.py:57-62 the argument bn: a network, a script or JSON *)
  Inductive source := FromNet (b : bn w) | FromScript (t : text) | FromJson (j : bnjson w).
  Definition read_source (y : syntax w) (s : source) : res (bn w) :=
    match s with
    | FromNet b => Ok b
    | FromScript t => do s <- bayes_net_from_script y t; Ok (sn_bn s)
    | FromJson j => bayes_net_from_json j
    end.

  (** isinstance(v, float) *)
  Context (is_float : V w -> bool).

  (** base.py:57-71 __init__: the network and FreeParameters *)
  Definition objective_init (y : syntax w) (s : source) (exo : dict (V w)) (r : G) : res (bn w * list name) * G :=
    match (do b <- read_source y s; do od <- Order b;
           do free <- filterM (fun n => do rv <- is_rv b n; Ok (rv && negb (dmem n exo))) od; Ok (b, free)) with
    | Err e => (Err e, r)
    | Ok (b, free) =>
        match bn_sample_prior b exo r with
        | (Err e, r') => (Err e, r')
        | (Ok p0, r') =>
            let pfs := map fst (filter (fun kv => is_float (snd kv)) (ch_locus (l_ch p0))) in
            (Ok (b, filter (fun n => mem n pfs) free), r')
        end
    end.

  (** ** fitting/util.py *)

  (** util.py:12-20 the loop of draw. [p] is None before the first round. *)
  Fixpoint draw_loop (fuel : nat) (ob : objective) (p : option lchrom) (li : flt) (i : nat) : comp G (option lchrom * nat) :=
    if isinf li then
      match fuel with
      | O => fun _ => None
      | S f =>
          dc p <- ob_sample ob;
          dc lp <- ob_eval ob p;
          let i := S i in
          if Nat.ltb 20 i then cret (Some l_failed, i) else draw_loop f ob (Some (snd lp)) (fst lp) i
      end
    else cret (p, i).
  (** util.py:11-24 draw, unpack=False *)
  Definition draw (fuel : nat) (ob : objective) : comp G (option lchrom * nat) := draw_loop fuel ob None PInf 0.
  (** p.to_json(); None has no such method *)
  Definition l_json (p : option lchrom) : res (dict (V w) * LP w) := do c <- getattr p; Ok (ch_to_json (l_ch c)).
  (** util.py:21-22 draw, unpack=True *)
  Definition draw_json (fuel : nat) (ob : objective) : comp G (dict (V w) * LP w * nat) :=
    dc x <- draw fuel ob; dc j <- cres (l_json (fst x)); cret (j, snd x).

  (** util.py:27-29 draw_parallel *)
  Definition draw_parallel (fuel : nat) (ob : objective) (n_sim : nat) : comp G (list (lchrom * nat)) :=
    dc samples <- cmap (fun _ => draw_json fuel ob) (seq 0 n_sim);
    cmap (fun s => dc p <- l_serve_from_json ob (fst s); cret (p, snd s)) samples.

  (** v + size for a value of the network and a float *)
  Context (addv : V w -> R -> res (V w)).
  (** np.random.normal(0, v) *)
  Context (normal : R -> G -> res R * G).

  (** util.py:32-37 mutate. impulse without a network: nothing is checked, attributes assigned
      from outside stay as the clone has them (missing). *)
  Definition mutate (p0 : lchrom) (sizes : dict R) : res lchrom :=
    let p := l_clone p0 in
    do changes <- mapM (fun kv => match dget sizes (fst kv) with
                                  | Some s => do v <- addv (snd kv) s; Ok (fst kv, v)
                                  | None => Err KeyError
                                  end)
                       (filter (fun kv => dmem (fst kv) sizes) (ch_locus (l_ch p)));
    Ok (mkL (impulse_plain (l_ch p) changes) (l_prior p) (l_lik p)).

  (** util.py:43, 71 {k: np.random.normal(0, v) for k, v in scale.items()} *)
  Definition draw_sizes (scale : dict R) : comp G (dict R) :=
    cmap (fun kv => dc x <- clift (normal (snd kv)); cret (fst kv, x)) scale.

  (** util.py:41-60 the loop of mutate_and_draw with its else branch: leaving the loop because
      the likelihood is finite replaces the mutant by a clone of [p0]; break does not. *)
  Fixpoint mutate_loop (fuel : nat) (ob : objective) (p0 : lchrom) (scale : dict R) (li : flt) (i : nat) : comp G (lchrom * nat) :=
    if isinf li then
      match fuel with
      | O => fun _ => None
      | S f =>
          dc sizes <- draw_sizes scale;
          match mutate p0 sizes with
          | Err ValueError => mutate_loop f ob p0 scale li i
          | Err e => cfail e
          | Ok p =>
              dc p <- ob_prior ob p;
              dc lp <- cres (getattr (l_prior p));
              if isinf lp then mutate_loop f ob p0 scale li i
              else
                dc x <- ob_eval ob p;
                let i := S i in
                if Nat.ltb 20 i then cret (l_failed, i) else mutate_loop f ob p0 scale (fst x) i
          end
      end
    else cret (l_clone p0, i).
  (** util.py:40-65 mutate_and_draw, unpack=False *)
  Definition mutate_and_draw (fuel : nat) (ob : objective) (p0 : lchrom) (scale : dict R) : comp G (lchrom * nat) :=
    mutate_loop fuel ob p0 scale PInf 0.

  (** util.py:68-89 __mutate_and_draw, the version for parallel runs: the mutant is served, and
      there is no else branch *)
  Fixpoint serve_loop (fuel : nat) (ob : objective) (p0 : dict (V w)) (scale : dict R) (p : option lchrom) (li : flt) (i : nat)
    : comp G (option lchrom * nat) :=
    if isinf li then
      match fuel with
      | O => fun _ => None
      | S f =>
          dc sizes <- draw_sizes scale;
          dc q <- cres (mapM (fun kv => match dget p0 (fst kv) with
                                        | Some v => do u <- addv v (snd kv); Ok (fst kv, u)
                                        | None => Err KeyError
                                        end) sizes);
          fun r => match ob_serve ob q r with
          | None => None
          | Some (Err ValueError, r') => serve_loop f ob p0 scale p li i r'
          | Some (Err e, r') => Some (Err e, r')
          | Some (Ok c, r') =>
              (dc c <- ob_prior ob c;
               dc lp <- cres (getattr (l_prior c));
               if isinf lp then serve_loop f ob p0 scale (Some c) li i
               else
                 dc x <- ob_eval ob c;
                 let i := S i in
                 if Nat.ltb 20 i then cret (Some l_failed, i) else serve_loop f ob p0 scale (Some (snd x)) (fst x) i) r'
          end
      end
    else cret (p, i).
  (** util.py:92-95 mutate_and_draw_parallel *)
  Definition mutate_and_draw_parallel (fuel : nat) (ob : objective) (p0s : list lchrom) (scale : dict R) : comp G (list (lchrom * nat)) :=
    dc ps <- cmap (fun p0 => dc x <- serve_loop fuel ob (ch_locus (l_ch p0)) scale None PInf 0;
                             dc j <- cres (l_json (fst x)); cret (j, snd x)) p0s;
    cmap (fun s => dc p <- l_serve_from_json ob (fst s); cret (p, snd s)) ps.

  (** util.py:104-112 serve_and_evaluate of a chromosome *)
  Definition serve_and_evaluate (ob : objective) (p : lchrom) : comp G lchrom :=
    dc p <- ob_prior ob p;
    dc lp <- cres (getattr (l_prior p));
    if isinf lp then cret p else dc x <- ob_eval ob p; cret (snd x).
  (** util.py:115-129 serve_and_evaluate_parallel *)
  Definition serve_and_evaluate_parallel (ob : objective) (p0s : list lchrom) : comp G (list lchrom) :=
    dc ps <- cmap (fun p0 => dc c <- ob_serve ob (ch_locus (l_ch p0)); dc q <- serve_and_evaluate ob c; cret (ch_to_json (l_ch q))) p0s;
    cmap (l_serve_from_json ob) ps.

  (** ** fitting/fitter.py PriorSampling *)

  (** fit/results.py:6-23 ParameterSet: the particles and the note N_Eval. It has no method finish. *)
  Record pset := mkPset { ps_particles : list (option lchrom); ps_neval : option nat }.

  (** fitter.py:124-129 the serial loop: what is in the collector when it ends or fails *)
  Fixpoint collect_serial (fuel : nat) (ob : objective) (k : nat) (ps : list (option lchrom)) (n_eval : nat) (r : G)
    : option (res unit * pset * G) :=
    match k with
    | O => Some (Ok tt, mkPset ps (Some n_eval), r)
    | S k' => match draw fuel ob r with
              | None => None
              | Some (Err e, r') => Some (Err e, mkPset ps None, r')
              | Some (Ok (p, i), r') => collect_serial fuel ob k' (ps ++ [p]) (S n_eval) r'
              end
    end.
  (** fitter.py:116-118: the particles of the parallel run, appended one by one *)
  Fixpoint append_served (ob : objective) (l : list (dict (V w) * LP w * nat)) (ps : list (option lchrom)) (r : G)
    : option (res unit * list (option lchrom) * G) :=
    match l with
    | [] => Some (Ok tt, ps, r)
    | s :: l' => match l_serve_from_json ob (fst s) r with
                 | None => None
                 | Some (Err e, r') => Some (Err e, ps, r')
                 | Some (Ok p, r') => append_served ob l' (ps ++ [Some p]) r'
                 end
    end.
  (** fitter.py:107-133 collect, called by fit (fitter.py:76-82; initialise and update do nothing):
      outcome, the collector left behind, generator. The last statement is res.finish(). *)
  Definition prior_collect (fuel : nat) (ob : objective) (parallel : bool) (n_collect : nat) (r : G) : option (res unit * pset * G) :=
    let finish := fun x : res unit * pset * G =>
      match x with (Ok _, ps, r') => (Err AttributeError, ps, r') | (Err e, ps, r') => (Err e, ps, r') end in
    if parallel then
      match cmap (fun _ => draw_json fuel ob) (seq 0 n_collect) r with
      | None => None
      | Some (Err e, r') => Some (Err e, mkPset [] None, r')
      | Some (Ok l, r') => match append_served ob l [] r' with
                           | None => None
                           | Some (Err e, ps, r2) => Some (Err e, mkPset ps None, r2)
                           | Some (Ok _, ps, r2) => Some (finish (Ok tt, mkPset ps (Some (nsum (map snd l))), r2))
                           end
      end
    else option_map finish (collect_serial fuel ob n_collect [] 0 r).
End Legacy.
Arguments lchrom w : clear implicits.
Arguments objective w : clear implicits.
Arguments pset w : clear implicits.
