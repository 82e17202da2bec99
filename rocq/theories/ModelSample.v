(** * Model of fn.py (sampling and evaluation) and bayesnet/chromosome.py *)

Require Import Verif.Base Verif.World Verif.ModelGraph Verif.ModelExpr Verif.ModelLoci Verif.ModelBN.

Section Sample.
  Context {w : world}.

  (** g.nodes[nod]['loci'].render(res) *)
  Definition node_render (b : bn w) (n : name) (res0 : env w) (r : RNG w) : res (V w * RNG w) :=
    do l <- bget b n; render l res0 r.

  (** The loops fn.py:22-24 and fn.py:51-53: render the nodes selected by [sel] that are not
      in the result yet. Outcome, the dict built so far and the generator. *)
  Fixpoint sample_loop (b : bn w) (sel : name -> bool) (od : list name)
           (res0 : dict (V w)) (r : RNG w) : res unit * dict (V w) * RNG w :=
    match od with
    | [] => (Ok tt, res0, r)
    | n :: od' =>
        if sel n && negb (dmem n res0)
        then match node_render b n (dget res0) r with
             | Ok (v, r') => sample_loop b sel od' (dset res0 n v) r'
             | Err e => (Err e, res0, r)
             end
        else sample_loop b sel od' res0 r
    end.

  (** fn.py:8-25 sample ([cond=None] is the empty dict): outcome and generator *)
  Definition sample (b : bn w) (cond : dict (V w)) (r : RNG w) : res (dict (V w)) * RNG w :=
    match Exo b with
    | Err e => (Err e, r)
    | Ok ex =>
        if existsb (fun n => negb (dmem n cond)) ex then (Err ValueError, r)
        else match Order b with
             | Err e => (Err e, r)
             | Ok od => match sample_loop b (fun _ => true) od cond r with
                        | (Ok _, d, r') => (Ok d, r')
                        | (Err e, _, r') => (Err e, r')
                        end
             end
    end.

  (** fn.py:28-59 sample_minimally; sinks and mediators (with sources=False only the first
      component is returned) *)
  Definition sample_minimally (b : bn w) (included : list name) (cond : dict (V w)) (r : RNG w)
    : res (dict (V w) * dict (V w)) * RNG w :=
    match get_sufficient_nodes (dag b) included (dkeys cond) with
    | Err e => (Err e, r)
    | Ok suf =>
        match Exo b with
        | Err e => (Err e, r)
        | Ok ex =>
            if existsb (fun n => mem n suf && negb (dmem n cond)) ex then (Err ValueError, r)
            else match Order b with
                 | Err e => (Err e, r)
                 | Ok od => match sample_loop b (fun n => mem n suf) od cond r with
                            | (Ok _, d, r') =>
                                (Ok (dfilter (fun k => mem k included) d,
                                     dfilter (fun k => negb (mem k included)) d), r')
                            | (Err e, _, r') => (Err e, r')
                            end
                 end
        end
    end.

  (** fn.py:62-75 evaluate_nodes. np.sum of the list is a left fold from zero. *)
  Definition lp_sum (l : list (LP w)) : LP w := fold_left (lp_add w) l (lp_zero w).
  Definition evaluate_nodes (b : bn w) (pars : dict (V w)) : res (LP w) :=
    do lps <- mapM (fun k => do l <- bget b k; evaluate l (dget pars))
                   (filter (in_dag b) (dkeys pars));
    let s := lp_sum lps in
    Ok (if lp_isnan w s then lp_ninf w else s).

  (** ** Chromosome (chromosome.py) *)

  (** chromosome.py:9-11 *)
  Record chrom := mkChrom { ch_locus : dict (V w); ch_lp : LP w }.

  (** chromosome.py:72-73 reset_probability; 25-27 __setitem__ *)
  Definition ch_reset (c : chrom) : chrom := mkChrom (ch_locus c) (lp_nan w).
  Definition ch_set (c : chrom) (k : name) (v : V w) : chrom :=
    mkChrom (dset (ch_locus c) k v) (lp_nan w).
  (** chromosome.py:75-76 is_evaluated *)
  Definition ch_evaluated (c : chrom) : bool := negb (lp_isnan w (ch_lp c)).
  (** chromosome.py:68-70 clone *)
  Definition ch_clone (c : chrom) : chrom := mkChrom (ch_locus c) (ch_lp c).
  (** chromosome.py:87-91 to_json and 100-101 from_json (js['Locus'], js['LogProb']) *)
  Definition ch_to_json (c : chrom) : dict (V w) * LP w := (ch_locus c, ch_lp c).
  Definition ch_from_json (js : dict (V w) * LP w) : chrom := mkChrom (fst js) (snd js).
  (** chromosome.py:93-97 to_data; a log-probability becomes a value through [inj] *)
  Definition ch_to_data (inj : LP w -> V w) (c : chrom) : dict (V w) :=
    if ch_evaluated c then dset (ch_locus c) "LogProb" (inj (ch_lp c)) else ch_locus c.

  (** chromosome.py:55-57: re-render the shocked nodes in topological order. Outcome, the
      chromosome and the generator. *)
  Fixpoint impulse_loop (b : bn w) (shocked : list name) (od : list name) (c : chrom) (r : RNG w)
    : res unit * chrom * RNG w :=
    match od with
    | [] => (Ok tt, c, r)
    | n :: od' =>
        if mem n shocked
        then match node_render b n (dget (ch_locus c)) r with
             | Ok (v, r') => impulse_loop b shocked od' (ch_set c n v) r'
             | Err e => (Err e, c, r)
             end
        else impulse_loop b shocked od' c r
    end.

  (** chromosome.py:35-66 impulse with a network *)
  Definition impulse (c : chrom) (new : dict (V w)) (b : bn w) (r : RNG w)
    : res unit * chrom * RNG w :=
    let imp := dfilter (fun k => dmem k (ch_locus c)) new in
    match (do ls <- mapM (descendants (dag b)) (dkeys imp); set_union_star ls) with
    | Err e => (Err e, c, r)
    | Ok shocked =>
        let non_imp := map fst (filter (fun p => w_is_none w (snd p)) imp) in
        let imp := filter (fun p => negb (w_is_none w (snd p))) imp in
        let shocked := diff shocked (dkeys imp) in
        let shocked := union shocked non_imp in
        let shocked := inter shocked (dkeys (ch_locus c)) in
        let c1 := mkChrom (dupdate (ch_locus c) imp) (ch_lp c) in
        match Order b with
        | Err e => (Err e, c1, r)
        | Ok od =>
            match impulse_loop b shocked od c1 r with
            | (Err e, c2, r') => (Err e, c2, r')
            | (Ok _, c2, r') => (Ok tt, match imp with [] => c2 | _ => ch_reset c2 end, r')
            end
        end
    end.

  (** chromosome.py:62-66 impulse without a network *)
  Definition impulse_plain (c : chrom) (new : dict (V w)) : chrom :=
    let imp := dfilter (fun k => dmem k (ch_locus c)) new in
    let c1 := mkChrom (dupdate (ch_locus c) imp) (ch_lp c) in
    match imp with [] => c1 | _ => ch_reset c1 end.

  (** fn.py:78-82 sample_chromosome *)
  Definition sample_chromosome (b : bn w) (cond : dict (V w)) (r : RNG w) : res chrom * RNG w :=
    match sample b cond r with
    | (Err e, r') => (Err e, r')
    | (Ok p, r') => match evaluate_nodes b p with
                    | Err e => (Err e, r')
                    | Ok lp => (Ok (mkChrom p lp), r')
                    end
    end.
End Sample.

Arguments chrom w : clear implicits.
