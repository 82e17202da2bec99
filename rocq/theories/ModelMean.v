(** * Model of the tables and means of chromosomes (bayesnet/chromosome.py) *)

Require Import Coq.Reals.Reals.
Require Import Verif.Base Verif.World Verif.ModelSample Verif.ModelFloat Verif.ModelFitBase Verif.ModelExport.

Section Mean.
  Context {w : world}.
  (** the number a value is for numpy, None for what is no number *)
  Context (num : V w -> option flt) (inj : LP w -> V w).

  (** chromosome.py:113-115 to_data_frame *)
  Definition genes_frame (genes : list (chrom w)) : frame w := make_frame (map (ch_to_data inj) genes).

  (** the columns of a pandas table with their names *)
  Fixpoint split_columns (cs : list name) (rows : list (list (option (V w)))) : list (name * list (option (V w))) :=
    match cs with
    | [] => []
    | c :: cs' => (c, map (hd None) rows) :: split_columns cs' (map (@tl _) rows)
    end.
  Definition present {A : Type} (l : list (option A)) : list A := flat_map (fun o => match o with Some x => [x] | None => [] end) l.
  Definition not_nan (x : flt) : bool := match x with NaN => false | _ => true end.
  (** the mean of a column: gaps and nan are skipped; TypeError if a value is not a number (older
      versions of pandas drop the column instead) *)
  Definition column_mean (col : list (option (V w))) : res flt :=
    do xs <- mapM (fun v => match num v with Some x => Ok x | None => Err TypeError end) (present col);
    let ys := filter not_nan xs in Ok (fdivf (fsum ys) (Fin (INR (length ys)))).

  (** chromosome.py:108-111 mean: dict(df.mean()) *)
  Definition ch_mean (genes : list (chrom w)) : res (dict flt) :=
    let df := make_frame (map (@ch_locus w) genes) in
    mapM (fun nc => do m <- column_mean (snd nc); Ok (fst nc, m)) (split_columns (f_columns df) (f_rows df)).
End Mean.
