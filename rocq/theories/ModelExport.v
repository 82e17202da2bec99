(** * Model of fit/results.py: the tables made of a posterior sample *)

Require Import Verif.Base Verif.World Verif.ModelSample Verif.ModelFitBase Verif.ModelFloat.

Section Export.
  Context {w : world}.
  Notation pt := (particle w flt).

  (** A pandas table: the names of the columns, and the cells row by row; None is the NaN with
      which pandas fills a gap. Types of columns and the index are left out. *)
  Record frame := mkFrame { f_columns : list name; f_rows : list (list (option (V w))) }.
  (** results.py:26, 37 pd.DataFrame of a list of dictionaries: all keys in the order of their first
      appearance, one row per dictionary *)
  Definition frame_columns (l : list (dict (V w))) : list name := fold_left (fun acc d => union acc (dkeys d)) l [].
  Definition make_frame (l : list (dict (V w))) : frame :=
    mkFrame (frame_columns l) (map (fun d => map (dget d) (frame_columns l)) l).

  (** results.py:25-26 to_df; its argument is not used. dict(pt.Pars) of a chromosome is its Locus. *)
  Definition to_df (ps : list pt) : frame := make_frame (map (fun p => ch_locus (p_pars p)) ps).
  (** results.py:36-37 to_pred_df; base.py:36-37 pt['Ys'] *)
  Definition to_pred_df (ps : list pt) : res frame :=
    do l <- mapM (fun p : pt => match p_ys p with Some ys => Ok ys | None => Err KeyError end) ps; Ok (make_frame l).
End Export.
Arguments frame w : clear implicits.
