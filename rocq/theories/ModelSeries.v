(** * Model of vectors over time and of sampling from data sets (data/timeseries.py, data/frame.py)

    As in ModelTable the import of the package epidag is taken to work. *)

Require Import Coq.Reals.Reals.
Require Import Verif.Base Verif.ModelNum Verif.ModelFloat Verif.ModelTable Coq.ZArith.ZArith.

(** a pandas frame of numbers: its columns, all of one length (simplification: other columns are
    not looked at) *)
Definition frame : Type := dict (list R).

(** timeseries.py:27-36 TimeSeriesVector.__init__ with kind='nearest': the lines, each the table of
    times and values given to interp1d. KeyError for a column that is not there, IndexError for
    [xs[0]] of an empty column. *)
Definition tsv_new (f : frame) (i_time : name) (i_xs : list name) : res (dict (list (R * R))) :=
  do ts <- dgetE f i_time;
  foldM (fun lines x => do xs <- dgetE f x;
                        match xs with
                        | [] => Err IndexError
                        | _ => Ok (dset lines x (combine ts xs))
                        end) i_xs [].

(** timeseries.py:38-39 TimeSeriesVector.__call__ *)
Definition tsv_call (lines : dict (list (R * R))) (i_xs : list name) (t : R) : res (dict R) :=
  do l <- mapM (fun x => do line <- dgetE lines x; do v <- ts_call line t; Ok (x, v)) i_xs;
  Ok (dupdate [] l).

(** what frame.py's sample returns: a value or a list *)
Inductive sampled (A : Type) := SOne (v : A) | SMany (vs : list A).
Arguments SOne {A} v.
Arguments SMany {A} vs.

(** frame.py:19: the list comprehension *)
Fixpoint ds_calls {G A : Type} (call : G -> res A * G) (n : nat) (g : G) : res (list A) * G :=
  match n with
  | O => (Ok [], g)
  | S n' => match call g with
            | (Err e, g') => (Err e, g')
            | (Ok v, g') => match ds_calls call n' g' with
                            | (Ok vs, g'') => (Ok (v :: vs), g'')
                            | (Err e, g'') => (Err e, g'')
                            end
            end
  end.
(** frame.py:15-19 AbsDataSet.sample; [call] is __call__ with the keywords, [G] the state of the
    random generator. range of a negative number is empty. *)
Definition ds_sample {G A : Type} (call : G -> res A * G) (n : Z) (g : G) : res (sampled A) * G :=
  if Z.eqb n 1 then match call g with (Ok v, g') => (Ok (SOne v), g') | (Err e, g') => (Err e, g') end
  else match ds_calls call (Z.to_nat n) g with (Ok vs, g') => (Ok (SMany vs), g') | (Err e, g') => (Err e, g') end.
