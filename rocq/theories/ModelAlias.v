(** * Sharing of the Locus dict between chromosomes and their JSON (bayesnet/chromosome.py)

    Dicts live in a heap; chromosomes and JSON objects refer to them by address. *)

Require Import Verif.Base Verif.World Verif.ModelGraph Verif.ModelExpr Verif.ModelLoci Verif.ModelBN Verif.ModelSample.

Section Alias.
  Context {w : world}.

  Definition heap := list (dict (V w)).
  Definition hread (h : heap) (a : nat) : dict (V w) := nth a h [].
  Fixpoint hwrite (h : heap) (a : nat) (d : dict (V w)) : heap :=
    match h, a with
    | [], _ => []
    | _ :: h', O => d :: h'
    | x :: h', S a' => x :: hwrite h' a' d
    end.

  (** attributes Locus and LogProb; also the two entries of the dict made by to_json *)
  Record obj := mkObj { o_locus : nat; o_lp : LP w }.

  (** chromosome.py:9-11 __init__: dict(vs) makes a new dict *)
  Definition o_new (h : heap) (d : dict (V w)) (p : LP w) : heap * obj := (h ++ [d], mkObj (length h) p).
  (** chromosome.py:68-70 clone *)
  Definition o_clone (h : heap) (c : obj) : heap * obj := o_new h (hread h (o_locus c)) (o_lp c).
  (** chromosome.py:87-91 to_json: the same dict *)
  Definition o_to_json (c : obj) : obj := mkObj (o_locus c) (o_lp c).
  (** chromosome.py:99-101 from_json *)
  Definition o_from_json (h : heap) (js : obj) : heap * obj := o_new h (hread h (o_locus js)) (o_lp js).
  (** chromosome.py:25-27 __setitem__ *)
  Definition o_set (h : heap) (c : obj) (k : name) (v : V w) : heap * obj :=
    (hwrite h (o_locus c) (dset (hread h (o_locus c)) k v), mkObj (o_locus c) (lp_nan w)).

  (** the chromosome as a value *)
  Definition o_view (h : heap) (c : obj) : chrom w := mkChrom (hread h (o_locus c)) (o_lp c).
End Alias.
Arguments heap w : clear implicits.
Arguments obj w : clear implicits.
