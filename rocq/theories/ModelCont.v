(** * Model of parameter cores used as containers: parcore.py, chromosome.py and fn.py *)

Require Import Verif.Base Verif.World Verif.ModelGraph Verif.ModelExpr Verif.ModelLoci Verif.ModelBN Verif.ModelSample Verif.ModelSim.

Section Cont.
  Context {w : world}.

  Definition own (h : cores w) (i : nat) : dict (V w) :=
    match nth_error h i with Some c => k_locus c | None => [] end.

  (** chromosome.py:13-14 __len__, 29-30 __contains__, 32-33 keys; ParameterCore does not override them *)
  Definition core_len (h : cores w) (i : nat) : nat := length (own h i).
  Definition core_contains (h : cores w) (i : nat) (x : name) : bool := dmem x (own h i).
  Definition core_keys (h : cores w) (i : nat) : list name := dkeys (own h i).

  (** parcore.py:227-234 __getitem__ *)
  Definition core_get (h : cores w) (i : nat) (x : name) : res (V w) :=
    match ModelSim.lookup h i x with Some v => Ok v | None => Err KeyError end.

  (** parcore.py:220-225 __iter__: list(core) *)
  Definition core_items (h : cores w) (i : nat) : list (name * V w) := items (S i) h i.

  (** dict(core): an object with a method keys is read by keys() and __getitem__, not iterated *)
  Definition core_dict (h : cores w) (i : nat) : res (dict (V w)) :=
    mapM (fun k => do v <- core_get h i k; Ok (k, v)) (core_keys h i).

  (** fn.py:8-25 sample(bn, core); a core is always true (chromosome.py:19-20) *)
  Definition sample_given (b : bn w) (h : cores w) (i : nat) (r : RNG w) : res (dict (V w)) * RNG w :=
    match Exo b with
    | Err e => (Err e, r)
    | Ok ex =>
        if existsb (fun n => negb (core_contains h i n)) ex then (Err ValueError, r)
        else match core_dict h i with
             | Err e => (Err e, r)
             | Ok res0 =>
                 match Order b with
                 | Err e => (Err e, r)
                 | Ok od => match sample_loop b (fun _ => true) od res0 r with
                            | (Ok _, d, r') => (Ok d, r')
                            | (Err e, _, r') => (Err e, r')
                            end
                 end
             end
    end.

  (** fn.py:62-75 evaluate_nodes(bn, core): the keys of the core, its values read by __getitem__ *)
  Definition evaluate_given (b : bn w) (h : cores w) (i : nat) : res (LP w) :=
    do lps <- mapM (fun k => do l <- bget b k; evaluate l (ModelSim.lookup h i)) (filter (in_dag b) (core_keys h i));
    let s := lp_sum lps in
    Ok (if lp_isnan w s then lp_ninf w else s).
End Cont.
