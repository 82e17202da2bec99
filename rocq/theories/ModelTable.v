(** * Model of data/static.py and data/timeseries.py

    The modules import the package epidag, which is not part of the repository; they are
    transcribed as if the import worked. Data frames are lists of rows. *)

Require Import Verif.ModelNum Verif.ModelFloat Verif.ModelResample Coq.ZArith.ZArith.
Local Open Scope R_scope.

(** prob.py:180-189 CategoricalRV.__init__: the attribute p *)
Definition cat_probs {A : Type} (kv : list (A * flt)) : list flt :=
  map (fun e => fdivf (snd e) (fsum (map snd kv))) kv.
(** prob.py:209-212 sample(1), called by frame.py and static.py through __call__; which index comes
    out is the parameter [draw] as in ModelResample *)
Definition cat_call {A : Type} (draw : list R -> nat -> list nat) (kv : list (A * flt)) : res A :=
  do sel <- choice draw 1 (cat_probs kv);
  match sel with
  | i :: _ => match nth_error kv i with Some e => Ok (fst e) | None => Err IndexError end
  | [] => Err IndexError
  end.

(** ** ConditionalProbabilityTable *)

(** a row of the frame: the columns with text (simplification: the indices hold text only; any
    other value makes ':'.join a TypeError), and the column of probabilities *)
Definition row : Type := (dict string * R)%type.

(** static.py:44-59: SourceMatrix, Indices, Ps, Groups, InvGroups. Simplification: pandas before
    version 3 also writes the normalised probabilities into the column of the source; the
    results below do not depend on it (C75_scale). *)
Record table := mkTab {
  tb_rows : list row; tb_ix : list name;
  tb_ps : list flt; tb_groups : dict (dict string); tb_inv : dict flt
}.

(** [ir[x] for x in indices] *)
Definition row_values (ix : list name) (r : row) : res (list string) := mapM (dgetE (fst r)) ix.
(** ':'.join *)
Definition join_key (vs : list string) : string := String.concat ":" vs.

(** static.py:44-59 __init__ *)
Definition cpt_new (rows : list row) (ix : list name) : res table :=
  let ps := map (fun r => fdiv (snd r) (rsum (map snd rows))) rows in
  do gi <- foldM (fun s rp => do vs <- row_values ix (fst rp);
                              Ok (dset (fst s) (join_key vs) (dupdate [] (combine ix vs)),
                                  dset (snd s) (join_key vs) (snd rp)))
                 (combine rows ps) ([], []);
  Ok (mkTab rows ix ps (fst gi) (snd gi)).

(** static.py:61-62 __call__ *)
Definition cpt_call (draw : list R -> nat -> list nat) (t : table) : res (dict string) :=
  do k <- cat_call draw (tb_inv t); dgetE (tb_groups t) k.

(** groupby(...)[...].sum(). Simplification: groups in order of first occurrence, pandas sorts
    them. *)
Fixpoint add_to (vs : list string) (p : R) (l : list (list string * R)) : list (list string * R) :=
  match l with
  | [] => [(vs, p)]
  | (us, q) :: l' => if list_eq_dec String.string_dec vs us then (us, q + p) :: l' else (us, q) :: add_to vs p l'
  end.
(** static.py:64-68 marginalise; groupby without keys is a ValueError *)
Definition marginalise (t : table) (index : name) : res table :=
  let ixn := filter (fun x => negb (String.eqb x index)) (tb_ix t) in
  match ixn with
  | [] => Err ValueError
  | _ => do gs <- foldM (fun l r => do vs <- row_values ixn r; Ok (add_to vs (snd r) l)) (tb_rows t) [];
         cpt_new (map (fun g => (combine ixn (fst g), snd g)) gs) ixn
  end.

(** mat[k] == kwargs[k] *)
Definition row_is (kw : dict string) (k : name) (r : row) : bool :=
  match dget (fst r) k, dget kw k with Some a, Some b => String.eqb a b | _, _ => false end.
(** static.py:70-79 condition; keywords that are no index are ignored *)
Definition condition (t : table) (kw : dict string) : res table :=
  let ixc := filter (fun x => dmem x kw) (tb_ix t) in
  let rows := fold_left (fun rows k => filter (row_is kw k) rows) ixc (tb_rows t) in
  cpt_new (map (fun r => (dfilter (fun k => negb (mem k ixc)) (fst r), snd r)) rows)
          (filter (fun x => negb (mem x ixc)) (tb_ix t)).

(** ** TransitionMatrix *)

(** static.py:11 Transitions *)
Definition tmat : Type := dict (dict R).
(** what reaches __getitem__: a state, the dict of keywords (not hashable), or a pair made by
    zip *)
Inductive pykey := KName (n : name) | KDict | KPair (i : nat) (n : name).
(** static.py:18-22 __getitem__. The states are names, so a pair is none of them. *)
Definition tm_get (m : tmat) (k : pykey) : res (dict R) :=
  match k with KName n => dgetE m n | KDict => Err TypeError | KPair _ _ => Err KeyError end.
(** static.py:15-16 __call__, 24-25 sample_next *)
Definition tm_call (draw : list R -> nat -> list nat) (m : tmat) (k : pykey) : res name :=
  do kv <- tm_get m k; cat_call draw (map (fun e => (fst e, Fin (snd e))) kv).
(** static.py:27-36 sample: the keywords current and currents; one value or a list of them *)
Definition tm_sample (draw : list R -> nat -> list nat) (m : tmat) (n : Z) (current : option name)
           (currents : option (list name)) : res (list name) :=
  if Z.eqb n 1 then do x <- tm_call draw m KDict; Ok [x]
  else
    do ks <- match currents, current with
             | Some ks, _ => Ok ks
             | None, Some k => Ok [k]
             | None, None => Err KeyError
             end;
    let n := Nat.max (Z.to_nat n) (length ks) in
    mapM (fun ik => tm_call draw m (KPair (fst ik) (snd ik))) (combine (seq 0 n) ks).

(** ** Tables over time *)

(** rows sorted by time (interp1d sorts its argument, keeping the order of equal times) *)
Fixpoint tins {X : Type} (r : R * X) (l : list (R * X)) : list (R * X) :=
  match l with
  | [] => [r]
  | y :: l' => if rleb (fst r) (fst y) then r :: l else y :: tins r l'
  end.
Definition tsort {X : Type} (l : list (R * X)) : list (R * X) := fold_right tins [] l.
(** interp1d(kind='nearest'): the first interval whose right border, halfway to the next time, is
    not passed *)
Fixpoint nearest {X : Type} (d : X) (s : list (R * X)) (t : R) : X :=
  match s with
  | [] => d
  | [(_, x)] => x
  | (a, x) :: ((b, _) :: _) as s' => if rleb t (a / 2 + b / 2) then x else nearest d s' t
  end.
(** timeseries.py:9-19 TimeSeries with kind='nearest' (other kinds are not modelled): below the
    smallest time the first value of the table, above the largest the last one; IndexError
    for an empty table *)
Definition ts_call {X : Type} (rows : list (R * X)) (t : R) : res X :=
  match rows with
  | [] => Err IndexError
  | r0 :: _ =>
      let s := tsort rows in
      if rltb t (fst (hd r0 s)) then Ok (snd r0)
      else if rltb (fst (last s r0)) t then Ok (snd (last rows r0))
      else Ok (nearest (snd r0) s t)
  end.

(** timeseries.py:44-61 TimeSeriesProbabilityTable: the interpolated time, then the table of the
    last row with that time *)
Definition tp_find {X : Type} (rows : list (R * X)) (ti : R) : res X :=
  match find (fun r => reqb (fst r) ti) (rev rows) with Some r => Ok (snd r) | None => Err KeyError end.
Definition tp_rows {X : Type} (rows : list (R * X)) (t : R) : res X :=
  do ti <- ts_call (map (fun r => (fst r, fst r)) rows) t; tp_find rows ti.
Definition tp_call (draw : list R -> nat -> list nat) (rows : list (R * dict R)) (t : R) : res name :=
  do kv <- tp_rows rows t; cat_call draw (map (fun e => (fst e, Fin (snd e))) kv).

(** timeseries.py:67-86 LeeCarter: [kappa] are times and kappas, [ages] the rows age, alpha, beta *)
Definition lc_dict (f : R * R -> R) (ages : list (name * (R * R))) : dict R :=
  dupdate [] (map (fun e => (fst e, f (snd e))) ages).
Definition lc_rate (kappa : list (R * R)) (ages : list (name * (R * R))) (t : R) (a : name) : res R :=
  do al <- dgetE (lc_dict fst ages) a;
  do k <- ts_call kappa t;
  do be <- dgetE (lc_dict snd ages) a;
  Ok (exp (al + k * be)).
Definition lc_call (kappa : list (R * R)) (ages : list (name * (R * R))) (t : R) : res (dict R) :=
  do l <- mapM (fun e => do r <- lc_rate kappa ages t (fst e); Ok (fst e, r)) ages;
  Ok (dupdate [] l).
