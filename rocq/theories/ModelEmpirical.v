(** * Model of prob.py EmpiricalRV, data/reg/hazard.py EmpiricalHazard and survival.py find_baseline

    interp1d is scipy's, of kind linear, on finite numbers. hazard.py and survival.py are
    transcribed as if the import of epidag worked. *)

Require Import Verif.ModelNum Verif.ModelReg Verif.ModelHazard.
Require Import Coq.Strings.Ascii.
Open Scope R_scope.

(** scipy interp1d, not part of /repo: argument fill_value, a pair (below, above), a number, or a
    list; assume_sorted is off, so that the points are sorted by x (stable) first *)
Inductive fill := FillPair (lo hi : R) | FillOne (a : R) | FillList (l : list R).
Fixpoint pins (x : R * R) (l : list (R * R)) : list (R * R) :=
  match l with [] => [x] | y :: l' => if rleb (fst x) (fst y) then x :: l else y :: pins x l' end.
Definition psort (l : list (R * R)) : list (R * R) := fold_right pins [] l.

(** scipy interp1d: the sorted points, what to return below and above, and whether to raise
    outside instead *)
Record interp := { ip_pts : list (R * R); ip_lo : R; ip_hi : R; ip_raise : bool }.
(** scipy interp1d.__init__: ValueError for arrays of different length, and for a list as
    fill_value that cannot be broadcast to a single number. bounds_error left out means True. *)
Definition interp1d (xs ys : list R) (bounds_error : option bool) (f : fill) : res interp :=
  if Nat.eqb (length xs) (length ys) then
    do b <- match f with
            | FillPair lo hi => Ok (lo, hi)
            | FillOne a => Ok (a, a)
            | FillList [a] => Ok (a, a)
            | FillList _ => Err ValueError
            end;
    Ok {| ip_pts := psort (combine xs ys); ip_lo := fst b; ip_hi := snd b;
          ip_raise := match bounds_error with Some b => b | None => true end |}
  else Err ValueError.

(** numpy interp at u >= fst p: the points left of u are skipped, the value on the segment or, if u
    is the x of a point, its y (the last one of equal x) *)
Fixpoint interp_from (p : R * R) (l : list (R * R)) (u : R) : R :=
  match l with
  | [] => snd p
  | q :: l' =>
      if rleb (fst q) u then interp_from q l' u
      else if reqb (fst p) u then snd p
      else (snd q - snd p) / (fst q - fst p) * (u - fst p) + snd p
  end.
(** scipy interp1d.__call__ *)
Definition interp_call (i : interp) (u : R) : res R :=
  match ip_pts i with
  | [] => Err ValueError
  | p :: l =>
      if rltb u (fst p) then (if ip_raise i then Err ValueError else Ok (ip_lo i))
      else if rltb (fst (last (p :: l) p)) u then (if ip_raise i then Err ValueError else Ok (ip_hi i))
      else Ok (interp_from p l u)
  end.

(** array.cumsum() *)
Fixpoint cumsum (a : R) (l : list R) : list R :=
  match l with [] => [] | x :: l' => (a + x) :: cumsum (a + x) l' end.
(** array.min(), array.max(), max(list): ValueError when empty *)
Definition rminimum (l : list R) : res R :=
  match l with [] => Err ValueError | x :: l' => Ok (fold_left Rmin l' x) end.
Definition rmaximum (l : list R) : res R :=
  match l with [] => Err ValueError | x :: l' => Ok (fold_left Rmax l' x) end.

(** prob.py:224-231 EmpiricalRV.__init__. A sum of zero (nan as x of the points) is outside the
    model. *)
Record emp := { e_x : list R; e_y : list R; e_int : R * R; e_fn : interp; e_logpdf : interp }.
Definition emp_new (xs ys : list R) : res emp :=
  do lo <- rminimum xs; do hi <- rmaximum xs;
  do fn <- interp1d (map (fun c => c / rsum ys) (cumsum 0 ys)) xs (Some false) (FillPair lo hi);
  do lp <- interp1d xs ys (Some false) (FillOne 0);
  Ok {| e_x := xs; e_y := ys; e_int := (lo, hi); e_fn := fn; e_logpdf := lp |}.
(** prob.py:241-242 logpdf *)
Definition emp_logpdf (e : emp) (v : R) : res R := interp_call (e_logpdf e) v.
(** prob.py:244-245 sample; [us] are the uniform draws, an array comes back also for n = 1 *)
Definition emp_sample (e : emp) (us : list R) : res (list R) := mapM (interp_call (e_fn e)) us.
(** np.mean *)
Definition rmean (l : list R) : R := rsum l / INR (length l).
(** prob.py:247-248 mean; 250-251 std *)
Definition emp_mean (e : emp) : res R :=
  do fs <- mapM (interp_call (e_fn e)) (e_x e);
  Ok (rmean (map (fun p => fst p * snd p) (combine (e_x e) fs))).
Definition emp_std (e : emp) : res R :=
  do fs <- mapM (interp_call (e_fn e)) (e_x e);
  Ok (rmean (map (fun p => fst p * fst p * snd p) (combine (e_x e) fs))).

(** hazard.py:67-71 EmpiricalHazard.__init__, 73-77 cum_hazard and inv_cum_hazard *)
Record emphaz := { eh_cum : interp; eh_inv : interp }.
Definition emphaz_new (times cum : list R) : res emphaz :=
  do mt <- rmaximum times; do mh <- rmaximum cum;
  do c <- interp1d times cum None (FillList [0; mh]);
  do i <- interp1d cum times None (FillList [0; mt]);
  Ok {| eh_cum := c; eh_inv := i |}.

(** The JSON of a baseline: texts, numbers and lists of numbers *)
Inductive jval := JText (s : string) | JNum (x : R) | JNums (l : list R).
(** str.lower, for ASCII *)
Definition lower_ascii (c : ascii) : ascii :=
  let n := nat_of_ascii c in
  if Nat.leb 65 n && Nat.leb n 90 then ascii_of_nat (n + 32) else c.
Fixpoint lower (s : string) : string :=
  match s with EmptyString => EmptyString | String c s' => String (lower_ascii c) (lower s') end.
(** js[k] as number; simplification: a text or list as parameter of a hazard is a TypeError here,
    the code notices only when the hazard is used. js[k] as list of numbers: max of anything else is
    a TypeError. *)
Definition jnum (js : dict jval) (k : name) : res R :=
  do v <- dgetE js k; match v with JNum x => Ok x | _ => Err TypeError end.
Definition jnums (js : dict jval) (k : name) : res (list R) :=
  do v <- dgetE js k; match v with JNums l => Ok l | _ => Err TypeError end.

(** survival.py:10-18 find_baseline; the two kinds of result *)
Inductive baseline := BHazard (h : hazard) | BEmpirical (h : emphaz).
Definition find_baseline (js : dict jval) : res baseline :=
  do t <- dgetE js "Type"%string;
  match t with
  | JText s =>
      let tp := lower s in
      if String.eqb tp "exp" then do r <- jnum js "Rate"%string; Ok (BHazard (HExp r))
      else if String.eqb tp "weibull" then
        do l <- jnum js "Lambda"%string; do k <- jnum js "K"%string; Ok (BHazard (HWeibull l k))
      else if String.eqb tp "empirical" then
        do ts <- jnums js "Time"%string; do cs <- jnums js "CumHaz"%string;
        do h <- emphaz_new ts cs; Ok (BEmpirical h)
      else Err KeyError
  | _ => Err AttributeError
  end.
