(** * Model of fit/ga: the genetic algorithm

    Computations as in ModelABC. The modules import packages `fit.…` and use attributes
    (LogLikelihood, LogPosterior of a chromosome, ParameterList of a parameter set) that the
    repository no longer has; they are transcribed as if these existed: individuals are a type
    with a dictionary of floats, the two numbers and clone; populations are lists.
    Simplifications: all parameters are floats; logs, the monitor and the mean fitness (only
    logged) are left out; after an exception the state is not followed; joblib as in ModelABC. *)

Require Import Verif.Base Verif.ModelFloat Verif.ModelABC.
Require Import Coq.ZArith.ZArith.
Local Open Scope nat_scope.

(** Python's min(a, b), max(a, b): the first unless the second is strictly better *)
Definition pymin (a b : flt) : flt := if fltb b a then b else a.
Definition pymax (a b : flt) : flt := if fltb a b then b else a.
(** max(l, key=key) *)
Fixpoint argmax {A : Type} (key : A -> flt) (cur : A) (l : list A) : A :=
  match l with [] => cur | x :: l' => argmax key (if fltb (key cur) (key x) then x else cur) l' end.
Definition pymax_key {A : Type} (key : A -> flt) (l : list A) : res A :=
  match l with [] => Err ValueError | x :: l' => Ok (argmax key x l') end.

(** np.where of a vector of zeros and ones *)
Definition where_ (l : list bool) : list nat := map fst (filter snd (combine (seq 0 (length l)) l)).
(** l[i], l[i] = x *)
Definition geti {A : Type} (l : list A) (i : nat) : res A :=
  match nth_error l i with Some x => Ok x | None => Err IndexError end.
Fixpoint set_nth {A : Type} (l : list A) (i : nat) (x : A) : list A :=
  match l, i with
  | [], _ => []
  | _ :: l', O => x :: l'
  | y :: l', S i' => y :: set_nth l' i' x
  end.
Definition seti {A : Type} (l : list A) (i : nat) (x : A) : res (list A) :=
  if Nat.ltb i (length l) then Ok (set_nth l i x) else Err IndexError.

(** x.std(): population standard deviation *)
Definition fmean_ (l : list flt) : flt := fdivf (fsum l) (Fin (INR (length l))).
Definition fstd (l : list flt) : flt :=
  let mu := fmean_ l in
  match fmean_ (map (fun x => let d := fadd x (fopp mu) in fmul d d) l) with
  | Fin v => Fin (sqrt v) | _ => NaN end.
(** sts.iqr(x): nan for the empty array *)
Definition iqr (l : list flt) : flt :=
  match l with
  | [] => NaN
  | _ => match quantile l (3/4), quantile l (1/4) with Ok a, Ok b => fadd a (fopp b) | _, _ => NaN end
  end.
(** not x *)
Definition fzero (x : flt) : bool := match x with Fin a => reqb a 0 | _ => false end.

(** mutate.py:36-41 the scale of one parameter *)
Definition scale_of (x : list flt) : flt :=
  let hi := fstd x in
  let lo := pymin (iqr x) (fdivf (iqr x) (Fin (134/100))) in
  let lo := if fzero lo then (if fzero hi then Fin (1/10) else hi) else lo in
  match x with
  | [] => NaN
  | _ => fmul (fmul (Fin (9/10)) lo) (Fin (Rpower (INR (length x)) (-(2/10))))
  end.

(** np.finfo(float).eps *)
Definition eps64 : R := (/ 2 ^ 52)%R.

Section GA.
  Context {G I : Type}.
  Context (loc : I -> dict flt) (loglik logpost : I -> flt) (clone : I -> I).
  Context (domain : G -> res (list (name * flt * flt)) * G).          (* obj.Domain: Name, Lower, Upper; draws from the prior *)
  Context (rnd : flt -> flt).                                          (* rounding of a sum *)
  Context (random : G -> R * G) (normal : flt -> flt -> G -> res flt * G).
  Context (binomial : R -> nat -> G -> res (list bool) * G).           (* rd.binomial(1, p, n) *)
  Context (choice : nat -> nat -> G -> res (list nat) * G).            (* rd.choice(n, k, replace=False) *)
  Context (choice_p : list flt -> nat -> G -> res (list nat) * G).     (* rd.choice(len(p), n, replace=True, p=p) *)
  Context (norm_wts : list flt -> list flt).                           (* np.exp(wts - logsumexp(wts)) *)
  Context (serve_and_evaluate : dict flt -> G -> res I * G).           (* fitting/util.py, on a dict *)
  Context (draw : G -> res I * G).

  Definition names (dom : list (name * flt * flt)) : list name := map (fun d => fst (fst d)) dom.
  (** p[name] *)
  Definition at_ (p : I) (n : name) : res flt := dgetE (loc p) n.

  (** cross.py:16-22 AverageCrossover *)
  Definition average (p1 p2 : I) : comp G (dict flt * dict flt) :=
    dc dom <- clift domain;
    dc l <- cres (foldM (fun l n => do a <- at_ p1 n; do b <- at_ p2 n;
                                    Ok (dset l n (fdivf (fadd a b) (Fin 2)))) (names dom) []);
    cret (l, l).

  (** cross.py:25-38 ShuffleCrossover *)
  Fixpoint shuffle_loop (p1 p2 : I) (ns : list name) (l1 l2 : dict flt) : comp G (dict flt * dict flt) :=
    match ns with
    | [] => cret (l1, l2)
    | n :: ns' =>
        dc u <- clift (fun r => let (u, r') := random r in (Ok u, r'));
        if rltb u (1/2)
        then dc b <- cres (at_ p2 n); dc a <- cres (at_ p1 n); shuffle_loop p1 p2 ns' (dset l1 n b) (dset l2 n a)
        else dc a <- cres (at_ p1 n); dc b <- cres (at_ p2 n); shuffle_loop p1 p2 ns' (dset l1 n a) (dset l2 n b)
    end.
  Definition shuffle (p1 p2 : I) : comp G (dict flt * dict flt) :=
    dc dom <- clift domain; shuffle_loop p1 p2 (names dom) [] [].

  Inductive cross := Average | Shuffle.
  Definition crossover (c : cross) : I -> I -> comp G (dict flt * dict flt) :=
    match c with Average => average | Shuffle => shuffle end.

  (** mutate.py:30-41 set_scales; Scales persists between calls *)
  Definition set_scales (ps : list I) (sc : dict flt) : comp G (dict flt) :=
    dc dom <- clift domain;
    cres (foldM (fun sc n => do vs <- mapM (fun p => at_ p n) ps; Ok (dset sc n (scale_of vs))) (names dom) sc).

  (** mutate.py:43-51 propose *)
  Fixpoint propose_loop (p : I) (sc : dict flt) (dom : list (name * flt * flt)) (l : dict flt) : comp G (dict flt) :=
    match dom with
    | [] => cret l
    | (n, lower, upper) :: dom' =>
        dc a <- cres (at_ p n);
        dc s <- cres (dgetE sc n);
        dc v1 <- clift (normal a s);
        propose_loop p sc dom' (dset l n (pymax (pymin v1 (rnd (fadd upper (Fin (- eps64)%R)))) (rnd (fadd lower (Fin eps64)))))
    end.
  Definition propose (p : I) (sc : dict flt) : comp G (dict flt) :=
    dc dom <- clift domain; propose_loop p sc dom [].

  (** select.py:19-38 TourSelection, 41-57 ImpSelection; [map] is fitness == 'MAP' *)
  Inductive selector := Tour (k : nat) | Imp.
  Definition eligible (ps : list I) : list I := filter (fun p => isfinite (loglik p)) ps.
  Definition fit_of (map : bool) (p : I) : flt := if map then logpost p else loglik p.
  Definition tour_once (el : list I) (k : nat) (map : bool) : comp G I :=
    dc ix <- clift (choice (length el) k);
    dc cs <- cres (mapM (geti el) ix);
    dc x <- cres (pymax_key (fit_of map) cs);
    cret (clone x).
  Definition select (s : selector) (ps : list I) (map : bool) : comp G (list I) :=
    let el := eligible ps in
    match s with
    | Tour k => if Nat.ltb k (length el) then cmap (fun _ => tour_once el k map) (seq 0 (length ps)) else cfail AssertionError
    | Imp => if Nat.ltb 5 (length el)
             then dc ix <- clift (choice_p (norm_wts (List.map (fit_of map) el)) (length ps));
                  dc l <- cres (mapM (geti el) ix);
                  cret (List.map clone l)
             else cfail AssertionError
    end.

  (** alg.py:19-24 States, with the population and the scales of the mutator *)
  Record gstate := mkGa { ga_ps : list I; ga_scales : dict flt; ga_gen : nat; ga_stay : nat; ga_max : flt; ga_best : option I }.
  (** alg.py:37-51 settings; [g_map] is target == 'MAP' *)
  Record gcfg := mkGcfg { g_n : nat; g_round : Z; g_mstay : Z; g_pmut : R; g_pcro : R; g_cro : cross; g_sel : selector; g_map : bool }.

  (** alg.py:91-100 __crossover *)
  Fixpoint cross_pairs (c : cross) (sel : list nat) (ps : list I) : comp G (list I) :=
    match sel with
    | [] => cret ps
    | i :: sel' =>
        dc a <- cres (geti ps (i * 2));
        dc b <- cres (geti ps (i * 2 + 1));
        dc ll <- crossover c a b;
        dc q1 <- clift (serve_and_evaluate (fst ll));
        dc ps1 <- cres (seti ps (i * 2) q1);
        dc q2 <- clift (serve_and_evaluate (snd ll));
        dc ps2 <- cres (seti ps1 (i * 2 + 1) q2);
        cross_pairs c sel' ps2
    end.
  Definition ga_cross (g : gcfg) (ps : list I) : comp G (list I) :=
    dc sel <- clift (binomial (g_pcro g) (length ps / 2));
    cross_pairs (g_cro g) (where_ sel) ps.

  (** alg.py:116-118: for i, p in zip(nxt, proposed) *)
  Fixpoint replace_at (nxt : list nat) (proposed : list I) (ps : list I) : res (list I) :=
    match nxt, proposed with
    | i :: nxt', p :: proposed' =>
        do ps' <- (if isfinite (loglik p) then seti ps i p else Ok ps);
        replace_at nxt' proposed' ps'
    | _, _ => Ok ps
    end.
  (** alg.py:102-118 __mutation: the population and the scales *)
  Definition ga_mutate (g : gcfg) (ps : list I) (sc : dict flt) : comp G (list I * dict flt) :=
    dc sc' <- set_scales ps sc;
    dc nxt <- clift (binomial (g_pmut g) (length ps));
    dc locs <- cmap (fun p => propose p sc') ps;
    dc proposed <- cmap (fun l => clift (serve_and_evaluate l)) locs;
    dc ps' <- cres (replace_at (where_ nxt) proposed ps);
    cret (ps', sc').

  (** alg.py:127-144 __find_elitism *)
  Definition elitism (g : gcfg) (st : gstate) : res gstate :=
    do b <- pymax_key (fit_of (g_map g)) (ga_ps st);
    let f := fit_of (g_map g) b in
    Ok (mkGa (ga_ps st) (ga_scales st) (ga_gen st) (if fleb f (ga_max st) then S (ga_stay st) else 0) f (Some b)).

  (** alg.py:53-59 initialise, 77-89 __genesis *)
  Definition ga_initialise (g : gcfg) (sc : dict flt) : comp G gstate :=
    dc ps <- cmap (fun _ => clift draw) (seq 0 (g_n g));
    cres (elitism g (mkGa ps sc 0 0 NInf None)).

  (** alg.py:64-68, 120-125: one generation; select is called without its argument fitness *)
  Definition generation (g : gcfg) (st : gstate) : comp G gstate :=
    dc ps1 <- ga_cross g (ga_ps st);
    dc pm <- ga_mutate g ps1 (ga_scales st);
    dc ps3 <- select (g_sel g) (fst pm) true;
    cres (elitism g (mkGa ps3 (snd pm) (S (ga_gen st)) (ga_stay st) (ga_max st) (ga_best st))).

  (** alg.py:151-153 __termination *)
  Definition finished (g : gcfg) (st : gstate) : bool :=
    Z.ltb (g_mstay g) (Z.of_nat (ga_stay st)) || Z.ltb (g_round g) (Z.of_nat (ga_gen st)).

  (** alg.py:61-70 update; [fuel] bounds the number of generations *)
  Fixpoint ga_update (fuel : nat) (g : gcfg) (st : gstate) : comp G gstate :=
    match fuel with
    | O => fun _ => None
    | S n => dc st' <- generation g st; if finished g st' then cret st' else ga_update n g st'
    end.
End GA.
