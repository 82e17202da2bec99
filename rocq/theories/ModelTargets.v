(** * Model of fit/targets: single.py and read_targets *)

Require Import Verif.ModelNum.
Open Scope R_scope.

(** a frozen distribution as used here: mean, standard deviation, log density *)
Record fdist := mkFd { fd_mean : R; fd_std : R; fd_logpdf : R -> flt }.

Inductive tdef :=
| TPoint (v error : R)            (* single.py:13-17 DataPointError *)
| TRange (m l u : R)              (* single.py:34-38 DataPointRange *)
| TDistr (d : fdist).             (* single.py:55-58 DataDistribution *)

(** Name and the rest *)
Record single := mkSingle { s_name : name; s_def : tdef }.

(** 2 * 1.96 *)
Definition z95 : R := 2 * (196 / 100).

(** attribute Value *)
Definition t_value (t : tdef) : R := match t with TPoint v _ => v | TRange m _ _ => m | TDistr d => fd_mean d end.
(** single.py:17 Std; single.py:38 Range *)
Definition p_std (v e : R) : R := e * v / 2 / (196 / 100).
Definition t_range (l u : R) : R := u - l.

(** single.py:19-20, 40-41, 60-61 get_var_obs *)
Definition var_obs (t : tdef) : R :=
  match t with
  | TPoint v e => (p_std v e) ^ 2
  | TRange _ l u => (t_range l u / 2 / (196 / 100)) ^ 2
  | TDistr d => (fd_std d) ^ 2
  end.

(** single.py:22-23, 43-44, 63-64 calc_distance at the simulated value, a numpy number (for a Python
    number division by a zero deviation raises ZeroDivisionError instead) *)
Definition distance (t : tdef) (s : R) : flt :=
  match t with
  | TPoint v e => fdiv ((s - v) ^ 2) (p_std v e)
  | TRange m l u => fscale (fdiv ((s - m) ^ 2) (t_range l u)) z95
  | TDistr d => fopp (fd_logpdf d s)
  end.
(** ... and with the look-up in the dict of simulated values *)
Definition single_distance (t : single) (sim : dict R) : res flt :=
  do s <- dgetE sim (s_name t); Ok (distance (s_def t) s).

(** single.py:25-26, 46-47, 66-71 calc_likelihood *)
Definition single_likelihood (t : single) (sim : dict R) : res flt :=
  match s_def t with
  | TDistr d => do s <- dgetE sim (s_name t); Ok (fd_logpdf d s)
  | _ => Err AttributeError
  end.

(** what may be given for a target: a number, a dict with some of the keys m, l, u, error, a
    distribution text (already parsed, or failing), an AbsData object, anything else *)
Inductive raw :=
| RNum (x : R)
| RDict (m l u e : option R)
| RText (d : res fdist)
| RData (t : single)
| ROther.

(** targets/__init__.py:12-35 one entry of read_targets *)
Definition read_one (k : name) (v : raw) (error : R) : res single :=
  match v with
  | RNum x => Ok (mkSingle k (TPoint x error))
  | RDict None _ _ _ => Err ValueError
  | RDict (Some m) (Some l) (Some u) _ =>
      if rltb l m && rltb m u then Ok (mkSingle k (TRange m l u)) else Err AssertionError
  | RDict (Some m) _ _ e => Ok (mkSingle k (TPoint m (match e with Some x => x | None => error end)))
  | RText d => do d <- d; Ok (mkSingle k (TDistr d))
  | RData t => Ok t
  | ROther => Err ValueError
  end.
(** targets/__init__.py:9-36 read_targets *)
Definition read_targets (src : dict raw) (error : R) : res (dict single) :=
  foldM (fun acc kv => do t <- read_one (fst kv) (snd kv) error; Ok (dset acc (fst kv) t)) src [].
