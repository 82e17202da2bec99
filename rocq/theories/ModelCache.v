(** * Model of the cached method ev of targets: fit/targets/base.py:18-20, and its use in fit/hme/alg.py:31-40

    ev is decorated with functools.lru_cache, which keeps the results of the last 128 objects that were
    asked; one cache for all objects, kept from one fit to the next. Objects are known by their address
    (AbsData defines no __eq__). *)

Require Import Coq.Reals.Reals.
Require Import Verif.Base Verif.ModelNum Verif.ModelFloat Verif.ModelTargets Verif.ModelHME.
Local Open Scope nat_scope.

(** functools.lru_cache without arguments *)
Definition maxsize : nat := 128.

Section LRU.
  Context {S A : Type} (compute : S -> nat -> res A).   (* the undecorated method, on the present objects *)

  (** results by object, the most recently used first *)
  Definition cache := list (nat * A).
  Fixpoint cfind (c : cache) (k : nat) : option A :=
    match c with [] => None | (k', v) :: c' => if Nat.eqb k k' then Some v else cfind c' k end.
  Definition cdel (c : cache) (k : nat) : cache := filter (fun e => negb (Nat.eqb k (fst e))) c.

  (** functools: a hit moves the entry to the front; a miss calls the method, and, unless it raises,
      stores its result and drops the least recently used entry if there are too many *)
  Definition cached (s : S) (c : cache) (k : nat) : res A * cache :=
    match cfind c k with
    | Some v => (Ok v, (k, v) :: cdel c k)
    | None => match compute s k with
              | Err e => (Err e, c)
              | Ok v => (Ok v, firstn maxsize ((k, v) :: c))
              end
    end.
End LRU.

(** The objects: Value and what get_var_obs gives at present. *)
Definition objs := list (R * R).
(** single.py:14-17, 35-38, 56-58: a new object *)
Definition obj_new (t : tdef) : R * R := (t_value t, var_obs t).
(** assigning to Value: Std, Range and Distribution stay *)
Fixpoint set_value (s : objs) (i : nat) (v : R) : objs :=
  match s, i with
  | [], _ => []
  | (_, o) :: s', O => (v, o) :: s'
  | e :: s', Datatypes.S i' => e :: set_value s' i' v
  end.
(** base.py:20 self.Value, self.get_var_obs() *)
Definition ev_now (s : objs) (i : nat) : res (R * R) :=
  match nth_error s i with Some p => Ok p | None => Err OtherError end.
Definition ev (s : objs) (c : cache) (i : nat) : res (R * R) * cache := cached ev_now s c i.

(** alg.py:31-40 eval_implausibility with the cache; [data]: the objects of model.Data *)
Fixpoint ims_cached (s : objs) (v_m : R) (data : dict nat) (ys vs : dict flt) (c : cache) : res (list flt) * cache :=
  match data with
  | [] => (Ok [], c)
  | (k, i) :: data' =>
      match ev s c i with
      | (Err e, c') => (Err e, c')
      | (Ok (e, v_o), c') =>
          match (do y <- dgetE ys k; do v_e <- dgetE vs k;
                 Ok (fdivf (fabs (fsub (Fin e) y)) (fsqrt (fadd (Fin (v_m + v_o)) v_e)))) with
          | Err x => (Err x, c')
          | Ok im => match ims_cached s v_m data' ys vs c' with
                     | (Ok l, c2) => (Ok (im :: l), c2)
                     | (Err x, c2) => (Err x, c2)
                     end
          end
      end
  end.
Definition implausibility_cached (s : objs) (v_m : R) (data : dict nat) (ys vs : dict flt) (c : cache) : res flt * cache :=
  match ims_cached s v_m data ys vs c with
  | (Ok ims, c') => (fmaximum ims, c')
  | (Err e, c') => (Err e, c')
  end.
(** alg.py:42-44, the squared residuals of one particle: Value itself is read, not ev *)
Definition residuals (s : objs) (data : dict nat) (ys : dict flt) : res (list flt) :=
  mapM (fun ki => do y <- dgetE ys (fst ki); do p <- ev_now s (snd ki); let d := fsub y (Fin (fst p)) in Ok (fmul d d)) data.
