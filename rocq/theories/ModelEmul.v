(** * Model of fit/hme/emulator.py: emulators by Gaussian processes

    numpy arrays, GPR, the optimiser and the prediction of gpflow are parameters without any law. *)

Require Import Verif.Base Verif.World Verif.ModelFloat.

Section Emul.
  Context {w : world}.
  Notation G := (RNG w).
  Context {arr gp kern : Type}.
  Context (new_kernel : kern).                                   (* RBF() *)
  Context (as_array : list (list (V w)) -> res arr).             (* np.array(xs) *)
  Context (as_float : V w -> res flt).                           (* np.array(..., dtype=float), entry by entry *)
  Context (build : arr -> list flt -> kern -> res gp).           (* GPR(data=(xs, ys), kernel=self.Kernel) *)
  (* opt.minimize(...): it changes the process and the kernel, and may raise after that *)
  Context (optimise : gp -> kern -> G -> res unit * gp * kern * G).
  Context (predict_f : gp -> list (list R) -> res (list flt * list flt)).

  (** emulator.py:13-21 the attributes Output, Kernel, GP *)
  Record gpr := mkGpr { g_out : name; g_kernel : kern; g_gp : option gp }.
  (** emulator.py:14-21 __init__ without a kernel (the way of alg.py:80) *)
  Definition gpr_new (k : name) : gpr := mkGpr k new_kernel None.

  (** emulator.py:33-38 train: outcome, the emulator left behind, generator. The column [[y[Output]] ...]
      is read completely before it is converted. *)
  Definition gpr_train (e : gpr) (xs : list (list (V w))) (ys : list (dict (V w))) (r : G) : res unit * gpr * G :=
    match (do a <- as_array xs;
           do col <- mapM (fun y => dgetE y (g_out e)) ys;
           do col <- mapM as_float col;
           build a col (g_kernel e)) with
    | Err x => (Err x, e, r)
    | Ok p => let '(o, p', k', r') := optimise p (g_kernel e) r in (o, mkGpr (g_out e) k' (Some p'), r')
    end.

  (** emulator.py:40-45 predict *)
  Definition gpr_predict (e : gpr) (xs : list (list R)) : res (list flt * list flt) :=
    match g_gp e with None => Err AssertionError | Some p => predict_f p xs end.

  (** alg.py:133-134 emu.train inside a fit, which an exception ends *)
  Definition train_in_fit (e : gpr) (xs : list (list (V w))) (ys : list (dict (V w))) (r : G) : res gpr * G :=
    match gpr_train e xs ys r with (Ok _, e', r') => (Ok e', r') | (Err x, _, r') => (Err x, r') end.
End Emul.
Arguments gpr gp kern : clear implicits.
