(** * Model of monitor.py: Monitor (without the logger) *)

Require Import Verif.Base Coq.ZArith.ZArith.

Section Monitor.
  Context {V : Type}.

  (** entries of a record: kept values, and the time stored under the key 'Time' *)
  Inductive mval := MV (v : V) | MT (t : Z).

  (** monitor.py:17-19 Records, Time, Last *)
  Record monitor := mkMon { m_records : list (dict mval); m_time : Z; m_last : dict mval }.

  (** monitor.py:9-19 __init__ *)
  Definition mon_new : monitor := mkMon [] 0 [].

  (** monitor.py:44-47 reset *)
  Definition mon_reset (t : Z) (m : monitor) : monitor := mkMon [] t [].

  (** monitor.py:49-59 step: outcome and the monitor left behind *)
  Definition mon_step (time : option Z) (m : monitor) : res unit * monitor :=
    let t := match time with
             | Some t => if Z.eqb t 0 then (m_time m + 1)%Z else t
             | None => (m_time m + 1)%Z
             end in
    if Z.ltb t (m_time m) then (Err KeyError, m)
    else if Z.eqb t (m_time m) then (Ok tt, m)
    else (Ok tt, mkMon (m_records m ++ [dset (m_last m) "Time" (MT (m_time m))]) t []).

  (** monitor.py:62-63 keep; the keyword arguments as a dict *)
  Definition mon_keep (kw : dict V) (m : monitor) : monitor :=
    mkMon (m_records m) (m_time m) (dupdate (m_last m) (map (fun p => (fst p, MV (snd p))) kw)).

  (** monitor.py:41-42 __getitem__ *)
  Definition mon_get (m : monitor) (k : name) : res mval := dgetE (m_last m) k.

  (** monitor.py:65-68 Trajectories: the index of the frame. set_index('Time') on a frame
      without rows has no such column. *)
  Definition trajectories (m : monitor) : res (list (option mval * dict mval)) :=
    match m_records m with
    | [] => Err KeyError
    | rs => Ok (map (fun r => (dget r "Time", ddel r "Time")) rs)
    end.

  (** a call on the monitor *)
  Inductive mop := OpKeep (kw : dict V) | OpStep (t : option Z) | OpReset (t : Z).
  Definition mon_do (o : mop) (m : monitor) : monitor :=
    match o with
    | OpKeep kw => mon_keep kw m
    | OpStep t => snd (mon_step t m)
    | OpReset t => mon_reset t m
    end.
  Definition mon_run (os : list mop) : monitor := fold_left (fun m o => mon_do o m) os mon_new.
End Monitor.
Arguments mval V : clear implicits.
Arguments monitor V : clear implicits.
Arguments mop V : clear implicits.
