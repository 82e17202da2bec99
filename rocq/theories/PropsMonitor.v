(** * Property C52: monitor.py *)

Require Import Verif.Base Verif.ModelMonitor Verif.ProofBase Coq.ZArith.ZArith Coq.Sorting.Sorted.

(** the time of a record *)
Definition at_time {V} (r : dict (mval V)) (t : Z) : Prop := dget r "Time" = Some (MT t).

(** [t] is the largest... every record has a time, later records have larger times, all are
    before the current time *)
Definition timed {V} (m : monitor V) : Prop :=
  exists ts, Forall2 at_time (m_records m) ts /\ StronglySorted Z.lt ts /\ Forall (fun t => (t < m_time m)%Z) ts.

Lemma sorted_snoc : forall ts t, StronglySorted Z.lt ts -> Forall (fun x => (x < t)%Z) ts -> StronglySorted Z.lt (ts ++ [t]).
Proof.
  induction ts as [|a ts IH]; intros t H F; simpl.
  - repeat constructor.
  - inversion H; subst. inversion F; subst. constructor; auto. apply Forall_app. split; auto.
Qed.

Lemma timed_do : forall V (o : mop V) m, timed m -> timed (mon_do o m).
Proof.
  intros V o m [ts [H1 [H2 H3]]]. destruct o as [kw|t|t]; simpl.
  - exists ts. auto.
  - unfold mon_step. set (t' := match t with Some t0 => _ | None => _ end).
    destruct (Z.ltb_spec t' (m_time m)) as [L|L]; simpl; [exists ts; auto|].
    destruct (Z.eqb_spec t' (m_time m)) as [E|E]; simpl; [exists ts; auto|].
    exists (ts ++ [m_time m]). simpl. splits.
    + apply Forall2_app; auto. constructor; [|constructor]. unfold at_time. rewrite dget_dset. auto.
    + apply sorted_snoc; auto.
    + apply Forall_app. split; [|constructor; [lia|constructor]].
      eapply Forall_impl; [|apply H3]. simpl. intros a Ha. lia.
  - exists []. repeat constructor.
Qed.

(** Over every history of calls: each record carries a time, the times increase strictly and
    are all before the current time. *)
Theorem C52_times : forall V (os : list (mop V)), timed (mon_run os).
Proof.
  intros V os. unfold mon_run. assert (H : timed (@mon_new V)) by (exists []; repeat constructor).
  revert H. generalize (@mon_new V). induction os as [|o os IH]; intros m H; simpl; auto.
  apply IH. apply timed_do. auto.
Qed.
Print Assumptions C52_times.

(** value kept last for [k] in a sequence of keep calls *)
Inductive kept_last {V} : list (dict V) -> name -> V -> Prop :=
| kl_here : forall kws kw k v, dget kw k = Some v -> kept_last (kws ++ [kw]) k v
| kl_before : forall kws kw k v, dget kw k = None -> kept_last kws k v -> kept_last (kws ++ [kw]) k v.

Definition keep_all {V} (kws : list (dict V)) (m : monitor V) : monitor V := fold_left (fun m kw => mon_keep kw m) kws m.

Lemma keep_all_snoc : forall V (kws : list (dict V)) kw m, keep_all (kws ++ [kw]) m = mon_keep kw (keep_all kws m).
Proof. intros. unfold keep_all. rewrite fold_left_app. auto. Qed.

Lemma dget_mv : forall V (kw : dict V) k, dget (map (fun p => (fst p, MV (snd p))) kw) k = option_map MV (dget kw k).
Proof. intros V kw k. induction kw as [|[a v] kw IH]; simpl; auto. destruct (String.eqb k a); auto. Qed.

Lemma keep_all_frame : forall V (kws : list (dict V)) m,
  m_records (keep_all kws m) = m_records m /\ m_time (keep_all kws m) = m_time m.
Proof. intros V kws. induction kws as [|kw kws IH]; intros m; simpl; auto. apply (IH (mon_keep kw m)). Qed.

Lemma keep_all_last : forall V (kws : list (dict V)) m k v, Forall (fun kw => NoDup (dkeys kw)) kws -> m_last m = [] ->
  (dget (m_last (keep_all kws m)) k = Some v <-> exists x, v = MV x /\ kept_last kws k x).
Proof.
  intros V kws. induction kws as [|kw kws IH] using rev_ind; intros m k v F E.
  - simpl. rewrite E. simpl. split; [discriminate|]. intros [x [-> H]]. inversion H; destruct kws; discriminate.
  - apply Forall_app in F. destruct F as [F1 F2]. inversion F2; subst. rewrite keep_all_snoc. simpl.
    rewrite dget_dupdate_NoDup.
    + rewrite dget_mv. destruct (dget kw k) as [x|] eqn:K; simpl.
      * split.
        -- intros Hx. inversion Hx. exists x. split; auto. constructor. auto.
        -- intros [y [-> Hy]]. inversion Hy; subst; apply app_inj_tail in H; destruct H; subst; congruence.
      * rewrite (IH m k v F1 E). split; intros [x [-> Hx]]; exists x; split; auto.
        -- apply kl_before; auto.
        -- inversion Hx; subst; apply app_inj_tail in H; destruct H; subst; congruence.
    + unfold dkeys in *. rewrite map_map. simpl. auto.
Qed.

(** Between two steps: the new record holds, for every key, exactly the value kept last; the
    key Time holds the time of the step being closed (and hides a kept value of that name). *)
Theorem C52_record : forall V (m : monitor V) kws t, Forall (fun kw => NoDup (dkeys kw)) kws ->
  m_last m = [] -> t <> 0%Z -> (m_time m < t)%Z ->
  exists r, mon_step (Some t) (keep_all kws m) = (Ok tt, mkMon (m_records m ++ [r]) t [])
    /\ at_time r (m_time m)
    /\ forall k v, k <> "Time" -> (dget r k = Some v <-> exists x, v = MV x /\ kept_last kws k x).
Proof.
  intros V m kws t F E N L. destruct (keep_all_frame V kws m) as [K1 K2].
  exists (dset (m_last (keep_all kws m)) "Time" (MT (m_time m))). unfold mon_step. rewrite K1, K2.
  destruct (Z.eqb_spec t 0) as [|_]; [contradiction|].
  destruct (Z.ltb_spec t (m_time m)); [lia|]. destruct (Z.eqb_spec t (m_time m)); [lia|]. splits; auto.
  - unfold at_time. rewrite dget_dset. auto.
  - intros k v Hk. rewrite dget_dset. destruct (String.eqb_spec k "Time"); [contradiction|]. apply keep_all_last; auto.
Qed.
Print Assumptions C52_record.

(** Nothing is kept over a step or a reset, so every record starts from nothing. *)
Theorem C52_fresh : forall V (m : monitor V) t, let (o, m') := mon_step t m in
  (o = Ok tt /\ m_time m' <> m_time m -> m_last m' = []) /\ (m_time m' = m_time m -> m' = m) /\ m_last (mon_reset 0 m) = [].
Proof.
  intros V m t. unfold mon_step. set (t' := match t with Some t0 => _ | None => _ end).
  destruct (Z.ltb_spec t' (m_time m)); simpl; [splits; auto; intuition discriminate|].
  destruct (Z.eqb_spec t' (m_time m)); simpl; [splits; auto; intuition|]. splits; auto. intros; lia.
Qed.
Print Assumptions C52_fresh.

(** Missing: t = 0, for which it is false (C52_zero_refuted). *)
Theorem C52_backward_partial : forall V (m : monitor V) t, t <> 0%Z -> (t < m_time m)%Z -> mon_step (Some t) m = (Err KeyError, m).
Proof.
  intros V m t N L. unfold mon_step. destruct (Z.eqb_spec t 0); [contradiction|]. destruct (Z.ltb_spec t (m_time m)); [auto|lia].
Qed.
Print Assumptions C52_backward_partial.

(** Missing: t = 0, for which it is false (C52_zero_refuted). *)
Theorem C52_same_time_partial : forall V (m : monitor V) t, t <> 0%Z -> t = m_time m -> mon_step (Some t) m = (Ok tt, m).
Proof.
  intros V m t N ->. unfold mon_step. destruct (Z.eqb_spec (m_time m) 0); [contradiction|].
  rewrite Z.ltb_irrefl, Z.eqb_refl. auto.
Qed.
Print Assumptions C52_same_time_partial.

Theorem C52_next : forall V (m : monitor V),
  mon_step None m = (Ok tt, mkMon (m_records m ++ [dset (m_last m) "Time" (MT (m_time m))]) (m_time m + 1) []).
Proof.
  intros V m. unfold mon_step. destruct (Z.ltb_spec (m_time m + 1) (m_time m)); [lia|].
  destruct (Z.eqb_spec (m_time m + 1) (m_time m)); [lia|auto].
Qed.
Print Assumptions C52_next.

(** Time zero cannot be asked for: a backward step to zero advances instead of raising, and a
    step to the current time zero records. *)
Theorem C52_zero_refuted : exists (os : list (mop nat)), let m := mon_run os in
  ((0 < m_time m)%Z /\ exists m', mon_step (Some 0%Z) m = (Ok tt, m') /\ (m_time m < m_time m')%Z)
  /\ exists (m0 m1 : monitor nat), m_time m0 = 0%Z /\ mon_step (Some 0%Z) m0 = (Ok tt, m1) /\ m1 <> m0.
Proof.
  exists [OpStep (Some 5%Z)]. cbv zeta. split.
  - split; [simpl; lia|]. eexists. split; [reflexivity|simpl; lia].
  - exists mon_new. eexists. splits; [reflexivity|reflexivity|discriminate].
Qed.
Print Assumptions C52_zero_refuted.

(** The trajectories are the records, indexed by their times; before the first step they raise. *)
Theorem C52_trajectories : forall V (os : list (mop V)), m_records (mon_run os) <> [] ->
  exists tr ts, trajectories (mon_run os) = Ok tr /\ map fst tr = map (fun t => Some (MT t)) ts /\ StronglySorted Z.lt ts
    /\ length tr = length (m_records (mon_run os))
    /\ forall i r, nth_error (m_records (mon_run os)) i = Some r -> exists d, nth_error (map snd tr) i = Some d
        /\ forall k, dget d k = if String.eqb k "Time" then None else dget r k.
Proof.
  intros V os H. destruct (C52_times V os) as [ts [T1 [T2 T3]]]. unfold trajectories.
  destruct (m_records (mon_run os)) as [|r0 rs] eqn:E; [congruence|]. rewrite <- E in *.
  exists (map (fun r => (dget r "Time", ddel r "Time")) (m_records (mon_run os))), ts. splits; auto.
  - rewrite map_map. simpl. clear - T1. induction T1; simpl; auto. unfold at_time in H. rewrite H, IHT1. auto.
  - apply map_length.
  - intros i r Hr. rewrite map_map. simpl. exists (ddel r "Time"). split.
    + rewrite nth_error_map, Hr. auto.
    + intros k. rewrite dget_ddel. rewrite String.eqb_sym. auto.
Qed.
Print Assumptions C52_trajectories.

Theorem C52_no_trajectories : forall V (m : monitor V), m_records m = [] -> trajectories m = Err KeyError.
Proof. intros V m H. unfold trajectories. rewrite H. auto. Qed.
Print Assumptions C52_no_trajectories.

Example C52_example :
  let os := [OpKeep [("size", 4)]; OpStep None; OpKeep [("size", 6); ("n", 1)]; OpKeep [("size", 7)]; OpStep (Some 5%Z); OpStep (Some 2%Z)] in
  m_records (mon_run os) = [[("size", MV 4); ("Time", MT 0%Z)]; [("size", MV 7); ("n", MV 1); ("Time", MT 1%Z)]]
  /\ m_time (mon_run os) = 5%Z /\ kept_last [[("size", 6); ("n", 1)]; [("size", 7)]] "n" 1.
Proof.
  cbv zeta. splits; try reflexivity. apply (kl_before [[("size", 6); ("n", 1)]]); auto.
  apply (kl_here []). reflexivity.
Qed.
