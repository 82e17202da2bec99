(** * Properties C55 and C62: fit/base.py *)

Require Import Verif.Base Verif.World Verif.ModelGraph Verif.ModelExpr Verif.ModelLoci Verif.ModelBN Verif.ModelSample
        Verif.ModelFitBase Verif.Spec Verif.SpecBN Verif.SpecExpr Verif.SpecSample
        Verif.ProofBase Verif.ProofGraph Verif.ProofBN Verif.ProofBNViews Verif.ProofBNHist Verif.ProofSample
        Verif.ExWorld Verif.PropsBN Verif.PropsSample.
Require Import Coq.ZArith.ZArith.

(** ** C55 *)

Lemma update_settings_step : forall V (s : dict V) kv, NoDup (dkeys s) ->
  dkeys (if dmem (fst kv) s then dset s (fst kv) (snd kv) else s) = dkeys s.
Proof.
  intros V s [k v] H. simpl. destruct (dmem k s) eqn:E; auto. rewrite dkeys_dset. unfold sadd.
  apply dmem_In in E. apply mem_In in E. rewrite E. auto.
Qed.

(** The keys stay what they were, whatever is passed; each existing key that is passed gets the
    value passed for it, all others keep theirs. *)
Theorem C55_settings : forall V (s kw : dict V), NoDup (dkeys s) -> NoDup (dkeys kw) ->
  dkeys (update_settings s kw) = dkeys s
  /\ forall k, dget (update_settings s kw) k =
       match dget s k with
       | None => None
       | Some old => match dget kw k with Some v => Some v | None => Some old end
       end.
Proof.
  intros V s kw. unfold update_settings. revert s. induction kw as [|[k v] kw IH]; intros s Hs Hk.
  - simpl. split; auto. intros x. destruct (dget s x); auto.
  - simpl in Hk. inversion Hk; subst. cbn [fold_left fst snd].
    pose proof (update_settings_step V s (k, v) Hs) as E. simpl in E.
    destruct (IH (if dmem k s then dset s k v else s)) as [I1 I2]; auto; [rewrite E; auto|].
    split; [rewrite I1; auto|]. intros x. rewrite I2. cbn [dget].
    destruct (dmem k s) eqn:Em.
    + rewrite dget_dset. destruct (String.eqb_spec x k) as [->|N]; auto.
      apply dmem_In in Em. apply dget_In in Em. destruct Em as [o ->].
      assert (K : dget kw k = None) by (apply dget_None; auto). rewrite K. auto.
    + destruct (String.eqb_spec x k) as [->|N]; auto.
      unfold dmem in Em. destruct (dget s k); [discriminate|auto].
Qed.
Print Assumptions C55_settings.

(** Over any number of calls of fit with keywords. *)
Theorem C55_calls : forall V (defaults : dict V) calls, NoDup (dkeys defaults) -> Forall (fun kw => NoDup (dkeys kw)) calls ->
  dkeys (settings_after defaults calls) = dkeys defaults
  /\ forall k v, dget (settings_after defaults calls) k = Some v ->
       dget defaults k = Some v \/ exists kw, In kw calls /\ dget kw k = Some v.
Proof.
  intros V defaults calls. unfold settings_after. revert defaults.
  induction calls as [|kw calls IH]; intros s Hs F; simpl; [auto|].
  inversion F; subst. destruct (C55_settings V s kw Hs H1) as [E1 E2].
  destruct (IH (update_settings s kw)) as [I1 I2]; auto; [rewrite E1; auto|]. split; [congruence|].
  intros k v Hk. destruct (I2 k v Hk) as [K|[kw' [K1 K2]]]; eauto.
  rewrite E2 in K. destruct (dget s k); [|discriminate]. destruct (dget kw k) eqn:Ek; inversion K; subst; eauto.
Qed.
Print Assumptions C55_calls.

Example C55_example :
  let s := [("parallel", 1); ("n_core", 4); ("verbose", 5)] in let kw := [("n_core", 8); ("n_gen", 30)] in
  NoDup (dkeys s) /\ NoDup (dkeys kw) /\ update_settings s kw = [("parallel", 1); ("n_core", 8); ("verbose", 5)].
Proof. cbv zeta. splits; auto; repeat constructor; simpl; intuition discriminate. Qed.

(** ** C62 *)

Section C62.
  Context {w : world} {D : Type} (d0 : D) (dadd : D -> D -> D).
  Implicit Types (m : dmodel w D) (p : particle w D).

  Lemma pick_spec : forall (sims : dict (V w)) ks ys, pick sims ks = Ok ys ->
    dkeys ys = ks /\ forall k, dget ys k = if mem k ks then dget sims k else None.
  Proof.
    intros sims ks. unfold pick. induction ks as [|k ks IH]; intros ys H; simpl in H.
    - inversion H. subst. split; [reflexivity|]. intros k. reflexivity.
    - unfold dgetE in H at 1. destruct (dget sims k) as [v|] eqn:E; simpl in H; [|discriminate].
      apply bind_ok in H. destruct H as [ys' [H1 H2]]. inversion H2; subst.
      destruct (IH ys' H1) as [I1 I2]. split; [simpl; congruence|].
      intros x. cbn [dget mem existsb]. destruct (String.eqb_spec x k) as [->|N]; simpl; [congruence|apply I2].
  Qed.

  Lemma total_spec : forall (f : target w D -> dict (V w) -> res D) (data : dict (target w D)) ys acc d,
    foldM (fun acc kt => do x <- f (snd kt) ys; Ok (dadd acc x)) data acc = Ok d ->
    exists ds, Forall2 (fun kt x => f (snd kt) ys = Ok x) data ds /\ d = fold_left dadd ds acc.
  Proof.
    intros f data ys. induction data as [|kt data IH]; intros acc d H; simpl in H.
    - inversion H. exists []. split; auto.
    - destruct (f (snd kt) ys) as [x|e] eqn:E; simpl in H; [|discriminate].
      destruct (IH _ _ H) as [ds [I1 I2]]. exists (x :: ds). split; [constructor; auto|auto].
  Qed.

  Lemma flatten_ok : forall m p r p' r', flatten m p r = (Ok tt, p', r') ->
    exists xs ys, p_xs p' = Some xs /\ p_ys p' = Some ys
      /\ dkeys ys = dkeys (dm_data m) /\ (forall k, In k (dkeys (dm_data m)) -> dget ys k = dget (p_sims p) k)
      /\ p_pars p' = p_pars p /\ p_sims p' = p_sims p /\ p_distance p' = p_distance p /\ p_loglik p' = p_loglik p
      /\ p_notes p' = p_notes p.
  Proof.
    intros m p r p' r' H. unfold flatten in H. destruct (dm_domain m r) as [[dom|e] r1]; [|discriminate].
    destruct (mapM _ dom) as [xs|e]; [|discriminate].
    destruct (pick (p_sims p) (dkeys (dm_data m))) as [ys|e] eqn:E; inversion H; subst.
    destruct (pick_spec _ _ _ E) as [E1 E2]. exists xs, ys. simpl. splits; auto.
    intros k Hk. rewrite E2. apply mem_In in Hk. rewrite Hk. auto.
  Qed.
End C62.

(** The distance of a new particle is the sum of the distances of the targets, in their order,
    at the simulated values of exactly the target names; it is stored, nothing else of the
    particle is altered, and asking again gives it back without work. *)
Theorem C62_distance : forall w D d0 dadd (m : dmodel w D) p r d p' r',
  p_distance p = None -> p_ys p = None -> calc_distance d0 dadd m p r = (Ok d, p', r') ->
  (exists ys ds, dkeys ys = dkeys (dm_data m)
     /\ (forall k, In k (dkeys (dm_data m)) -> dget ys k = dget (p_sims p) k)
     /\ Forall2 (fun kt x => t_dist (snd kt) ys = Ok x) (dm_data m) ds /\ d = fold_left dadd ds d0)
  /\ p_distance p' = Some d /\ p_loglik p' = p_loglik p /\ p_pars p' = p_pars p /\ p_sims p' = p_sims p /\ p_notes p' = p_notes p
  /\ forall r2, calc_distance d0 dadd m p' r2 = (Ok d, p', r2).
Proof.
  intros w D d0 dadd m p r d p' r' Hd Hy H. unfold calc_distance in H. rewrite Hd in H. unfold need_ys in H. rewrite Hy in H.
  destruct (flatten m p r) as [[[[]|e] p1] r1] eqn:E; [|discriminate].
  destruct (flatten_ok m p r p1 r1 E) as [xs [ys [F1 [F2 [F3 [F4 [F5 [F6 [F7 [F8 F9]]]]]]]]]]. rewrite F2 in H.
  destruct (total d0 dadd t_dist (dm_data m) ys) as [d'|e] eqn:T; inversion H; subst.
  unfold total in T. destruct (total_spec dadd _ _ _ _ _ T) as [ds [T1 T2]].
  splits; simpl; auto. exists ys, ds. auto.
Qed.
Print Assumptions C62_distance.

Theorem C62_likelihood : forall w D d0 dadd (m : dmodel w D) p r d p' r',
  p_loglik p = None -> p_ys p = None -> calc_likelihood d0 dadd m p r = (Ok d, p', r') ->
  (exists ys ds, dkeys ys = dkeys (dm_data m)
     /\ (forall k, In k (dkeys (dm_data m)) -> dget ys k = dget (p_sims p) k)
     /\ Forall2 (fun kt x => t_lik (snd kt) ys = Ok x) (dm_data m) ds /\ d = fold_left dadd ds d0)
  /\ p_loglik p' = Some d /\ p_distance p' = p_distance p /\ p_pars p' = p_pars p /\ p_sims p' = p_sims p /\ p_notes p' = p_notes p
  /\ forall r2, calc_likelihood d0 dadd m p' r2 = (Ok d, p', r2).
Proof.
  intros w D d0 dadd m p r d p' r' Hd Hy H. unfold calc_likelihood in H. rewrite Hd in H. unfold need_ys in H. rewrite Hy in H.
  destruct (flatten m p r) as [[[[]|e] p1] r1] eqn:E; [|discriminate].
  destruct (flatten_ok m p r p1 r1 E) as [xs [ys [F1 [F2 [F3 [F4 [F5 [F6 [F7 [F8 F9]]]]]]]]]]. rewrite F2 in H.
  destruct (total d0 dadd t_lik (dm_data m) ys) as [d'|e] eqn:T; inversion H; subst.
  unfold total in T. destruct (total_spec dadd _ _ _ _ _ T) as [ds [T1 T2]].
  splits; simpl; auto. exists ys, ds. auto.
Qed.
Print Assumptions C62_likelihood.

(** A stored distance is returned whatever the particle now holds. *)
Theorem C62_stored : forall w D d0 dadd (m : dmodel w D) p r d, p_distance p = Some d ->
  calc_distance d0 dadd m p r = (Ok d, p, r).
Proof. intros w D d0 dadd m p r d H. unfold calc_distance. rewrite H. auto. Qed.
Print Assumptions C62_stored.

(** After a distance the likelihood needs no second flattening, so no draw. *)
Theorem C62_flattened_once : forall w D d0 dadd (m : dmodel w D) p r d p' r' r2,
  calc_distance d0 dadd m p r = (Ok d, p', r') -> p_distance p = None ->
  snd (calc_likelihood d0 dadd m p' r2) = r2.
Proof.
  intros w D d0 dadd m p r d p' r' r2 H Hd. unfold calc_distance in H. rewrite Hd in H.
  destruct (need_ys m p r) as [[[ys|e] p1] r1] eqn:E; [|discriminate].
  destruct (total d0 dadd t_dist (dm_data m) ys) as [d'|e]; inversion H; subst.
  assert (Y : p_ys p1 = Some ys).
  { unfold need_ys in E. destruct (p_ys p) as [y|] eqn:Ey.
    - inversion E; subst. auto.
    - destruct (flatten m p r) as [[[[]|e] p2] r3]; inversion E; subst. destruct (p_ys p1); inversion H1; auto. }
  unfold calc_likelihood, need_ys. simpl. rewrite Y. destruct (p_loglik p1); auto. destruct (total _ _ _ _ ys); auto.
Qed.
Print Assumptions C62_flattened_once.

(** The distance follows neither the simulated values nor the targets once it is stored. *)
Definition zsum (d : dict (V exw)) : res Z := fold_left (fun a kv => do x <- a; match snd kv with PZ z => Ok (x + z)%Z | _ => Err TypeError end) d (Ok 0%Z).
Definition exdm : dmodel exw Z := mkDM [("y", mkTarget (w:=exw) zsum (fun _ => Err AttributeError)); ("z", mkTarget (w:=exw) zsum (fun _ => Err AttributeError))]
  exnet [("a", PZ 1); ("s", PZ 2)] ["x"].
Definition expt (y : Z) : particle exw Z :=
  pt_new (mkChrom (w:=exw) [("a", PZ 1); ("s", PZ 2); ("k", PZ 2); ("x", PZ 6); ("y", PZ 8); ("z", PZ 256)] LNan) [("y", PZ y); ("z", PZ 4); ("other", PZ 9)].

Definition outcome_d (o : res Z * particle exw Z * nat) : option Z * option Z * option (list pv) * option (list (name * pv)) :=
  match o with (x, p, r) => (match x with Ok z => Some z | Err _ => None end, p_distance p, p_xs p, p_ys p) end.

Theorem C62_stale_refuted : exists (m : dmodel exw Z) p r d p1 r1 sims,
  calc_distance 0%Z Z.add m p r = (Ok d, p1, r1)
  /\ let p2 := mkPt (p_pars p1) sims (p_xs p1) (p_ys p1) (p_distance p1) (p_loglik p1) (p_notes p1) in
     exists p3 r3, calc_distance 0%Z Z.add m p2 r1 = (Ok d, p3, r3)
     /\ fst (fst (calc_distance 0%Z Z.add m (pt_new (p_pars p) sims) r1)) <> Ok d.
Proof.
  set (o := calc_distance 0%Z Z.add exdm (expt 3) 0).
  assert (E : outcome_d o = (Some 14%Z, Some 14%Z, Some [PZ 6], Some [("y", PZ 3); ("z", PZ 4)])) by (vm_compute; reflexivity).
  assert (E2 : match fst (fst (calc_distance 0%Z Z.add exdm (pt_new (p_pars (expt 3)) [("y", PZ 100); ("z", PZ 4)]) (snd o))) with
               | Ok z => Z.eqb z 14 | Err _ => true end = false) by (vm_compute; reflexivity).
  destruct o as [[[d|e] p1] r1] eqn:Eo; simpl in E; inversion E; subst.
  exists exdm, (expt 3), 0, 14%Z, p1, r1, [("y", PZ 100); ("z", PZ 4)]. split; [exact Eo|].
  eexists _, _. split; [apply C62_stored; simpl; exact H1|].
  intros K. cbn [snd] in E2. rewrite K in E2. discriminate.
Qed.
Print Assumptions C62_stale_refuted.

(** serve: exogenous values override the given ones, the given ones are kept otherwise, all
    other nodes come from their definitions, and LogProb is the evaluation of the values. *)
Theorem C62_serve : forall w D (m : dmodel w D) p r c r', built (dm_bn m) -> NoDup (dkeys (dm_exo m)) ->
  serve m p r = (Ok c, r') ->
  (forall k, In k (dkeys (ch_locus c)) <-> node (dm_bn m) k \/ In k (dkeys p) \/ In k (dkeys (dm_exo m)))
  /\ (forall k v, dget (dm_exo m) k = Some v -> dget (ch_locus c) k = Some v)
  /\ (forall k v, dget (dm_exo m) k = None -> dget p k = Some v -> dget (ch_locus c) k = Some v)
  /\ (forall n, node (dm_bn m) n -> ~ In n (dkeys p) -> ~ In n (dkeys (dm_exo m)) -> produced (dm_bn m) (dget (ch_locus c)) n)
  /\ evaluate_nodes (dm_bn m) (ch_locus c) = Ok (ch_lp c).
Proof.
  intros w D m p r c r' B Hn H. unfold serve, sample_chromosome in H.
  destruct (sample (dm_bn m) (dupdate p (dm_exo m)) r) as [[d|e] r1] eqn:E; [|discriminate].
  destruct (evaluate_nodes (dm_bn m) d) as [lp|e] eqn:El; inversion H; subst. simpl.
  destruct (C25_complete w _ _ _ _ _ B E) as [K1 [K2 K3]].
  assert (Kd : forall k, In k (dkeys (dupdate p (dm_exo m))) <-> In k (dkeys p) \/ In k (dkeys (dm_exo m))).
  { intros k. rewrite dkeys_dupdate, union_In. tauto. }
  splits; auto.
  - intros k. rewrite K1, Kd. tauto.
  - intros k v Hk. apply K2. rewrite dget_dupdate_NoDup by auto. rewrite Hk. auto.
  - intros k v Hk Hp. apply K2. rewrite dget_dupdate_NoDup by auto. rewrite Hk. auto.
  - intros n H1 H2 H3. apply K3; auto. rewrite Kd. tauto.
Qed.
Print Assumptions C62_serve.

(** A chromosome restored from JSON keeps the LogProb of the JSON even when exogenous values
    replaced some of its entries. *)
Theorem C62_restore_refuted : exists (m : dmodel exw Z) js r c r', built (dm_bn m) /\
  evaluate_nodes (dm_bn m) (fst js) = Ok (snd js) /\ serve_from_json m js r = (Ok c, r')
  /\ evaluate_nodes (dm_bn m) (ch_locus c) <> Ok (ch_lp c).
Proof.
  exists (mkDM [] exnet [("a", PZ 3)] []),
    ([("a", PZ 1); ("s", PZ 2); ("k", PZ 2); ("x", PZ 6); ("y", PZ 8); ("z", PZ 256)], LZ (-5)), 0,
    (mkChrom (w:=exw) [("a", PZ 3); ("s", PZ 2); ("k", PZ 2); ("x", PZ 6); ("y", PZ 8); ("z", PZ 256)] (LZ (-5))), 0.
  splits.
  - apply exnet_built.
  - vm_compute. reflexivity.
  - set (o := serve_from_json _ _ _).
    assert (E : (match fst o with Ok c => Some (ch_locus c, ch_lp c) | Err _ => None end, snd o) =
      (Some ([("a", PZ 3); ("s", PZ 2); ("k", PZ 2); ("x", PZ 6); ("y", PZ 8); ("z", PZ 256)], LZ (-5)), 0)) by (vm_compute; reflexivity).
    destruct o as [[[l p]|e] r]; simpl in E; inversion E; reflexivity.
  - assert (E : evaluate_nodes exnet [("a", PZ 3); ("s", PZ 2); ("k", PZ 2); ("x", PZ 6); ("y", PZ 8); ("z", PZ 256)] = Ok (LZ (-3)))
      by (vm_compute; reflexivity).
    simpl. rewrite E. discriminate.
Qed.
Print Assumptions C62_restore_refuted.

(** evaluate_prior leaves the chromosome evaluated, its values alone, and a LogProb that was
    there alone. *)
Theorem C62_evaluate_prior : forall w D (m : dmodel w D) c lp c', lp_isnan w (lp_ninf w) = false ->
  evaluate_prior m c = (Ok lp, c') ->
  ch_evaluated c' = true /\ ch_lp c' = lp /\ ch_locus c' = ch_locus c
  /\ (ch_evaluated c = true -> c' = c) /\ (ch_evaluated c = false -> evaluate_nodes (dm_bn m) (ch_locus c) = Ok lp)
  /\ evaluate_prior m c' = (Ok lp, c').
Proof.
  intros w D m c lp c' N H. unfold evaluate_prior in H. destruct (ch_evaluated c) eqn:E.
  - inversion H; subst. splits; auto; try discriminate. unfold evaluate_prior. rewrite E. auto.
  - destruct (evaluate_nodes (dm_bn m) (ch_locus c)) as [l|e] eqn:El; inversion H; subst.
    assert (K : ch_evaluated (mkChrom (ch_locus c) lp) = true).
    { unfold ch_evaluated. simpl. rewrite (C28_never_nan w _ _ _ N El). auto. }
    splits; auto; try discriminate. unfold evaluate_prior. rewrite K. auto.
Qed.
Print Assumptions C62_evaluate_prior.

(** The free parameters are the random roots that are not fixed from outside and whose prior
    draw is a float. *)
Theorem C62_free : forall w D is_float (data : dict (target w D)) b exo r m r', built b ->
  dm_init is_float data b exo r = (Ok m, r') ->
  dm_bn m = b /\ dm_exo m = exo /\ dm_data m = data
  /\ exists rv d, RVRoots b = Ok rv /\ sample b exo r = (Ok d, r')
     /\ (forall n, In n (dm_free m) <-> In n rv /\ ~ In n (dkeys exo) /\ exists v, In (n, v) d /\ is_float v = true)
     /\ (forall x y, before (dm_free m) x y -> before rv x y).
Proof.
  intros w D is_float data b exo r m r' B H. unfold dm_init in H. destruct (RVRoots b) as [rv|e] eqn:E; [|discriminate].
  unfold sample_prior in H. destruct (sample b exo r) as [[d|e] r1] eqn:Es; [|discriminate].
  destruct (evaluate_nodes b d) as [lp|e]; inversion H; subst. simpl. splits; auto.
  exists rv, d. splits; auto.
  - intros n. rewrite !filter_In. rewrite mem_In, in_map_iff. split.
    + intros [[H1 H2] [[n' v] [H3 H4]]]. simpl in H3. subst n'. apply filter_In in H4. destruct H4 as [H4 H5]. splits; eauto.
      intros K. apply dmem_In in K. rewrite K in H2. discriminate.
    + intros [H1 [H2 [v [H3 H4]]]]. splits; auto.
      * destruct (dmem n exo) eqn:Em; auto. apply dmem_In in Em. contradiction.
      * exists (n, v). split; auto. apply filter_In. auto.
  - intros x y K. apply before_filter in K. destruct K as [K _]. apply before_filter in K. apply K.
Qed.
Print Assumptions C62_free.

(** The domain lists every random root in order, fixed or not. *)
Theorem C62_domain : forall w D (m : dmodel w D) r dom r', dm_domain m r = (Ok dom, r') ->
  RVRoots (dm_bn m) = Ok (map fst dom).
Proof.
  intros w D m r dom r' H. unfold dm_domain in H. destruct (sample_prior _ _ r) as [[p|e] r1]; [|discriminate].
  inversion H; subst. destruct (RVRoots (dm_bn m)) as [rv|e]; simpl in *; [|discriminate]. f_equal.
  clear H. revert dom H1. induction rv as [|n rv IH]; intros dom H; simpl in H; [inversion H; auto|].
  destruct (node_distribution _ n _) as [d|e]; simpl in H; [|discriminate].
  apply bind_ok in H. destruct H as [ds [H1 H2]]. inversion H2; subst. simpl. rewrite <- (IH ds H1). auto.
Qed.
Print Assumptions C62_domain.

Example C62_example : p_distance (expt 3) = None /\ p_ys (expt 3) = None
  /\ outcome_d (calc_distance 0%Z Z.add exdm (expt 3) 0) = (Some 14%Z, Some 14%Z, Some [PZ 6], Some [("y", PZ 3); ("z", PZ 4)])
  /\ built (dm_bn exdm) /\ NoDup (dkeys (dm_exo exdm)) /\ is_ok (fst (serve exdm [("a", PZ 7); ("k", PZ 5)] 4)) = true
  /\ match fst (dm_init (w:=exw) (D:=Z) (fun v => match v with PZ _ => true | _ => false end) [] exnet [("a", PZ 1); ("s", PZ 2)] 0) with
     | Ok m => dm_free m | Err _ => [] end = ["x"].
Proof.
  splits; try reflexivity; try (vm_compute; reflexivity).
  - apply exnet_built.
  - repeat constructor; simpl; intuition discriminate.
Qed.
