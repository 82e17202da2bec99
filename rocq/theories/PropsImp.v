(** * Property C105: implausibility and mean squared error in history matching *)

Require Import Coq.Reals.Reals Coq.micromega.Lra.
Require Import Verif.Base Verif.World Verif.ModelGraph Verif.ModelExpr Verif.ModelLoci Verif.ModelBN Verif.ModelSample
        Verif.ModelFitBase Verif.ModelFloat Verif.ModelTargets Verif.ModelConverter Verif.ModelABC Verif.ModelHME
        Verif.Spec Verif.SpecBN Verif.ProofBase Verif.ProofNodeSet Verif.ProofFloat Verif.PropsABC Verif.ProofSMC Verif.ExWorld Verif.PropsBN Verif.PropsHME.
Require Import Lia.
Local Open Scope nat_scope.

(** the prediction y with variance v is less than c standard deviations from the target, where the
    variances of the model, of the observation and of the prediction add up *)
Definition within (c v_m : R) (t : tdef) (y v : flt) : Prop :=
  match y, v with
  | Fin y, Fin v => (0 < v_m + var_obs t + v /\ Rabs (t_value t - y) < c * sqrt (v_m + var_obs t + v))%R
  | Fin _, PInf => (0 < c)%R
  | _, _ => False
  end.

(** one summand of the loop *)
Definition ratio (v_m : R) (t : tdef) (y v : flt) : flt :=
  fdivf (fabs (fsub (Fin (t_value t)) y)) (fsqrt (fadd (Fin (v_m + var_obs t)) v)).

Lemma sqrt_zero : forall a, (a <= 0)%R -> sqrt a = 0%R.
Proof. intros a H. destruct (Rle_lt_or_eq_dec a 0 H) as [L| ->]; [apply sqrt_neg_0; lra|apply sqrt_0]. Qed.

Lemma ratio_within : forall c v_m t y v, fltb (ratio v_m t y v) (Fin c) = true <-> within c v_m t y v.
Proof.
  intros c v_m t y v. unfold ratio, within, fsub.
  destruct y as [y| | |]; cbn [fopp fadd fabs fdivf].
  - destruct v as [v| | |]; cbn [fadd fsqrt fdivf fltb].
    + destruct (rltb (v_m + var_obs t + v) 0) eqn:L.
      * apply rltb_true in L. cbn. split; [discriminate|]. lra.
      * apply rltb_false in L. unfold fdiv. destruct (reqb (sqrt (v_m + var_obs t + v)) 0) eqn:Z.
        -- apply reqb_true in Z. assert (V : (v_m + var_obs t + v = 0)%R) by (apply sqrt_eq_0; auto; lra).
           destruct (reqb _ 0) eqn:Q; [|destruct (rltb 0 _) eqn:P]; cbn; try (split; [discriminate|lra]).
           apply rltb_false in P. apply reqb_false in Q. pose proof (Rabs_pos (t_value t + - y)). split; [intros _|lra]. exfalso. apply Q. lra.
        -- apply reqb_false in Z. pose proof (sqrt_pos (v_m + var_obs t + v)). assert (P : (0 < sqrt (v_m + var_obs t + v))%R) by lra.
           assert (V : (0 < v_m + var_obs t + v)%R).
           { destruct (Rle_lt_dec (v_m + var_obs t + v) 0); auto. rewrite sqrt_zero in P; auto. lra. }
           cbn [fltb]. rewrite rltb_true. replace (t_value t + - y)%R with (t_value t - y)%R by lra. split; intros H1.
           ++ split; auto. apply (Rmult_lt_compat_r _ _ _ P) in H1. unfold Rdiv in H1. rewrite Rmult_assoc, Rinv_l, Rmult_1_r in H1; auto.
           ++ destruct H1 as [_ H1]. apply (Rmult_lt_reg_r _ _ _ P). unfold Rdiv. rewrite Rmult_assoc, Rinv_l, Rmult_1_r; auto.
    + apply rltb_true.
    + split; [discriminate|intros []].
    + split; [discriminate|intros []].
  - split; [|intros []]. destruct v as [v| | |]; cbn [fadd fsqrt fdivf]; try (destruct (rltb (v_m + var_obs t + v) 0)); cbn; try discriminate.
    destruct (rltb (sqrt (v_m + var_obs t + v)) 0) eqn:Q; [|discriminate]. apply rltb_true in Q. pose proof (sqrt_pos (v_m + var_obs t + v)). lra.
  - split; [|intros []]. destruct v as [v| | |]; cbn [fadd fsqrt fdivf]; try (destruct (rltb (v_m + var_obs t + v) 0)); cbn; try discriminate.
    destruct (rltb (sqrt (v_m + var_obs t + v)) 0) eqn:Q; [|discriminate]. apply rltb_true in Q. pose proof (sqrt_pos (v_m + var_obs t + v)). lra.
  - split; [discriminate|intros []].
Qed.

Lemma fmax2_lt : forall a b c, fltb (fmax2 a b) (Fin c) = true <-> fltb a (Fin c) = true /\ fltb b (Fin c) = true.
Proof.
  intros a b c. destruct a as [a| | |], b as [b| | |]; cbn; try (split; [intros H; split; auto; discriminate|intros [? ?]; auto; discriminate]); try tauto.
  destruct (rltb a b) eqn:L; cbn; [apply rltb_true in L|apply rltb_false in L]; rewrite !rltb_true; split; intros; lra.
Qed.
Lemma fold_max_lt : forall l a c, fltb (fold_left fmax2 l a) (Fin c) = true <-> Forall (fun x => fltb x (Fin c) = true) (a :: l).
Proof.
  induction l as [|b l IH]; intros a c; cbn [fold_left].
  - split; [intros; repeat constructor; auto|intros H; inversion H; auto].
  - rewrite IH. split; intros H; inversion H; subst.
    + apply fmax2_lt in H2. destruct H2. repeat constructor; auto.
    + inversion H3; subst. constructor; auto. apply fmax2_lt. auto.
Qed.
Lemma fmax2_in : forall l a x, fold_left fmax2 l a = Fin x ->
  In (Fin x) (a :: l) /\ Forall (fun y => exists r, (y = Fin r /\ (r <= x)%R) \/ y = NInf) (a :: l).
Proof.
  induction l as [|b l IH]; intros a x E; cbn [fold_left] in E.
  - subst. split; [left; auto|]. constructor; [|constructor]. exists x. left. split; auto. lra.
  - apply IH in E. destruct E as [I F]. inversion F as [|? ? [r Fr] Fl]; subst.
    assert (D : (fmax2 a b = a \/ fmax2 a b = b) \/ fmax2 a b = NaN).
    { destruct a as [a| | |], b as [b| | |]; cbn; auto. destruct (rltb a b); auto. }
    destruct D as [D|D]; [|rewrite D in Fr; destruct Fr as [[Fr _]|Fr]; discriminate Fr].
    split; [destruct I as [I|I]; [destruct D as [D|D]; rewrite D in I; [left|right; left]; auto|right; right; auto]|].
    destruct a as [a| | |], b as [b| | |]; cbn in Fr; try (destruct Fr as [[Fr _]|Fr]; discriminate Fr).
    + destruct (rltb a b) eqn:L; (destruct Fr as [[Fr Le]|Fr]; [|discriminate Fr]); inversion Fr; subst; [apply rltb_true in L|apply rltb_false in L];
        repeat (constructor; [eexists; left; split; [reflexivity|lra]|]); auto.
    + destruct Fr as [[Fr Le]|Fr]; [|discriminate Fr]. inversion Fr; subst. constructor; [exists r; left; auto|]. constructor; [exists r; right; auto|auto].
    + destruct Fr as [[Fr Le]|Fr]; [|discriminate Fr]. inversion Fr; subst. constructor; [exists r; right; auto|]. constructor; [exists r; left; auto|auto].
    + constructor; [exists r; right; auto|]. constructor; [exists r; right; auto|auto].
Qed.

Definition has_outputs (obs : dict tdef) (ys vs : dict flt) : Prop :=
  forall k t, In (k, t) obs -> (exists y, dget ys k = Some y) /\ exists v, dget vs k = Some v.

Lemma imp_split : forall (obs : dict tdef) v_m ys vs,
  eval_implausibility obs v_m ys vs =
    do ims <- mapM (fun kt => do y <- dgetE ys (fst kt); do v <- dgetE vs (fst kt); Ok (ratio v_m (snd kt) y v)) obs; fmaximum ims.
Proof. reflexivity. Qed.
Lemma dgetE_ok : forall (A : Type) (d : dict A) k, (exists v, dget d k = Some v /\ dgetE d k = Ok v) \/ (dget d k = None /\ dgetE d k = Err KeyError).
Proof. intros A d k. unfold dgetE. destruct (dget d k); eauto. Qed.

Lemma ims_ends : forall (obs : dict tdef) v_m ys vs,
  let f := fun kt => do y <- dgetE ys (fst kt); do v <- dgetE vs (fst kt); Ok (ratio v_m (snd kt) y v) in
  (has_outputs obs ys vs -> exists l, mapM f obs = Ok l /\ Forall2 (fun kt x => exists y v, dget ys (fst kt) = Some y /\ dget vs (fst kt) = Some v /\ x = ratio v_m (snd kt) y v) obs l)
  /\ (~ has_outputs obs ys vs -> mapM f obs = Err KeyError).
Proof.
  intros obs v_m ys vs. cbv zeta. induction obs as [|[k t] obs [IH1 IH2]].
  - split; [intros _; exists []; split; [reflexivity|constructor]|intros H; exfalso; apply H; intros k t []].
  - cbn [mapM fst snd]. split.
    + intros H. destruct (H k t (or_introl eq_refl)) as [[y Y] [v V]]. destruct (dgetE_ok _ ys k) as [[y' [Y' ->]]|[Y' _]]; [|congruence].
      destruct (dgetE_ok _ vs k) as [[v' [V' ->]]|[V' _]]; [|congruence]. cbn [bind].
      destruct IH1 as [l [-> F]]; [intros k' t' I; apply (H k' t'); right; auto|]. cbn [bind]. eexists. split; [reflexivity|]. constructor; auto.
      cbn [fst snd]. exists y', v'. auto.
    + intros H. destruct (dgetE_ok _ ys k) as [[y' [Y' ->]]|[Y' ->]]; [|reflexivity].
      destruct (dgetE_ok _ vs k) as [[v' [V' ->]]|[V' ->]]; [|reflexivity]. cbn [bind].
      rewrite IH2; [reflexivity|]. intros O. apply H. intros k' t' [I|I]; [inversion I; subst; eauto|apply (O k' t' I)].
Qed.
Lemma has_dec : forall obs ys vs, has_outputs obs ys vs \/ ~ has_outputs obs ys vs.
Proof.
  induction obs as [|[k t] obs IH]; intros ys vs; [left; intros k t []|]. destruct (IH ys vs) as [H|H].
  - destruct (dget ys k) eqn:Y; [destruct (dget vs k) eqn:V|].
    + left. intros k' t' [I|I]; [inversion I; subst; eauto|apply (H k' t' I)].
    + right. intros O. destruct (O k t (or_introl eq_refl)) as [_ [v X]]. congruence.
    + right. intros O. destruct (O k t (or_introl eq_refl)) as [[v X] _]. congruence.
  - right. intros O. apply H. intros k' t' I. apply (O k' t'). right. auto.
Qed.

(** When the implausibility exists, and what is raised otherwise. *)
Theorem C105_ends : forall obs v_m ys vs,
  ((exists x, eval_implausibility obs v_m ys vs = Ok x) <-> obs <> [] /\ has_outputs obs ys vs)
  /\ (eval_implausibility obs v_m ys vs = Err KeyError <-> ~ has_outputs obs ys vs)
  /\ (eval_implausibility obs v_m ys vs = Err ValueError <-> obs = []).
Proof.
  intros obs v_m ys vs. rewrite imp_split. destruct (ims_ends obs v_m ys vs) as [A B]. destruct (has_dec obs ys vs) as [H|H].
  - destruct (A H) as [l [-> F]]. cbn [bind]. destruct F as [|kt x o l X F]; cbn [fmaximum].
    + splits; split; intros Q; auto; try discriminate; try tauto. destruct Q as [x Q]. discriminate.
    + splits; split; intros Q; auto; try discriminate; try tauto; eauto. split; [discriminate|auto].
  - rewrite (B H). cbn [bind]. splits; split; intros Q; auto; try discriminate.
    + destruct Q as [x Q]. discriminate.
    + tauto.
    + subst. exfalso. apply H. intros k t [].
Qed.
Print Assumptions C105_ends.

Lemma imp_ok : forall obs v_m ys vs x, eval_implausibility obs v_m ys vs = Ok x -> exists a l, x = fold_left fmax2 l a
  /\ Forall2 (fun kt x => exists y v, dget ys (fst kt) = Some y /\ dget vs (fst kt) = Some v /\ x = ratio v_m (snd kt) y v) obs (a :: l).
Proof.
  intros obs v_m ys vs x E. rewrite imp_split in E. destruct (ims_ends obs v_m ys vs) as [A B]. destruct (has_dec obs ys vs) as [H|H].
  - destruct (A H) as [l [El F]]. rewrite El in E. cbn [bind] in E. destruct l as [|a l]; [discriminate|]. cbn [fmaximum] in E. exists a, l. split; [congruence|auto].
  - rewrite (B H) in E. discriminate.
Qed.

(** Being less implausible than c means being within c standard deviations of every target. *)
Theorem C105_within : forall obs v_m ys vs x c, eval_implausibility obs v_m ys vs = Ok x ->
  (fltb x (Fin c) = true <->
   forall k t, In (k, t) obs -> exists y v, dget ys k = Some y /\ dget vs k = Some v /\ within c v_m t y v).
Proof.
  intros obs v_m ys vs x c E. destruct (imp_ok _ _ _ _ _ E) as (a & l & -> & F). rewrite fold_max_lt. split.
  - intros L k t I. destruct (Forall2_in_l _ _ _ _ _ _ F I) as [z [Iz [y [v (Y & V & ->)]]]]. rewrite Forall_forall in L. apply L in Iz.
    cbn [fst snd] in *. exists y, v. splits; auto. apply ratio_within. auto.
  - intros H. apply Forall_forall. intros z Iz. destruct (Forall2_in_r _ _ _ _ _ _ F Iz) as [[k t] [Ik [y [v (Y & V & ->)]]]]. cbn [fst snd] in *.
    destruct (H k t Ik) as (y' & v' & Y' & V' & W). apply ratio_within. congruence.
Qed.
Print Assumptions C105_within.

(** The implausibility is the largest of the distances in standard deviations. *)
Theorem C105_largest : forall obs v_m ys vs x (y v : name -> R), eval_implausibility obs v_m ys vs = Ok x ->
  (forall k t, In (k, t) obs -> dget ys k = Some (Fin (y k)) /\ dget vs k = Some (Fin (v k)) /\ (0 < v_m + var_obs t + v k)%R) ->
  exists m, x = Fin m
    /\ (forall k t, In (k, t) obs -> (Rabs (t_value t - y k) / sqrt (v_m + var_obs t + v k) <= m)%R)
    /\ exists k t, In (k, t) obs /\ m = (Rabs (t_value t - y k) / sqrt (v_m + var_obs t + v k))%R.
Proof.
  intros obs v_m ys vs x y v E H. destruct (imp_ok _ _ _ _ _ E) as (a & l & X & F).
  assert (Q : forall k t, In (k, t) obs -> ratio v_m t (Fin (y k)) (Fin (v k)) = Fin (Rabs (t_value t - y k) / sqrt (v_m + var_obs t + v k))).
  { intros k t I. destruct (H k t I) as (_ & _ & P). unfold ratio, fsub. cbn [fopp fadd fabs fsqrt].
    destruct (rltb _ 0) eqn:L; [apply rltb_true in L; lra|]. cbn [fdivf]. unfold fdiv. destruct (reqb _ 0) eqn:Z; [apply reqb_true in Z; pose proof (sqrt_lt_R0 _ P); lra|].
    reflexivity. }
  assert (G : Forall (fun z => exists r, z = Fin r) (a :: l)).
  { apply Forall_forall. intros z Iz. destruct (Forall2_in_r _ _ _ _ _ _ F Iz) as [[k t] [Ik [y' [v' (Y & V & ->)]]]]. cbn [fst snd] in *.
    destruct (H k t Ik) as (Y' & V' & _). rewrite Y' in Y. rewrite V' in V. inversion Y; inversion V; subst. rewrite (Q k t Ik). eauto. }
  assert (M : exists m, fold_left fmax2 l a = Fin m).
  { clear - G. revert a G. induction l as [|b l IH]; intros a G; inversion G as [|? ? [r ->] G1]; subst; [exists r; reflexivity|].
    inversion G1 as [|? ? [q ->] G2]; subst. cbn [fold_left]. apply IH. constructor; auto. cbn. destruct (rltb r q); eauto. }
  destruct M as [m M]. exists m. split; [congruence|]. destruct (fmax2_in _ _ _ M) as [I J]. split.
  - intros k t Ik. destruct (Forall2_in_l _ _ _ _ _ _ F Ik) as [z [Iz [y' [v' (Y & V & ->)]]]]. cbn [fst snd] in *.
    destruct (H k t Ik) as (Y' & V' & _). rewrite Y' in Y. rewrite V' in V. inversion Y; inversion V; subst. rewrite Forall_forall in J. apply J in Iz. rewrite (Q k t Ik) in Iz.
    destruct Iz as [r [[Z Le]|Z]]; [|discriminate Z]. inversion Z; subst. auto.
  - destruct (Forall2_in_r _ _ _ _ _ _ F I) as [[k t] [Ik [y' [v' (Y & V & Z)]]]]. cbn [fst snd] in *. exists k, t. split; auto.
    destruct (H k t Ik) as (Y' & V' & _). rewrite Y' in Y. rewrite V' in V. inversion Y; inversion V; subst. rewrite (Q k t Ik) in Z. congruence.
Qed.
Print Assumptions C105_largest.

(** A target without variance that is predicted exactly makes the implausibility undefined, so the
    point is not kept at any cut-off. *)
Theorem C105_exact : forall obs v_m ys vs x k t y v, eval_implausibility obs v_m ys vs = Ok x -> In (k, t) obs ->
  dget ys k = Some (Fin y) -> dget vs k = Some (Fin v) -> (v_m + var_obs t + v = 0)%R -> y = t_value t ->
  x = NaN /\ forall c, fltb x c = false.
Proof.
  intros obs v_m ys vs x k t y v E I Y V Z ->. destruct (imp_ok _ _ _ _ _ E) as (a & l & X & F).
  destruct (Forall2_in_l _ _ _ _ _ _ F I) as [z [Iz [y' [v' (Y' & V' & R)]]]]. cbn [fst snd] in *.
  assert (Nz : z = NaN).
  { rewrite R. rewrite Y in Y'. rewrite V in V'. inversion Y'; inversion V'; subst. unfold ratio, fsub. cbn [fopp fadd fabs fsqrt]. rewrite Z.
    destruct (rltb 0 0) eqn:L; [apply rltb_true in L; lra|]. rewrite sqrt_0. cbn [fdivf]. unfold fdiv. replace (t_value t + - t_value t)%R with 0%R by lra. rewrite Rabs_R0.
    destruct (reqb 0 0) eqn:Q; [reflexivity|apply reqb_false in Q; lra]. }
  assert (N : forall l a, In NaN (a :: l) -> fold_left fmax2 l a = NaN).
  { clear. induction l as [|b l IH]; intros a J; cbn [fold_left]; [destruct J as [J|[]]; auto|]. apply IH.
    destruct J as [J|[J|J]]; [left; rewrite J; reflexivity|left; rewrite J; destruct a; reflexivity|right; auto]. }
  assert (Xn : x = NaN) by (rewrite X; apply N; rewrite <- Nz; auto). rewrite Xn. split; [auto|intros []; reflexivity].
Qed.
Print Assumptions C105_exact.

(** The points a wave keeps are exactly the emulated ones within the cut-off of every target, and the
    error noted with the state is theirs. *)
Theorem C105_wave : forall w simulate vflt lhs rand (emu : Type) train predict obs g (m : dmodel w flt) (st st' : hstate w emu) r r' pts r1 emus ps r2 c,
  h_simulate simulate vflt lhs g m st r = Some (Ok pts, r1) ->
  h_emulate vflt rand train predict obs g m st pts r1 = Some (Ok (emus, ps), r2) ->
  a_wave simulate vflt lhs rand train predict obs g m st r = Some (Ok st', r') -> hs_cutoff st' = Fin c ->
  (forall p, In p (hs_pts st') <-> In p ps /\
    forall k t, In (k, t) obs -> exists y v, dget (h_sims p) k = Some y /\ dget (h_vs p) k = Some v /\ within c (c_var g) t y v)
  /\ eval_mse obs (hs_pts st') = Ok (hs_mse st').
Proof.
  intros w simulate vflt lhs rand emu train predict obs g m st st' r r' pts r1 emus ps r2 c H1 H2 H3 Hc.
  assert (P : forall p, In p ps -> eval_implausibility obs (c_var g) (h_sims p) (h_vs p) = Ok (h_imp p)).
  { unfold h_emulate in H2. apply cbind_ok in H2. destruct H2 as (xy & r3 & _ & H2). apply cbind_ok in H2. destruct H2 as (es & r4 & _ & H2).
    apply cbind_ok in H2. destruct H2 as (xss & r5 & _ & H2). cbv zeta in H2. apply cbind_ok in H2. destruct H2 as (yss & r6 & _ & H2).
    apply cbind_ok in H2. destruct H2 as (qs & r7 & H2 & H4). unfold cret in H4. injection H4 as <- <- <-.
    clear - H2. revert H2. generalize 0 as i. generalize (map (scale (hs_lo st) (hs_up st)) xss) as l. revert r6 r7 qs.
    intros r6 r7 qs l. revert r6 qs. induction l as [|xs l IH]; intros r6 qs i H p I; cbn [h_emulate_all] in H.
    - unfold cret in H. injection H as <- <-. destruct I.
    - apply cbind_ok in H. destruct H as (q & r8 & A & H). apply cbind_ok in H. destruct H as (l' & r9 & B & H). unfold cret in H. injection H as <- <-.
      destruct I as [<-|I]; [|eapply IH; eauto]. unfold h_emulated in A.
      apply cbind_ok in A. destruct A as (dom & s1 & _ & A). apply cbind_ok in A. destruct A as (sims & s2 & _ & A).
      apply cbind_ok in A. destruct A as (vs & s3 & _ & A). apply cbind_ok in A. destruct A as (imp & s4 & A & A'). unfold cret in A'. injection A' as <- <-.
      cbn [h_sims h_vs h_imp]. unfold cres in A. injection A as A _. exact A. }
  unfold a_wave in H3. unfold cbind at 1 in H3. rewrite H1 in H3. unfold cbind at 1 in H3. rewrite H2 in H3. cbn [fst snd] in H3.
  apply cbind_ok in H3. destruct H3 as ([[kept co] acc] & r3 & A & H3). apply cbind_ok in H3. destruct H3 as (mse & r4 & B & H3).
  apply cbind_ok in H3. destruct H3 as (lo & r5 & _ & H3). apply cbind_ok in H3. destruct H3 as (up & r6 & _ & H3). unfold cret in H3. injection H3 as <- <-.
  cbn [hs_cutoff hs_pts hs_mse] in *. split.
  - intros p. unfold cres, keep_plausible in A. destruct (quantile (map h_imp ps) (c_acc g)) as [q|]; cbn [bind] in A; [|discriminate A].
    set (co' := if fltb (Fin (c_cutoff g)) q then q else Fin (c_cutoff g)) in A.
    destruct (idiv (length (filter (fun p => fltb (h_imp p) co') ps)) (length ps)) as [a|]; cbn [bind] in A; [|discriminate A].
    injection A as A1 A2 A3 A4. rewrite <- A1, filter_In. rewrite A2, Hc. split; intros [I J]; split; auto.
    + intros k t Ik. apply (proj1 (C105_within _ _ _ _ _ c (P p I))); auto.
    + apply (C105_within _ _ _ _ _ c (P p I)). auto.
  - unfold cres in B. injection B as B _. exact B.
Qed.
Print Assumptions C105_wave.

(** mean of a list of numbers *)
Definition mean (l : list R) : R := (rsum l / INR (length l))%R.
Lemma fmean_fin : forall l, l <> [] -> fmean (map Fin l) = Fin (mean l).
Proof.
  intros l N. unfold fmean. destruct l as [|a l]; [congruence|]. rewrite (fsum_fin (a :: l)), map_length. cbn [map]. unfold fdivf, fdiv.
  destruct (reqb _ 0) eqn:Z; [|reflexivity]. apply reqb_true in Z. exfalso. apply (not_0_INR (length (a :: l))); [discriminate|auto].
Qed.
Lemma mean_nonneg : forall l, Forall (fun x => (0 <= x)%R) l -> (0 <= mean l)%R.
Proof.
  intros l F. unfold mean. destruct l as [|a l]; [simpl; unfold Rdiv; lra|]. apply Rmult_le_pos; [apply rsum_nonneg; auto|].
  left. apply Rinv_0_lt_compat, lt_0_INR. simpl. lia.
Qed.
Lemma mean_zero : forall l, Forall (fun x => (0 <= x)%R) l -> mean l = 0%R -> Forall (fun x => x = 0%R) l.
Proof.
  intros l F E. destruct l as [|a l]; [constructor|]. apply rsum_zero; auto. unfold mean in E. apply Rmult_integral in E. destruct E as [E|E]; auto.
  exfalso. revert E. apply Rinv_neq_0_compat. apply not_0_INR. discriminate.
Qed.

(** The error is the mean over the points of the mean squared difference to the targets: never
    negative, and zero exactly if every point hits every target. *)
Theorem C105_mse : forall w obs (pts : list (hpt w)) (y : hpt w -> name -> R), obs <> [] -> pts <> [] ->
  (forall p k t, In p pts -> In (k, t) obs -> dget (h_sims p) k = Some (Fin (y p k))) ->
  exists e, eval_mse obs pts = Ok (Fin e)
    /\ e = mean (map (fun p => mean (map (fun kt => (y p (fst kt) - t_value (snd kt)) ^ 2)%R obs)) pts)
    /\ (0 <= e)%R /\ (e = 0%R <-> forall p k t, In p pts -> In (k, t) obs -> y p k = t_value t).
Proof.
  intros w obs pts y No Np H. set (sq := fun p => map (fun kt => (y p (fst kt) - t_value (snd kt)) ^ 2)%R obs).
  assert (E : eval_mse obs pts = Ok (fmean (map Fin (map (fun p => mean (sq p)) pts)))).
  { unfold eval_mse. rewrite (mapM_ext_in _ _ _ (fun p => Ok (Fin (mean (sq p))))).
    - assert (G : mapM (fun p => Ok (Fin (mean (sq p)))) pts = Ok (map Fin (map (fun p => mean (sq p)) pts))).
      { clear. induction pts as [|p l IH]; [reflexivity|]. cbn [mapM map]. rewrite IH. reflexivity. }
      rewrite G. reflexivity.
    - intros p Ip. assert (G : mapM (fun kt => do z <- dgetE (h_sims p) (fst kt); let d := fsub z (Fin (t_value (snd kt))) in Ok (fmul d d)) obs = Ok (map Fin (sq p))).
      { unfold sq. assert (Hp : forall k t, In (k, t) obs -> dget (h_sims p) k = Some (Fin (y p k))) by (intros; eapply H; eauto). clear - Hp.
        induction obs as [|[k t] l IH]; [reflexivity|]. cbn [mapM map fst snd]. unfold dgetE at 1. rewrite (Hp k t (or_introl eq_refl)). cbn [bind].
        rewrite IH by (intros k' t' I; apply (Hp k' t'); right; auto). cbn [bind fsub fadd fopp fmul]. do 3 f_equal. ring. }
      cbv beta zeta in G |- *. rewrite G. cbn [bind]. rewrite fmean_fin; auto. unfold sq. destruct obs; [congruence|discriminate]. }
  assert (Sn : forall p, Forall (fun x => (0 <= x)%R) (sq p)).
  { intros p. unfold sq. apply Forall_forall. intros x Ix. apply in_map_iff in Ix. destruct Ix as [kt [<- _]]. apply pow2_ge_0. }
  assert (Mn : Forall (fun x => (0 <= x)%R) (map (fun p => mean (sq p)) pts)).
  { apply Forall_forall. intros x Ix. apply in_map_iff in Ix. destruct Ix as [p [<- _]]. apply mean_nonneg. auto. }
  rewrite fmean_fin in E by (destruct pts; [congruence|discriminate]). eexists. split; [exact E|]. split; [reflexivity|]. split; [apply mean_nonneg; auto|]. split.
  - intros Z p k t Ip Ik. apply mean_zero in Z; auto. rewrite Forall_forall in Z. specialize (Z (mean (sq p)) (in_map _ _ _ Ip)). apply mean_zero in Z; auto.
    rewrite Forall_forall in Z. specialize (Z _ (in_map (fun kt => ((y p (fst kt) - t_value (snd kt)) ^ 2)%R) _ _ Ik)). cbn [fst snd] in Z.
    assert (Z' : (Rsqr (y p k - t_value t) = 0)%R) by (rewrite Rsqr_pow2; auto). apply Rsqr_0_uniq in Z'. lra.
  - intros Q. assert (Zs : forall l : list R, Forall (fun x => x = 0%R) l -> mean l = 0%R).
    { intros l F. unfold mean. replace (rsum l) with 0%R; [unfold Rdiv; lra|]. symmetry. induction F as [|x l -> F IH]; simpl; [auto|]. rewrite IH. lra. }
    apply Zs. apply Forall_forall. intros x Ix. apply in_map_iff in Ix. destruct Ix as [p [<- Ip]]. apply Zs. apply Forall_forall.
    intros z Iz. unfold sq in Iz. apply in_map_iff in Iz. destruct Iz as [[k t] [<- Ik]]. cbn [fst snd]. rewrite (Q p k t Ip Ik). ring.
Qed.
Print Assumptions C105_mse.

(** Without points, or without targets, the error is undefined, not an exception; a missing output raises KeyError. *)
Theorem C105_undefined : forall w obs (pts : list (hpt w)),
  (pts = [] -> eval_mse obs pts = Ok NaN) /\ (obs = [] -> eval_mse obs pts = Ok NaN)
  /\ ((exists p k t, In p pts /\ In (k, t) obs /\ dget (h_sims p) k = None) <-> eval_mse obs pts = Err KeyError).
Proof.
  intros w obs pts. split; [intros ->; reflexivity|]. split.
  - intros ->. unfold eval_mse. cbn [mapM bind fmean].
    assert (G : forall l : list (hpt w), mapM (fun _ => Ok NaN) l = Ok (map (fun _ => NaN) l)) by (induction l as [|p l IH]; [reflexivity|]; cbn [mapM map]; rewrite IH; reflexivity).
    rewrite G. cbn [bind]. destruct pts as [|p l]; [reflexivity|]. cbn [map fmean].
    assert (N : forall (l : list (hpt w)), fold_left fadd (map (fun _ => NaN) l) NaN = NaN) by (induction l0; auto).
    unfold fsum. cbn [fold_left fadd]. rewrite N. reflexivity.
  - unfold eval_mse.
    assert (I : forall (p : hpt w) l, mapM (fun kt => do z <- dgetE (h_sims p) (fst kt); let d := fsub z (Fin (t_value (snd kt))) in Ok (fmul d d)) l = Err KeyError <->
      exists k t, In (k, t) l /\ dget (h_sims p) k = None).
    { intros p l. induction l as [|[k t] l IH]; [split; [discriminate|intros (k & t & [] & _)]|]. cbn [mapM fst snd]. destruct (dgetE_ok _ (h_sims p) k) as [[z [Z ->]]|[Z ->]]; cbn [bind].
      - destruct (mapM _ l) as [x|e]; cbn [bind].
        + split; [discriminate|]. intros (k' & t' & [J|J] & N); [inversion J; subst; congruence|]. destruct IH as [_ IH]. discriminate IH; eauto.
        + split.
          * intros X. destruct IH as [IH _]. assert (Y : exists k t, In (k, t) l /\ dget (h_sims p) k = None) by (apply IH; congruence). destruct Y as (k' & t' & J & N). exists k', t'. split; [right|]; auto.
          * intros (k' & t' & [J|J] & N); [inversion J; subst; congruence|]. destruct IH as [_ IH]. rewrite <- IH; eauto.
      - split; auto. intros _. exists k, t. split; [left|]; auto. }
    assert (O : forall (p : hpt w) l e, mapM (fun kt => do z <- dgetE (h_sims p) (fst kt); let d := fsub z (Fin (t_value (snd kt))) in Ok (fmul d d)) l = Err e -> e = KeyError).
    { intros p l. induction l as [|[k t] l IH]; intros e; [discriminate|]. cbn [mapM fst snd]. destruct (dgetE_ok _ (h_sims p) k) as [[z [Z ->]]|[Z ->]]; cbn [bind]; [|congruence].
      destruct (mapM _ l) as [x|e0]; cbn [bind]; [discriminate|]. intros X. apply IH. congruence. }
    induction pts as [|p pts IH]; [split; [intros (p & _ & _ & [] & _)|discriminate]|]. cbn [mapM].
    specialize (I p obs). specialize (O p obs). destruct (mapM _ obs) as [ds|e]; cbn [bind].
    + destruct (mapM _ pts) as [rs|e]; cbn [bind] in *.
      * split; [|discriminate]. intros (p' & k & t & [<-|J] & K & N); [destruct I as [_ I]; discriminate I; eauto|]. destruct IH as [IH _]. discriminate IH. exists p', k, t. auto.
      * rewrite <- IH. split; intros (p' & k & t & J & K & N).
        -- destruct J as [<-|J]; [destruct I as [_ I]; discriminate I; eauto|]. exists p', k, t. auto.
        -- exists p', k, t. split; [right|]; auto.
    + rewrite (O e eq_refl) in *. split; auto. intros _. destruct I as [I _]. destruct (I eq_refl) as (k & t & J & N). exists p, k, t. split; [left|]; auto.
Qed.
Print Assumptions C105_undefined.

Definition ex_obs : dict tdef := [("a", TPoint 1 (392/100)); ("b", TPoint 5 (1568/1000))].
Definition ex_ys : dict flt := [("b", Fin 2); ("a", Fin 2)].
Definition ex_vs : dict flt := [("a", Fin 3); ("b", Fin 5)].
(** two targets with variances 1 and 4, predicted with variances 3 and 5 *)
Example C105_example : exists x, eval_implausibility ex_obs 0 ex_ys ex_vs = Ok x /\ x = Fin 1
  /\ fltb x (Fin 2) = true /\ fltb x (Fin 1) = false.
Proof.
  destruct (C105_ends ex_obs 0 ex_ys ex_vs) as [[_ A] _]. destruct A as [x E].
  { split; [discriminate|]. intros k t [I|[I|[]]]; inversion I; subst; cbn; eauto. }
  exists x. split; auto.
  destruct (C105_largest ex_obs 0 ex_ys ex_vs x (fun k => 2%R) (fun k => if String.eqb k "a" then 3%R else 5%R) E) as (m & X & U & k & t & I & M).
  { intros k t [I|[I|[]]]; inversion I; subst; cbn [dget ex_ys ex_vs String.eqb Ascii.eqb Bool.eqb var_obs]; (split; [reflexivity|split; [reflexivity|unfold p_std; lra]]). }
  assert (S4 : sqrt (0 + var_obs (TPoint 1 (392/100)) + 3) = 2%R) by (cbn [var_obs]; unfold p_std; replace (0 + (392 / 100 * 1 / 2 / (196 / 100)) ^ 2 + 3)%R with (2 * 2)%R by lra; apply sqrt_square; lra).
  assert (S9 : sqrt (0 + var_obs (TPoint 5 (1568/1000)) + 5) = 3%R) by (cbn [var_obs]; unfold p_std; replace (0 + (1568 / 1000 * 5 / 2 / (196 / 100)) ^ 2 + 5)%R with (3 * 3)%R by lra; apply sqrt_square; lra).
  assert (M1 : m = 1%R).
  { pose proof (U "b" (TPoint 5 (1568/1000)) (or_intror (or_introl eq_refl))) as Ub. cbn [String.eqb Ascii.eqb Bool.eqb t_value] in Ub. rewrite S9 in Ub.
    rewrite Rabs_right in Ub by lra. destruct I as [I|[I|[]]]; inversion I; subst; cbn [String.eqb Ascii.eqb Bool.eqb t_value] in *.
    - rewrite S4 in *. rewrite Rabs_left in * by lra. lra.
    - rewrite S9. rewrite Rabs_right by lra. lra. }
  rewrite M1 in X. split; auto. rewrite X. split; [apply rltb_true; lra|apply rltb_false; lra].
Qed.
(** the same point predicted exactly, without any variance *)
Example C105_example_exact : eval_implausibility [("a", TPoint 1 0)] 0 [("a", Fin 1)] [("a", Fin 0)] = Ok NaN.
Proof.
  destruct (C105_ends [("a", TPoint 1 0)] 0 [("a", Fin 1)] [("a", Fin 0)]) as [[_ A] _]. destruct A as [x E].
  { split; [discriminate|]. intros k t [I|[]]. inversion I; subst; cbn; eauto. }
  rewrite E. f_equal. apply (C105_exact _ _ _ _ _ "a" (TPoint 1 0) 1 0 E); [left; auto|reflexivity|reflexivity|cbn [var_obs]; unfold p_std; lra|reflexivity].
Qed.
(** two points, one off by 1 in one of two targets *)
Example C105_example_mse : exists e, eval_mse (w := exw) ex_obs
   [mkHpt [] [("a", Fin 1); ("b", Fin 5)] [] [] NaN; mkHpt [] [("b", Fin 5); ("a", Fin 2)] [] [] NaN] = Ok (Fin e) /\ e = (1/4)%R.
Proof.
  set (p := mkHpt [] [("a", Fin 1); ("b", Fin 5)] [] [] NaN). set (q := mkHpt [] [("b", Fin 5); ("a", Fin 2)] [] [] NaN).
  destruct (C105_mse exw ex_obs [p; q] (fun x k => match dget (h_sims x) k with Some (Fin y) => y | _ => 0%R end)) as (e & E & M & _); [discriminate|discriminate| |].
  - intros x k t [<-|[<-|[]]] [I|[I|[]]]; inversion I; subst; reflexivity.
  - exists e. split; auto. rewrite M. unfold mean. cbn. lra.
Qed.
(** a wave in a box that is a point, with cut-off 1/2 *)
Example C105_example_wave : exists st' r', exh_wave (mkH (w:=exw) [("y", tt)] [exh_c] [] [1/4]%R [1/4]%R 1 PInf PInf 1) 0 = Some (Ok st', r')
  /\ hs_pts st' <> [] /\ hs_cutoff st' = Fin (1/2)
  /\ forall p, In p (hs_pts st') -> exists y v, dget (h_sims p) "y" = Some y /\ dget (h_vs p) "y" = Some v
       /\ forall t, In ("y", t) exh_obs -> within (1/2) (c_var (exh_cfg 1 2)) t y v.
Proof.
  set (x := (1/4)%R).
  assert (K2 : exists ac, keep_plausible (exh_cfg 1 2) [exh_pt (x + 1/4 * (x - x)); exh_pt (x + 3/4 * (x - x))] = Ok ([exh_pt (x + 1/4 * (x - x)); exh_pt (x + 3/4 * (x - x))], Fin (1/2), ac)).
  { assert (Q : exists q, quantile (map Fin [(x + 1/4 * (x - x)); (x + 3/4 * (x - x))]%R) (1/5) = Ok (Fin q) /\ (x <= q <= x)%R).
    { exists (quantile_r [(x + 1/4 * (x - x)); (x + 3/4 * (x - x))]%R (1/5)). split; [apply quantile_fin; [discriminate|lra]|].
      apply quantile_r_bounds; [discriminate|lra|]. constructor; [unfold x; lra|constructor; [unfold x; lra|apply Forall_nil]]. }
    destruct Q as (q & Q1 & Q2). unfold keep_plausible.
    change (map h_imp [exh_pt (x + 1/4 * (x - x)); exh_pt (x + 3/4 * (x - x))]) with (map Fin [(x + 1/4 * (x - x)); (x + 3/4 * (x - x))]%R).
    cbn [c_acc c_cutoff exh_cfg]. rewrite Q1. cbn [bind filter h_imp exh_pt].
    assert (Z : fltb (Fin (1/2)) (Fin q) = false) by (cbn [fltb]; apply rltb_false; unfold x in *; lra). rewrite Z. cbn [fltb].
    rewrite (proj2 (rltb_true (x + 1/4 * (x - x)) (1/2))), (proj2 (rltb_true (x + 3/4 * (x - x)) (1/2))) by (unfold x; lra). eexists. reflexivity. }
  destruct K2 as (ac2 & K2). assert (Hx : (0 <= x <= x)%R) by (unfold x; lra).
  destruct (exh_wave_of x x [] 1 PInf PInf 1 0 _ _ _ Hx K2 (or_intror (conj eq_refl eq_refl))) as (st1 & W1 & _ & _ & _ & _ & _ & A6 & A7).
  destruct (exh_emulate x x [] 1 PInf PInf 1 0 Hx) as (q & E1 & _ & E2).
  exists st1, 4. split; [exact W1|]. split; [rewrite A6; discriminate|]. split; [exact A7|]. intros p Ip.
  destruct (C105_wave _ _ _ _ _ _ _ _ _ _ _ _ _ _ _ _ _ _ _ _ _ E1 E2 W1 A7) as [F _]. apply F in Ip. destruct Ip as [_ Ip].
  destruct (Ip "y" (snd (hd ("", TPoint 0 0) exh_obs)) (or_introl eq_refl)) as (y & v & Y & V & W). exists y, v. split; auto. split; auto.
  intros t [I|[]]. inversion I; subst. exact W.
Qed.
