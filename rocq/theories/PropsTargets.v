(** * Property C54: targets *)

Require Import Verif.ModelNum Verif.ModelTargets Verif.ProofBase.
Open Scope R_scope.

Lemma sq_pos : forall x, x <> 0 -> 0 < x ^ 2.
Proof. intros x H. pose proof (Rsqr_pos_lt x H) as K. unfold Rsqr in K. simpl. lra. Qed.
Lemma sq_nonneg : forall x, 0 <= x ^ 2.
Proof. intros x. destruct (Req_EM_T x 0) as [->|H]; [lra|]. pose proof (sq_pos x H). lra. Qed.
Lemma div_pos : forall a b, 0 < a -> 0 < b -> 0 < a / b.
Proof. intros. apply Rdiv_lt_0_compat; auto. Qed.

Lemma range_closed : forall m l u s, l < u -> distance (TRange m l u) s = Fin ((s - m) ^ 2 * (z95 / (u - l))).
Proof.
  intros m l u s H. unfold distance, t_range. rewrite fdiv_fin by lra. unfold fscale. f_equal. field. lra.
Qed.
Lemma point_closed : forall v e s, e * v <> 0 -> distance (TPoint v e) s = Fin ((s - v) ^ 2 * (z95 / (e * v))).
Proof.
  intros v e s H. unfold distance, p_std, z95.
  assert (e <> 0) by (intros ->; lra). assert (v <> 0) by (intros ->; lra).
  rewrite fdiv_fin.
  - f_equal. field. auto.
  - unfold Rdiv. repeat apply Rmult_integral_contrapositive_currified; auto; lra.
Qed.
Lemma z95_pos : 0 < z95. Proof. unfold z95. lra. Qed.

(** A target with an interval: finite, never negative, zero exactly at the target. *)
Theorem C54_range : forall m l u s, l < m < u ->
  exists d, distance (TRange m l u) s = Fin d /\ 0 <= d /\ (d = 0 <-> s = m).
Proof.
  intros m l u s [H1 H2]. rewrite range_closed by lra. eexists. split; [reflexivity|].
  assert (K : 0 < z95 / (u - l)) by (apply div_pos; [apply z95_pos|lra]). split.
  - apply Rmult_le_pos; [apply sq_nonneg|lra].
  - split; intros E; [|subst; ring].
    destruct (Req_EM_T s m) as [|N]; auto. exfalso.
    assert (P : 0 < (s - m) ^ 2 * (z95 / (u - l))) by (apply Rmult_lt_0_compat; auto; apply sq_pos; lra). lra.
Qed.
Print Assumptions C54_range.

(** It grows with the deviation, and shrinks when the interval widens. *)
Theorem C54_range_monotone : forall m l u l' u' s s' d d', l < u -> l' < u' -> u - l <= u' - l' ->
  Rabs (s' - m) <= Rabs (s - m) ->
  distance (TRange m l u) s = Fin d -> distance (TRange m l' u') s' = Fin d' -> d' <= d.
Proof.
  intros m l u l' u' s s' d d' H1 H2 H3 H4 E1 E2. rewrite range_closed in E1, E2 by auto.
  inversion E1; inversion E2; subst. apply Rmult_le_compat.
  - apply sq_nonneg.
  - apply Rlt_le, div_pos; [apply z95_pos|lra].
  - assert (Q : forall a b, Rabs a <= Rabs b -> a ^ 2 <= b ^ 2).
    { intros a b Q. rewrite <- (pow2_abs a), <- (pow2_abs b). apply pow_incr. split; auto. apply Rabs_pos. }
    apply Q; auto.
  - unfold Rdiv. apply Rmult_le_compat_l; [pose proof z95_pos; lra|]. apply Rinv_le_contravar; lra.
Qed.
Print Assumptions C54_range_monotone.

(** A point target with relative error: the sign of the distance is the sign of the target. *)
Theorem C54_point : forall v e s, 0 < e -> v <> 0 ->
  exists d, distance (TPoint v e) s = Fin d /\ (d = 0 <-> s = v) /\ (0 < v -> 0 <= d) /\ (v < 0 -> d <= 0).
Proof.
  intros v e s He Hv. assert (N : e * v <> 0) by (apply Rmult_integral_contrapositive_currified; lra).
  rewrite point_closed by auto. eexists. split; [reflexivity|]. pose proof z95_pos as Z.
  pose proof (sq_nonneg (s - v)) as S.
  assert (P : 0 < v -> 0 < z95 / (e * v)).
  { intros H. apply div_pos; auto. apply Rmult_lt_0_compat; auto. }
  assert (Q : v < 0 -> z95 / (e * v) < 0).
  { intros H. replace (z95 / (e * v)) with (- (z95 / (e * - v))) by (field; split; lra).
    assert (0 < z95 / (e * - v)) by (apply div_pos; auto; apply Rmult_lt_0_compat; lra). lra. }
  split; [split|splits].
  - intros E. destruct (Req_EM_T s v) as [|M]; auto. exfalso.
    assert (K : 0 < (s - v) ^ 2) by (apply sq_pos; lra).
    apply Rmult_integral in E. destruct E as [E|E]; [lra|]. destruct (Rtotal_order v 0) as [L|[L|L]]; try lra.
  - intros ->. ring.
  - intros H. apply Rmult_le_pos; auto. specialize (P H). lra.
  - intros H. specialize (Q H). replace ((s - v) ^ 2 * (z95 / (e * v))) with (- ((s - v) ^ 2 * - (z95 / (e * v)))) by ring.
    assert (0 <= (s - v) ^ 2 * - (z95 / (e * v))) by (apply Rmult_le_pos; lra). lra.
Qed.
Print Assumptions C54_point.

(** For a negative target the distance is negative and has no lower bound: the worse the
    simulation, the smaller the distance. *)
Theorem C54_negative_refuted : exists v e, 0 < e /\ v < 0 /\
  forall bound, exists s d, distance (TPoint v e) s = Fin d /\ d < bound.
Proof.
  exists (-1), (1 / 10). splits; try lra. intros bound.
  set (k := z95 / (1 / 10 * -1)).
  assert (K : k < -39). { unfold k, z95. lra. }
  exists (-1 + (Rabs bound + 1)), ((Rabs bound + 1) ^ 2 * k). split.
  - rewrite point_closed by lra. f_equal. fold k. replace (-1 + (Rabs bound + 1) - -1) with (Rabs bound + 1) by lra. auto.
  - pose proof (Rabs_pos bound) as P. pose proof (Rle_abs (- bound)) as Q. rewrite Rabs_Ropp in Q.
    assert ((Rabs bound + 1) ^ 2 >= Rabs bound + 1).
    { simpl. rewrite Rmult_1_r. rewrite <- (Rmult_1_r (Rabs bound + 1)) at 3. apply Rmult_ge_compat_l; lra. }
    assert (0 <= ((Rabs bound + 1) ^ 2 - (Rabs bound + 1)) * - k) by (apply Rmult_le_pos; lra).
    assert (0 <= (Rabs bound + 1) * (- k - 1)) by (apply Rmult_le_pos; lra). lra.
Qed.
Print Assumptions C54_negative_refuted.

(** For the target zero the distance is never a number. *)
Theorem C54_zero : forall e s, distance (TPoint 0 e) s = if reqb s 0 then NaN else PInf.
Proof.
  intros e s. unfold distance, p_std, fdiv. assert (E : reqb (e * 0 / 2 / (196 / 100)) 0 = true) by (apply reqb_true; field).
  rewrite E. destruct (reqb s 0) eqn:Es.
  - apply reqb_true in Es. subst. assert (K : reqb ((0 - 0) ^ 2) 0 = true) by (apply reqb_true; ring). rewrite K. auto.
  - apply reqb_false in Es. assert (P : 0 < (s - 0) ^ 2) by (apply sq_pos; lra).
    assert (K : reqb ((s - 0) ^ 2) 0 = false) by (apply reqb_false; lra). rewrite K. apply rltb_true in P. rewrite P. auto.
Qed.
Print Assumptions C54_zero.

(** A distribution target measures the negative log density, its likelihood is the log density, and
    its observation variance the one of the distribution. *)
Theorem C54_distribution : forall k d sim s x, dget sim k = Some s -> fd_logpdf d s = Fin x ->
  single_distance (mkSingle k (TDistr d)) sim = Ok (Fin (- x)) /\ single_likelihood (mkSingle k (TDistr d)) sim = Ok (Fin x)
  /\ t_value (TDistr d) = fd_mean d /\ var_obs (TDistr d) = fd_std d * fd_std d.
Proof.
  intros k d sim s x H E. unfold single_distance, single_likelihood, dgetE. simpl. rewrite H. simpl. rewrite E. splits; auto. ring.
Qed.
Print Assumptions C54_distribution.
Example C54_distribution_example : forall d, fd_logpdf d 3 = Fin (-2) ->
  single_distance (mkSingle "T" (TDistr d)) [("S", 1); ("T", 3)] = Ok (Fin 2).
Proof. intros d H. destruct (C54_distribution "T" d [("S", 1); ("T", 3)] 3 (-2) eq_refl H) as [-> _]. do 2 f_equal. lra. Qed.

(** Both kinds measure the squared deviation against the same standard deviation, so a relative
    error of (u-l)/m is the interval; and they agree on the observation variance. *)
Theorem C54_same_scale : forall m l u s, 0 < m -> l < u ->
  distance (TPoint m ((u - l) / m)) s = distance (TRange m l u) s /\ var_obs (TPoint m ((u - l) / m)) = var_obs (TRange m l u)
  /\ exists sd, 0 < sd /\ var_obs (TRange m l u) = sd ^ 2 /\ distance (TRange m l u) s = Fin ((s - m) ^ 2 / sd).
Proof.
  intros m l u s Hm H. assert (E : (u - l) / m * m = u - l) by (field; lra). splits.
  - rewrite point_closed by (rewrite E; lra). rewrite range_closed by auto. rewrite E. auto.
  - unfold var_obs, p_std, t_range. rewrite E. auto.
  - exists ((u - l) / 2 / (196 / 100)). splits.
    + repeat apply div_pos; lra.
    + auto.
    + rewrite range_closed by auto. f_equal. unfold z95. field. lra.
Qed.
Print Assumptions C54_same_scale.

Lemma read_loop : forall src error acc out, NoDup (dkeys src) -> (forall k, In k (dkeys src) -> ~ In k (dkeys acc)) ->
  foldM (fun acc kv => do t <- read_one (fst kv) (snd kv) error; Ok (dset acc (fst kv) t)) src acc = Ok out ->
  dkeys out = dkeys acc ++ dkeys src
  /\ (forall k, In k (dkeys acc) -> dget out k = dget acc k)
  /\ (forall k v, dget src k = Some v -> exists t, dget out k = Some t /\ read_one k v error = Ok t).
Proof.
  induction src as [|[k v] src IH]; intros error acc out Hn Hd H; cbn [foldM fst snd] in H.
  - inversion H; subst. simpl. rewrite app_nil_r. splits; auto. intros; discriminate.
  - destruct (read_one k v error) as [t|e] eqn:E; simpl in H; [|discriminate]. simpl in Hn. inversion Hn; subst.
    assert (Ka : ~ In k (dkeys acc)) by (apply Hd; simpl; auto).
    assert (Kk : dkeys (dset acc k t) = dkeys acc ++ [k]).
    { rewrite dkeys_dset. unfold sadd. apply mem_false in Ka. rewrite Ka. auto. }
    destruct (IH error (dset acc k t) out) as [I1 [I2 I3]]; auto.
    { intros x Hx. rewrite Kk, in_app_iff. simpl. intros [K|[K|[]]]; [apply (Hd x); simpl; auto|subst; auto]. }
    splits.
    + rewrite I1, Kk, <- app_assoc. auto.
    + intros x Hx. rewrite I2 by (rewrite Kk, in_app_iff; auto). rewrite dget_dset.
      destruct (String.eqb_spec x k) as [->|]; auto. contradiction.
    + intros x y Hx. simpl in Hx. destruct (String.eqb_spec x k) as [->|].
      * inversion Hx; subst. exists t. split; auto. rewrite I2 by (rewrite Kk, in_app_iff; simpl; auto).
        rewrite dget_dset, String.eqb_refl. auto.
      * eauto.
Qed.

(** read_targets: one target per entry, in the order given; intervals always contain the value
    strictly; the default error is used exactly where none is given. *)
Theorem C54_read : forall src error out, NoDup (dkeys src) -> read_targets src error = Ok out ->
  dkeys out = dkeys src /\
  forall k v, dget src k = Some v -> exists t, dget out k = Some t /\
    match v with
    | RNum x => t = mkSingle k (TPoint x error)
    | RDict (Some m) (Some l) (Some u) _ => t = mkSingle k (TRange m l u) /\ l < m < u
    | RDict (Some m) _ _ (Some e) => t = mkSingle k (TPoint m e)
    | RDict (Some m) _ _ None => t = mkSingle k (TPoint m error)
    | RDict None _ _ _ => False
    | RText d => exists x, d = Ok x /\ t = mkSingle k (TDistr x)
    | RData x => t = x
    | ROther => False
    end.
Proof.
  intros src error out Hn H. destruct (read_loop src error [] out Hn (fun _ _ K => K) H) as [H1 [_ H3]].
  split; auto. intros k v Hk. destruct (H3 k v Hk) as [t [T1 T2]]. exists t. split; auto.
  destruct v as [x|[m|] [l|] [u|] [e|]|[d|e]|x|]; simpl in T2; try (inversion T2; subst; eauto; fail); try discriminate;
    destruct (rltb l m) eqn:E1; destruct (rltb m u) eqn:E2; simpl in T2; try discriminate;
    apply rltb_true in E1, E2; inversion T2; auto.
Qed.
Print Assumptions C54_read.

(** What is refused. *)
Theorem C54_read_refuses : forall k error, (forall l u e, read_one k (RDict None l u e) error = Err ValueError)
  /\ read_one k ROther error = Err ValueError
  /\ (forall m l u e, ~ l < m < u -> read_one k (RDict (Some m) (Some l) (Some u) e) error = Err AssertionError)
  /\ (forall x, read_one k (RText (Err x)) error = Err x).
Proof.
  intros k error. splits; auto. intros m l u e H. simpl.
  destruct (rltb l m) eqn:E1; destruct (rltb m u) eqn:E2; simpl; auto. apply rltb_true in E1, E2. tauto.
Qed.
Print Assumptions C54_read_refuses.

(** A target object is stored under the key but looks up its own name. *)
Theorem C54_object_name_refuted : exists src out t sim, read_targets src (1 / 10) = Ok out /\ NoDup (dkeys src)
  /\ dget out "cases" = Some t /\ dget sim "cases" <> None /\ single_distance t sim = Err KeyError.
Proof.
  exists [("cases", RData (mkSingle "deaths" (TPoint 3 (1 / 10))))].
  eexists _, _, [("cases", 3)]. splits; try reflexivity.
  - repeat constructor. intros [].
  - discriminate.
Qed.
Print Assumptions C54_object_name_refuted.

Example C54_example : exists out, read_targets [("T1", RNum 5); ("T2", RDict (Some 5) (Some 2) (Some 8) None)] (1 / 10) = Ok out
  /\ dget out "T2" = Some (mkSingle "T2" (TRange 5 2 8)) /\ 2 < 5 < 8 /\ distance (TRange 5 2 8) 8 = Fin (9 * (z95 / 6)).
Proof.
  assert (A : rltb 2 5 = true) by (apply rltb_true; lra). assert (B : rltb 5 8 = true) by (apply rltb_true; lra).
  eexists. splits; try lra.
  - unfold read_targets. simpl. rewrite A, B. simpl. reflexivity.
  - reflexivity.
  - rewrite range_closed by lra. f_equal. replace (8 - 2) with 6 by lra. ring.
Qed.
