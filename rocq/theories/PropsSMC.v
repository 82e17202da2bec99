(** * Properties C57 and C58: ABC-SMC *)

Require Import Verif.Base Verif.World Verif.ModelGraph Verif.ModelExpr Verif.ModelLoci Verif.ModelBN Verif.ModelSample
        Verif.ModelFitBase Verif.ModelFloat Verif.ModelResample Verif.ModelABC Verif.ModelSMC
        Verif.ProofBase Verif.ProofFloat Verif.PropsResample Verif.PropsABC Verif.ProofSMC
        Verif.ExWorld Verif.PropsBN.
Require Import Coq.ZArith.ZArith Lia.
Local Open Scope nat_scope.

Section C57.
  Context {w : world}.
  Notation pt := (particle w flt).
  Notation G := (RNG w).
  Implicit Types (m : dmodel w flt) (p : pt).
  Context (simulate : chrom w -> G -> res pt * G) (lp_isinf : LP w -> bool).
  Context {step : Type} (normal : step -> G -> V w * G) (vadd : V w -> V w -> res (V w)).
  Context (wstd : dmodel w flt -> list pt -> list flt -> G -> res (dict step) * G).
  Context (draw : G -> list R -> nat -> list nat) (draw_next : G -> G) (unif : G -> R * G).

  Lemma choice_c_ok : forall k n us r ind r', (forall r, fair (draw r)) ->
    choice_c draw draw_next k n (map Fin us) r = Some (Ok ind, r') ->
    length us = k /\ length ind = n /\ forall i j, nth_error ind i = Some j -> exists x, nth_error us j = Some x /\ (0 < x)%R.
  Proof.
    intros k n us r ind r' F H. unfold choice_c in H. rewrite map_length in H. destruct (Nat.eqb_spec (length us) k) as [E|E]; [|inversion H].
    inversion H; subst. apply choice_ok in H1. destruct H1 as (q & Q1 & Q2 & Q3 & ->). rewrite as_fin_Fin in Q1. inversion Q1; subst.
    destruct (F r q n Q2 Q3) as [L K]. splits; auto. intros i j Hi. apply nth_error_In in Hi. rewrite Forall_forall in K. auto.
  Qed.

  Lemma initialise_sound : forall fuel g m pars0 r st r', honest m simulate -> never_nan m -> (forall r, fair (draw r)) ->
    initialise simulate draw draw_next fuel g m pars0 r = Some (Ok st, r') ->
    sound_state m (n_iter g) st /\ s_rnd st = 0 /\ s_stay st = 0 /\ s_eps st = PInf /\ n_iter g <> 0.
  Proof using simulate draw draw_next.
    clear lp_isinf normal vadd wstd unif step.
    intros fuel g m pars0 r st r' Hh Hn Hf H. unfold initialise in H. cbv zeta in H.
    apply cbind_ok in H. destruct H as (samples & r1 & H1 & H). apply cbind_ok in H. destruct H as (e & r2 & H2 & H3).
    unfold cret in H3. injection H3 as <- <-. assert (N : n_iter g <> 0).
    { intros E. rewrite E in H2. discriminate H2. }
    assert (S : length samples = n_iter g /\ forall i s, nth_error samples i = Some s -> exists x, measured m (snd (fst s)) (Fin x)).
    { destruct pars0 as [ps|].
      - apply cbind_ok in H1. destruct H1 as (ind & r3 & K1 & K). apply cbind_ok in K. destruct K as (p0s & r4 & K2 & K3).
        destruct (cmap_ok _ _ _ _ _ _ _ _ K3) as [L C]. unfold cres in K2. injection K2 as K2 <-. apply pick_spec in K2. destruct K2 as [L2 _].
        destruct (Nat.eq_dec (length ps) 0) as [Z|Z].
        { rewrite Z in K1. unfold choice_c, ones in K1. simpl in K1. unfold choice in K1. simpl in K1.
          assert (E : reqb 0 1 = false) by (apply reqb_false; lra). rewrite E in K1. discriminate K1. }
        rewrite ones_fin in K1 by auto. destruct (choice_c_ok _ _ _ _ _ _ Hf K1) as (_ & L3 & _). split; [congruence|].
        intros i [[d q] n] Hi. destruct (C i _ Hi) as (p0 & s1 & s2 & _ & E). simpl. eapply sample_fin_cont_finite; eauto.
      - destruct (cmap_ok _ _ _ _ _ _ _ _ H1) as [L C]. rewrite seq_length in L. split; auto.
        intros i [[d q] n] Hi. destruct (C i _ Hi) as (p0 & s1 & s2 & _ & E). simpl. eapply sample_fin_finite; eauto. }
    destruct S as [L S]. cbn [s_rnd s_stay s_eps]. splits; auto. unfold sound_state, population. cbn [s_wts s_pts s_eps].
    splits; auto; [rewrite map_length; auto| | | |left; auto].
    - exists (repeat (1 / INR (n_iter g))%R (n_iter g)). splits; [apply ones_fin|apply repeat_length|apply ones_pos|apply ones_sum]; auto.
    - intros i p K. rewrite nth_error_map in K. destruct (nth_error samples i) as [s|] eqn:E; inversion K; subst. eapply S; eauto.
    - intros i p x K _ _. rewrite nth_error_map in K. destruct (nth_error samples i) as [s|] eqn:E; inversion K; subst.
      destruct (S i s E) as [y My]. exists (Fin y). auto.
  Qed.

  (** find_eps: no exception, no nan, and the particles keep their distances *)
  Lemma find_eps_spec : forall g m eps0 theta r e theta' r', find_eps g m eps0 theta r = Some (Ok (e, theta'), r') ->
    (forall i p, nth_error theta i = Some p -> exists x, measured m p (Fin x)) ->
    (exists x, e = Fin x) /\ length theta' = length theta
    /\ forall i p, nth_error theta' i = Some p -> exists q d, nth_error theta i = Some q /\ measured m q d /\ measured m p d.
  Proof.
    intros g m eps0 theta r e theta' r' H M. unfold find_eps in H. apply cbind_ok in H. destruct H as ([ds th] & r1 & H1 & H).
    cbv zeta in H. apply cbind_ok in H. destruct H as (q & r2 & H2 & H3). unfold cret in H3. injection H3 as <- <- <-.
    destruct (distances_measured m theta r ds th r1 H1) as (-> & L1 & L2 & D).
    { intros i p K. destruct (M i p K) as [x Mx]. eauto. }
    splits; auto.
    - unfold cres in H2. injection H2 as H2 <-. destruct (quantile_cases _ _ _ H2) as (_ & _ & [(xs & _ & ->)|[X _]]); eauto.
      exfalso. assert (F : forall i d, nth_error ds i = Some d -> exists x, d = Fin x).
      { intros i d Hi. assert (i < length th) by (rewrite L1, <- L2; apply nth_error_Some; congruence).
        destruct (nth_error th i) as [p|] eqn:E; [|apply nth_error_None in E; lia].
        destruct (D i p E) as (q0 & d0 & J1 & J2 & J3 & J4). rewrite Hi in J2. inversion J2; subst.
        destruct (M i q0 J1) as [x Mx]. exists x. exact (measured_fun _ _ _ _ J3 Mx). }
      clear -X F. induction ds as [|d ds IH]; [discriminate|]. destruct (F 0 d eq_refl) as [x ->]. simpl in X.
      destruct (as_fin ds); [discriminate|]. apply IH; auto. intros i d Hi. apply (F (S i) d Hi).
    - intros i p K. destruct (D i p K) as (q0 & d0 & J1 & J2 & J3 & J4). eauto.
  Qed.

  Lemma round_sound : forall fuel g m st r st' r',
    honest m simulate -> never_nan m -> (forall r, fair (draw r)) -> standard_uniform unif ->
    sound_state m (n_iter g) st -> a_round simulate lp_isinf normal vadd wstd draw draw_next unif fuel g m st r = Some (Ok st', r') ->
    sound_state m (n_iter g) st' /\ fleb (s_eps st') (s_eps st) = true /\ s_rnd st' = S (s_rnd st)
    /\ (0 <= s_acc st' <= 1)%R.
  Proof.
    intros fuel g m st r st' r' Hh Hn Hf Hu ((P1 & (ws & W1 & W2 & W3 & W4) & P3 & P4) & T) H. unfold a_round in H. cbv zeta in H.
    apply cbind_ok in H. destruct H as ([e th0] & r1 & H1 & H).
    destruct (find_eps_spec _ _ _ _ _ _ _ _ H1 P3) as ([x ->] & L0 & D0).
    set (eps1 := if fleb (s_eps st) (Fin x) then s_eps st else Fin x) in *.
    set (stay := if fleb (s_eps st) (Fin x) then S (s_stay st) else 0) in *.
    assert (LE : fleb eps1 (s_eps st) = true).
    { unfold eps1. destruct (fleb (s_eps st) (Fin x)) eqn:E.
      - apply fleb_refl. destruct T as [-> | [y ->]]; discriminate.
      - destruct T as [T | [y T]]; rewrite T in E |- *; auto. simpl in E |- *. apply rleb_false in E. apply rleb_true. lra. }
    assert (T1 : tolerance eps1).
    { unfold eps1. destruct (fleb (s_eps st) (Fin x)); auto. right. eauto. }
    apply cbind_ok in H. destruct H as ([wts1 th1] & r2 & H2 & H). unfold update_wts in H2.
    apply cbind_ok in H2. destruct H2 as ([ds th] & r3 & H2 & H2'). apply cbind_ok in H2'. destruct H2' as (wts' & r4 & H3 & H4).
    unfold cret in H4. injection H4 as <- <- <-. unfold cres in H3. injection H3 as H3 <-.
    destruct (distances_measured m th0 _ ds th _ H2) as (_ & L1 & L2 & D1).
    { intros i p K. destruct (D0 i p K) as (q & d & _ & _ & M). eauto. }
    rewrite W1 in H3. destruct (reweigh_spec _ _ _ _ _ H3 W3) as (vs & -> & V1 & V2 & V3).
    (* the particles of th have finite distances, and those with positive weight are closer than eps1 *)
    assert (Dth : forall i p, nth_error th i = Some p -> exists q y, nth_error (s_pts st) i = Some q /\ nth_error ds i = Some (Fin y) /\ measured m q (Fin y) /\ measured m p (Fin y)).
    { intros i p K. destruct (D1 i p K) as (q1 & d & J1 & J2 & J3 & J4). destruct (D0 i q1 J1) as (q & d' & K1 & K2 & K3).
      destruct (P3 i q K1) as [y My]. pose proof (measured_fun _ _ _ _ K3 J3) as Q1. pose proof (measured_fun _ _ _ _ K2 My) as Q2.
      rewrite Q1 in Q2. rewrite Q2 in J2, J4. exists q, y. auto. }
    assert (Vth : forall i p v, nth_error th i = Some p -> nth_error vs i = Some v -> (0 < v)%R -> exists d, measured m p d /\ fltb d eps1 = true).
    { intros i p v K1 K2 K3. destruct (Dth i p K1) as (q & y & Q1 & Q2 & Q3 & Q4). destruct (V3 i v K2 K3) as (x0 & d & X1 & X2 & X3 & X4).
      rewrite Q2 in X3. inversion X3; subst. exists (Fin y). split; auto. apply X4.
      destruct (P4 i q (Fin x0) Q1) as (d' & M' & L'); [rewrite W1, nth_error_map, X1; auto|apply fltb_fin; auto|].
      rewrite (measured_fun _ _ _ _ Q3 M'). auto. }
    assert (Lth : length th = n_iter g) by congruence.
    apply cbind_ok in H. destruct H as ([wts2 theta1] & r5 & H5 & H). unfold resample_smc in H5.
    destruct (Nat.ltb_spec 2 (count (fltb (Fin 0)) (normalise (map Fin vs)))) as [C|C]; [|discriminate H5].
    destruct (normalise_counted vs V2) as (us & U1 & U2 & U3 & U4 & U5); [lia|]. rewrite U1 in H5.
    assert (Pop : length theta1 = n_iter g /\ (exists us', wts2 = map Fin us' /\ length us' = n_iter g /\ Forall (fun x => (0 <= x)%R) us' /\ rsum us' = 1%R)
      /\ (forall i p, nth_error theta1 i = Some p -> exists y, measured m p (Fin y))
      /\ (forall i p x, nth_error theta1 i = Some p -> nth_error wts2 i = Some x -> fltb (Fin 0) x = true -> exists d, measured m p d /\ fltb d eps1 = true)).
    { destruct (fltb (Fin 1) (fmul (Fin (s_thres st)) (fsum (map (fun x0 => fmul x0 x0) (map Fin us))))).
      - rewrite selection_proper in H5 by auto. apply cbind_ok in H5. destruct H5 as (ind & r6 & I1 & I2).
        apply cbind_ok in I2. destruct I2 as (th2 & r7 & I2 & I3). unfold cret in I3. injection I3 as <- <- <-.
        destruct (choice_c_ok _ _ _ _ _ _ Hf I1) as (_ & Li & Ii). unfold cres in I2. injection I2 as I2 <-. apply pick_spec in I2. destruct I2 as [Lp Ip].
        assert (N0 : n_iter g <> 0).
        { intros Z. rewrite Z in W2. destruct ws; [simpl in W4; lra|discriminate]. }
        assert (A : forall i p, nth_error (map (fun p => pt_copy p) th2) i = Some p -> exists q j u, nth_error th j = Some q /\ nth_error us j = Some u /\ (0 < u)%R /\ p = pt_copy q).
        { intros i p K. rewrite nth_error_map in K. destruct (nth_error th2 i) as [q|] eqn:E; inversion K; subst.
          destruct (Ip i q E) as (j & J1 & J2). destruct (Ii i j J1) as (u & J3 & J4). exists q, j, u. auto. }
        splits.
        + rewrite map_length. congruence.
        + exists (repeat (1 / INR (n_iter g))%R (n_iter g)). splits; [apply ones_fin|apply repeat_length|apply ones_pos|apply ones_sum]; auto.
        + intros i p K. destruct (A i p K) as (q & j & u & J1 & _ & _ & ->). destruct (Dth j q J1) as (_ & y & _ & _ & _ & My).
          exists y. apply measured_copy; auto.
        + intros i p y K _ _. destruct (A i p K) as (q & j & u & J1 & J2 & J3 & ->). destruct (U5 j u J2 J3) as (v & J4 & J5).
          destruct (Vth j q v J1 J4 J5) as (d & Md & Ld). exists d. split; auto. apply measured_copy; auto.
      - unfold cret in H5. injection H5 as <- <- <-. splits.
        + rewrite map_length. auto.
        + exists us. splits; auto. congruence.
        + intros i p K. rewrite nth_error_map in K. destruct (nth_error th i) as [q|] eqn:E; inversion K; subst.
          destruct (Dth i q E) as (_ & y & _ & _ & _ & My). exists y. apply measured_copy; auto.
        + intros i p y K Ky Py. rewrite nth_error_map in K. destruct (nth_error th i) as [q|] eqn:E; inversion K; subst.
          rewrite nth_error_map in Ky. destruct (nth_error us i) as [u|] eqn:Eu; inversion Ky; subst. apply fltb_fin in Py.
          destruct (U5 i u Eu Py) as (v & J4 & J5). destruct (Vth i q v E J4 J5) as (d & Md & Ld). exists d. split; auto. apply measured_copy; auto. }
    destruct Pop as (Q1 & Q2 & Q3 & Q4). clear H5.
    apply cbind_ok in H. destruct H as ([[pts ess] acc] & r6 & H6 & H7). unfold cret in H7. injection H7 as <- <-.
    unfold mcmc_proposal in H6. apply cbind_ok in H6. destruct H6 as (tau & r7 & H7 & H6). apply cbind_ok in H6. destruct H6 as (sp & r8 & H8 & H6).
    cbv zeta in H6. apply cbind_ok in H6. destruct H6 as (ac & r9 & H9 & H6). apply cbind_ok in H6. destruct H6 as ([pts' k] & r10 & H10 & H6).
    apply cbind_ok in H6. destruct H6 as (ess' & r11 & H11 & H6). apply cbind_ok in H6. destruct H6 as (a & r12 & H12 & H6).
    unfold cret in H6. injection H6 as <- <- <- <-. cbn [fst snd] in *.
    unfold cres in H9. injection H9 as H9 <-. destruct (marks_spec _ _ _ _ H9) as [M1 M2].
    destruct (select_spec unif ac _ _ _ _ _ _ (fun r => proj1 (Hu r)) H10) as (S1 & S2 & S3).
    destruct (cmap_ok _ _ _ _ _ _ _ _ H8) as [C1 C2].
    assert (Dp : forall i q, nth_error (map (fun s => snd (fst s)) sp) i = Some q -> exists y, measured m q (Fin y) /\ p_distance q = Some (Fin y)).
    { intros i q K. rewrite nth_error_map in K. destruct (nth_error sp i) as [[[d q0] n0]|] eqn:E; inversion K; subst.
      destruct (C2 i _ E) as (p0 & s1 & s2 & J1 & J2). eapply (sample_mutation_finite simulate lp_isinf normal vadd m fuel (parallel g) tau p0); eauto. }
    cbn [s_eps s_rnd s_acc]. split; [|split; [auto|split; [auto|]]].
    - split; auto. unfold population. cbn [s_wts s_pts s_eps]. splits; auto; [congruence| |].
      + intros i p K. destruct (S3 i p K) as [[J1 J2]|J]; [|eauto]. destruct (Dp i p J2) as (y & My & _). eauto.
      + intros i p y K Ky Py. destruct (S3 i p K) as [[J1 J2]|J]; [|eauto].
        destruct (M2 i J1) as (q & d & K1 & K2 & K3). rewrite J2 in K1. inversion K1; subst. destruct (Dp i q J2) as (z & Mz & Dz).
        rewrite K2 in Dz. inversion Dz; subst. exists (Fin z). auto.
    - unfold cres, idiv in H12. destruct (Nat.eqb_spec (n_iter g) 0) as [Z|Z]; [discriminate|]. injection H12 as <- _.
      assert (0 < INR (n_iter g))%R by (apply lt_0_INR; lia). assert (INR k <= INR (n_iter g))%R by (apply le_INR; lia).
      pose proof (pos_INR k). split; [apply Rmult_le_pos; auto; apply Rlt_le, Rinv_0_lt_compat; auto|].
      apply Rmult_le_reg_r with (INR (n_iter g)); auto. unfold Rdiv. rewrite Rmult_assoc, Rinv_l; lra.
  Qed.

  Lemma update_sound : forall rounds fuel g m st r st' r',
    honest m simulate -> never_nan m -> (forall r, fair (draw r)) -> standard_uniform unif ->
    sound_state m (n_iter g) st -> update simulate lp_isinf normal vadd wstd draw draw_next unif rounds fuel g m st r = Some (Ok st', r') ->
    sound_state m (n_iter g) st' /\ fleb (s_eps st') (s_eps st) = true.
  Proof.
    intros rounds fuel g m. induction rounds as [|n IH]; intros st r st' r' Hh Hn Hf Hu S H; cbn [update] in H; [discriminate|].
    apply cbind_ok in H. destruct H as (st1 & r1 & H1 & H2).
    destruct (round_sound _ _ _ _ _ _ _ Hh Hn Hf Hu S H1) as (S1 & L1 & _).
    destruct (check_termination g st1).
    - unfold cret in H2. injection H2 as <- <-. auto.
    - destruct (IH _ _ _ _ Hh Hn Hf Hu S1 H2) as [S2 L2]. split; auto. eapply fleb_trans; eauto.
  Qed.

  Lemma round_count : forall fuel g m st r st' r',
    a_round simulate lp_isinf normal vadd wstd draw draw_next unif fuel g m st r = Some (Ok st', r') -> s_rnd st' = S (s_rnd st).
  Proof.
    intros fuel g m st r st' r' H. unfold a_round in H. cbv zeta in H.
    apply cbind_ok in H. destruct H as ([e th] & r1 & _ & H). apply cbind_ok in H. destruct H as ([x1 x2] & r2 & _ & H).
    apply cbind_ok in H. destruct H as ([x3 x4] & r3 & _ & H). apply cbind_ok in H. destruct H as ([[x5 x6] x7] & r4 & _ & H).
    unfold cret in H. injection H as <- <-. auto.
  Qed.
End C57.

(** The state left by initialise, with or without parents: n_iter weights of sum one and n_iter
    particles of finite distance, tolerance infinite. Missing: the wording does not exclude
    targets whose distance is nan, nor a simulate that notes a wrong distance itself. *)
Theorem C57_initialise_partial : forall w simulate draw draw_next fuel g (m : dmodel w flt) pars0 r st r',
  honest m simulate -> never_nan m -> (forall r, fair (draw r)) ->
  initialise simulate draw draw_next fuel g m pars0 r = Some (Ok st, r') ->
  sound_state m (n_iter g) st /\ s_rnd st = 0 /\ s_stay st = 0 /\ s_eps st = PInf /\ n_iter g <> 0.
Proof. intros. eapply initialise_sound; eauto. Qed.
Print Assumptions C57_initialise_partial.

(** One round keeps that, and does not raise the tolerance. Missing: as above. *)
Theorem C57_round_partial : forall w simulate lp_isinf (step : Type) normal vadd wstd draw draw_next unif fuel g (m : dmodel w flt) st r st' r',
  honest m simulate -> never_nan m -> (forall r, fair (draw r)) -> standard_uniform unif ->
  sound_state m (n_iter g) st ->
  a_round simulate lp_isinf (step:=step) normal vadd wstd draw draw_next unif fuel g m st r = Some (Ok st', r') ->
  sound_state m (n_iter g) st' /\ fleb (s_eps st') (s_eps st) = true /\ s_rnd st' = S (s_rnd st) /\ (0 <= s_acc st' <= 1)%R.
Proof. intros. eapply round_sound; eauto. Qed.
Print Assumptions C57_round_partial.

(** Any number of rounds. Missing: as above. *)
Theorem C57_fit_partial : forall w simulate lp_isinf (step : Type) normal vadd wstd draw draw_next unif rounds fuel g (m : dmodel w flt) pars0 r st r',
  honest m simulate -> never_nan m -> (forall r, fair (draw r)) -> standard_uniform unif ->
  smc_fit simulate lp_isinf (step:=step) normal vadd wstd draw draw_next unif rounds fuel g m pars0 r = Some (Ok st, r') ->
  sound_state m (n_iter g) st.
Proof.
  intros. unfold smc_fit in H3. apply cbind_ok in H3. destruct H3 as (st0 & r0 & E1 & E2).
  destruct (C57_initialise_partial _ _ _ _ _ _ _ _ _ _ _ H H0 H1 E1) as (S & _). eapply update_sound; eauto.
Qed.
Print Assumptions C57_fit_partial.

(** At least one round, and at most max(1, max_round) counted from the start. *)
Theorem C57_rounds : forall w simulate lp_isinf (step : Type) normal vadd wstd draw draw_next unif rounds fuel g (m : dmodel w flt) st r st' r',
  update simulate lp_isinf (step:=step) normal vadd wstd draw draw_next unif rounds fuel g m st r = Some (Ok st', r') ->
  s_rnd st < s_rnd st' /\ (Z.of_nat (s_rnd st') <= Z.max (Z.of_nat (s_rnd st) + 1) (max_round g))%Z.
Proof.
  intros w simulate lp_isinf step normal vadd wstd draw draw_next unif rounds fuel g m.
  induction rounds as [|n IH]; intros st r st' r' H; cbn [update] in H; [discriminate|].
  apply cbind_ok in H. destruct H as (st1 & r1 & H1 & H2). apply round_count in H1.
  destruct (check_termination g st1) eqn:C.
  - unfold cret in H2. injection H2 as <- <-. rewrite H1. lia.
  - destruct (IH _ _ _ _ H2) as [I1 I2]. unfold check_termination in C.
    destruct (Z.leb_spec (max_round g) (Z.of_nat (s_rnd st1))) as [L|L]; [discriminate|]. lia.
Qed.
Print Assumptions C57_rounds.

(** The loop ends by itself: whatever is allowed beyond max(1, max_round - Round) rounds is not
    used. (Each round may still not end, when every simulated distance is infinite.) *)
Theorem C57_loop_ends : forall w simulate lp_isinf (step : Type) normal vadd wstd draw draw_next unif k extra fuel g (m : dmodel w flt) st r,
  1 <= k -> (max_round g <= Z.of_nat (s_rnd st + k))%Z ->
  update simulate lp_isinf (step:=step) normal vadd wstd draw draw_next unif (k + extra) fuel g m st r
  = update simulate lp_isinf (step:=step) normal vadd wstd draw draw_next unif k fuel g m st r.
Proof.
  intros w simulate lp_isinf step normal vadd wstd draw draw_next unif k extra fuel g m.
  induction k as [|k IH]; intros st r L1 L2; [lia|]. cbn [update Nat.add]. unfold cbind at 1 2.
  destruct (a_round simulate lp_isinf normal vadd wstd draw draw_next unif fuel g m st r) as [[[st1|e] r1]|] eqn:E; auto.
  destruct (check_termination g st1) eqn:C; auto. apply round_count in E.
  destruct k as [|k].
  - unfold check_termination in C. destruct (Z.leb_spec (max_round g) (Z.of_nat (s_rnd st1))); [discriminate|]. lia.
  - apply IH; lia.
Qed.
Print Assumptions C57_loop_ends.

(** ** Where the property does not hold *)

Section Findings.
  Context {w : world}.
  Notation pt := (particle w flt).
  Notation G := (RNG w).
  Implicit Types (m : dmodel w flt) (p : pt).
  Context (simulate : chrom w -> G -> res pt * G) (lp_isinf : LP w -> bool).
  Context {step : Type} (normal : step -> G -> V w * G) (vadd : V w -> V w -> res (V w)).
  Context (wstd : dmodel w flt -> list pt -> list flt -> G -> res (dict step) * G).
  Context (draw : G -> list R -> nat -> list nat) (draw_next : G -> G) (unif : G -> R * G).

  Lemma fraction_unit : forall A (f : A -> bool) (l : list A) a, (0 <= a <= 1)%R -> l <> [] ->
    (0 <= a * (INR (count f l) / INR (length l)) <= 1)%R.
  Proof using.
    intros A f l a Ha N. assert (L : count f l <= length l).
    { unfold count. clear N. induction l as [|x l IH]; simpl; auto. destruct (f x); simpl; lia. }
    assert (P : (0 < INR (length l))%R) by (apply lt_0_INR; destruct l; [congruence|simpl; lia]).
    apply le_INR in L. pose proof (pos_INR (count f l)) as Q.
    assert (U : (0 <= INR (count f l) / INR (length l) <= 1)%R).
    { split; [apply Rmult_le_pos; auto; apply Rlt_le, Rinv_0_lt_compat; auto|].
      apply Rmult_le_reg_r with (INR (length l)); auto. unfold Rdiv. rewrite Rmult_assoc, Rinv_l; lra. }
    set (u := (INR (count f l) / INR (length l))%R) in *. clearbody u. split; [apply Rmult_le_pos; lra|].
    replace 1%R with (1 * 1)%R by ring. apply Rmult_le_compat; lra.
  Qed.

  (** distances of particles that are all measured: no draw, no exception *)
  Lemma distances_total : forall m theta r, (forall i p, nth_error theta i = Some p -> exists d, measured m p d) ->
    exists ds theta', distances m theta r = Some (Ok (ds, theta'), r) /\ length ds = length theta /\ length theta' = length theta
    /\ (forall i d, nth_error ds i = Some d -> exists p, nth_error theta i = Some p /\ measured m p d)
    /\ (forall i q, nth_error theta' i = Some q -> exists p d, nth_error theta i = Some p /\ measured m p d /\ measured m q d).
  Proof using.
    intros m theta r M. unfold distances. induction theta as [|p theta IH].
    - exists [], []. splits; auto; intros [|i] x K; discriminate.
    - destruct (M 0 p eq_refl) as [d Hd]. destruct (distance_again m p d r Hd) as (p' & E1 & E2).
      destruct IH as (ds & th & H1 & H2 & H3 & H4 & H5); [intros i q K; apply (M (S i) q K)|].
      cbn [cmap]. unfold cbind in *. rewrite E1. destruct (cmap (distance m) theta r) as [[[l|e] r1]|]; try discriminate H1.
      unfold cret in *. injection H1 as <- <- <-. exists (d :: map fst l), (p' :: map snd l). splits; simpl; auto.
      + intros [|i] x K; simpl in K; [inversion K; subst; exists p; auto|exact (H4 i x K)].
      + intros [|i] q K; simpl in K; [inversion K; subst; exists p, d; auto|]. destruct (H5 i q K) as (p0 & d0 & J1 & J2 & J3). exists p0, d0. auto.
  Qed.

  Lemma all_fin : forall x (ds : list flt), (forall i d, nth_error ds i = Some d -> d = Fin x) -> ds = map Fin (repeat x (length ds)).
  Proof using.
    intros x ds H. induction ds as [|d ds IH]; auto. simpl. f_equal; [apply (H 0); auto|]. apply IH. intros i d0 K. apply (H (S i) d0 K).
  Qed.
  Lemma Forall_repeat : forall A (P : A -> Prop) x n, P x -> Forall P (repeat x n).
  Proof using. intros A P x n H. induction n; simpl; auto. Qed.

  Lemma reweigh_zero : forall x ws ds, length ds = length ws -> ds = map Fin (repeat x (length ds)) ->
    reweigh PInf (Fin x) (map Fin ws) ds = Ok (map Fin (repeat 0%R (length ws))).
  Proof using.
    intros x ws. induction ws as [|y ws IH]; intros ds L E; auto. destruct ds as [|d ds]; [discriminate|].
    simpl in L, E. injection E as E1 E2. injection L as L. rewrite E1. cbn [map reweigh]. rewrite (IH ds L E2).
    simpl bind. cbn [fltb length repeat map]. assert (K : rltb x x = false) by (apply rltb_false; lra). rewrite K. auto.
  Qed.

  Lemma round_ties : forall fuel g m st r x ws, (0 <= alpha g <= 1)%R -> s_eps st = PInf ->
    s_wts st = map Fin ws -> length (s_pts st) = length ws -> s_pts st <> [] ->
    (forall i p, nth_error (s_pts st) i = Some p -> measured m p (Fin x)) ->
    a_round simulate lp_isinf normal vadd wstd draw draw_next unif fuel g m st r = Some (Err AssertionError, r).
  Proof using.
    intros fuel g m st r x ws Ha He Hw Hl Hp M. unfold a_round. cbv zeta. rewrite He, Hw.
    destruct (distances_total m (s_pts st) r) as (ds & th & H1 & H2 & H3 & H4 & H5); [eauto|].
    assert (Ed : ds = map Fin (repeat x (length ds))).
    { apply all_fin. intros i d K. destruct (H4 i d K) as (p & J1 & J2). apply (measured_fun m p); auto. eapply M; eauto. }
    assert (Nd : length ds <> 0) by (rewrite H2; destruct (s_pts st); [congruence|discriminate]).
    assert (Q : quantile ds (alpha g * (INR (count (fun d => fleb d PInf) ds) / INR (length ds))) = Ok (Fin x)).
    { assert (U : (0 <= alpha g * (INR (count (fun d => fleb d PInf) ds) / INR (length ds)) <= 1)%R).
      { apply fraction_unit; auto. intros ->. apply Nd. auto. }
      set (u := (alpha g * (INR (count (fun d => fleb d PInf) ds) / INR (length ds)))%R) in *. rewrite Ed.
      assert (Nr : repeat x (length ds) <> []) by (destruct (length ds); [congruence|discriminate]).
      rewrite quantile_fin; auto. rewrite (quantile_r_const x); auto. apply Forall_repeat; auto. }
    unfold find_eps. unfold cbind at 1 2. rewrite H1. cbv zeta. unfold cbind at 1. unfold cres. rewrite Q. unfold cret at 1.
    cbn [fleb]. unfold update_wts at 1. unfold cbind at 1 2.
    destruct (distances_total m th r) as (ds2 & th2 & K1 & K2 & K3 & K4 & K5).
    { intros i p K. destruct (H5 i p K) as (q & d & _ & _ & J). eauto. }
    rewrite K1. assert (Ed2 : ds2 = map Fin (repeat x (length ds2))).
    { apply all_fin. intros i d K. destruct (K4 i d K) as (q & J1 & J2). destruct (H5 i q J1) as (p & d' & L1 & L2 & L3).
      rewrite (measured_fun m q _ _ J2 L3). apply (measured_fun m p); auto. eapply M; eauto. }
    unfold cbind at 1. unfold cres. rewrite (reweigh_zero x ws ds2); [|congruence|auto]. unfold cret at 1.
    rewrite normalise_zero by (apply Forall_repeat; auto). unfold cbind at 1. unfold resample_smc. rewrite count_nan. reflexivity.
  Qed.

  Lemma marks_nan : forall (ps : list pt) n acc, marks NaN ps n = Ok acc -> acc = repeat false n.
  Proof using.
    intros ps. induction ps as [|p ps IH]; intros n acc H; cbn [marks] in H; [inversion H; auto|].
    apply bind_ok in H. destruct H as (d & _ & H). destruct n as [|n].
    - destruct (fltb d NaN) eqn:E; [destruct d; discriminate|]. apply IH in H. auto.
    - apply bind_ok in H. destruct H as (l & H1 & H2). inversion H2; subst. simpl. rewrite (IH n l H1). f_equal. destruct d; auto.
  Qed.
  Lemma select_false : forall n tp t1 r ps k r', (forall r, (0 <= fst (unif r))%R) ->
    select unif (repeat false n) tp t1 r = Some (Ok (ps, k), r') -> k = 0.
  Proof using unif.
    intros n. induction n as [|n IH]; intros tp t1 r ps k r' U H; cbn [repeat select] in H; [inversion H; auto|].
    apply cbind_ok in H. destruct H as (u & r1 & H1 & H). cbv zeta in H. apply cbind_ok in H. destruct H as (p & r2 & H2 & H).
    apply cbind_ok in H. destruct H as ([ps' k'] & r3 & H3 & H4). unfold cret in H4. injection H4 as _ <- _.
    unfold clift in H1. pose proof (U r) as Ur. destruct (unif r) as [u0 r0]. injection H1 as <- <-. simpl in Ur.
    assert (L : rltb u0 0 = false) by (apply rltb_false; lra). rewrite L. simpl. eapply IH; eauto.
  Qed.

  Lemma round_nan : forall fuel g m st r st' r' ws, (0 <= alpha g <= 1)%R -> (forall r, fair (draw r)) -> standard_uniform unif ->
    s_eps st = PInf -> s_wts st = map Fin ws -> Forall (fun x => (0 <= x)%R) ws -> length (s_pts st) = length ws ->
    (forall i p, nth_error (s_pts st) i = Some p -> exists d, measured m p d /\ isinf d = false) ->
    (exists i p, nth_error (s_pts st) i = Some p /\ measured m p NaN) ->
    a_round simulate lp_isinf normal vadd wstd draw draw_next unif fuel g m st r = Some (Ok st', r') ->
    s_eps st' = NaN /\ s_acc st' = 0%R
    /\ forall i p x, nth_error (s_pts st') i = Some p -> nth_error (s_wts st') i = Some x -> fltb (Fin 0) x = true -> measured m p NaN.
  Proof using.
    intros fuel g m st r st' r' ws Ha Hf Hu He Hw W3 Hl M [i0 [p0 [N1 N2]]] H. unfold a_round in H. cbv zeta in H. rewrite He, Hw in H.
    assert (M0 : forall i p, nth_error (s_pts st) i = Some p -> exists d, measured m p d) by (intros i p K; destruct (M i p K) as (d & K1 & _); eauto).
    destruct (distances_total m (s_pts st) r M0) as (ds & th & H1 & H2 & H3 & H4 & H5).
    assert (In NaN ds).
    { assert (i0 < length ds) by (rewrite H2; apply nth_error_Some; congruence).
      destruct (nth_error ds i0) as [d|] eqn:E; [|apply nth_error_None in E; lia]. destruct (H4 i0 d E) as (q & J1 & J2).
      rewrite N1 in J1. inversion J1; subst. rewrite (measured_fun m q _ _ N2 J2) in *. eapply nth_error_In; eauto. }
    assert (Nd : ds <> []) by (intros ->; auto).
    assert (F : find_eps g m PInf (s_pts st) r = Some (Ok (NaN, th), r)).
    { unfold find_eps, cbind. rewrite H1. cbv zeta. unfold cres. rewrite quantile_nan; auto. apply fraction_unit; auto. }
    unfold cbind at 1 in H. rewrite F in H. cbn [fleb] in H.
    apply cbind_ok in H. destruct H as ([wts1 th1] & r2 & G2 & H). unfold update_wts in G2.
    assert (M1 : forall i p, nth_error th i = Some p -> exists d, measured m p d).
    { intros i p K. destruct (H5 i p K) as (q & d & _ & _ & J). eauto. }
    destruct (distances_total m th r M1) as (ds2 & th2 & K1 & K2 & K3 & K4 & K5).
    unfold cbind at 1 in G2. rewrite K1 in G2. apply cbind_ok in G2. destruct G2 as (wts' & r4 & G3 & G4).
    unfold cret in G4. injection G4 as <- <- <-. unfold cres in G3. injection G3 as G3 <-.
    destruct (reweigh_spec _ _ _ _ _ G3 W3) as (vs & -> & V1 & V2 & V3).
    assert (Dth : forall i p v, nth_error th2 i = Some p -> nth_error vs i = Some v -> (0 < v)%R -> measured m p NaN).
    { intros i p v J1 J2 J3. destruct (V3 i v J2 J3) as (y & d & Y1 & Y2 & Y3 & Y4).
      destruct (K5 i p J1) as (q & d1 & L1 & L2 & L3). destruct (K4 i d Y3) as (q1 & L4 & L5). rewrite L1 in L4. inversion L4; subst q1.
      pose proof (measured_fun m q _ _ L2 L5). subst d1. destruct (H5 i q L1) as (p1 & d2 & O1 & O2 & O3).
      pose proof (measured_fun m q _ _ L5 O3). subst d2. destruct (M i p1 O1) as (d3 & O4 & O5).
      pose proof (measured_fun m p1 _ _ O2 O4). subst d3.
      destruct d; simpl in *; try discriminate; auto. specialize (Y4 eq_refl). discriminate. }
    apply cbind_ok in H. destruct H as ([wts2 theta1] & r5 & G5 & H). unfold resample_smc in G5.
    destruct (Nat.ltb_spec 2 (count (fltb (Fin 0)) (normalise (map Fin vs)))) as [C|C]; [|discriminate G5].
    destruct (normalise_counted vs V2) as (us & U1 & U2 & U3 & U4 & U5); [lia|]. rewrite U1 in G5.
    assert (Pop : forall i p x, nth_error theta1 i = Some p -> nth_error wts2 i = Some x -> fltb (Fin 0) x = true -> measured m p NaN).
    { destruct (fltb (Fin 1) (fmul (Fin (s_thres st)) (fsum (map (fun x0 => fmul x0 x0) (map Fin us))))).
      - rewrite selection_proper in G5 by auto. apply cbind_ok in G5. destruct G5 as (ind & r6 & I1 & I2).
        apply cbind_ok in I2. destruct I2 as (th3 & r7 & I2 & I3). unfold cret in I3. injection I3 as <- <- <-.
        destruct (choice_c_ok draw draw_next _ _ _ _ _ _ Hf I1) as (_ & Li & Ii). unfold cres in I2. injection I2 as I2 <-. apply pick_spec in I2. destruct I2 as [Lp Ip].
        intros i p y K _ _. rewrite nth_error_map in K. destruct (nth_error th3 i) as [q|] eqn:E; inversion K; subst.
        destruct (Ip i q E) as (j & J1 & J2). destruct (Ii i j J1) as (u & J3 & J4). destruct (U5 j u J3 J4) as (v & J5 & J6).
        apply measured_copy. eapply Dth; eauto.
      - unfold cret in G5. injection G5 as <- <- <-. intros i p y K Ky Py. rewrite nth_error_map in K.
        destruct (nth_error th2 i) as [q|] eqn:E; inversion K; subst.
        rewrite nth_error_map in Ky. destruct (nth_error us i) as [u|] eqn:Eu; inversion Ky; subst. apply fltb_fin in Py.
        destruct (U5 i u Eu Py) as (v & J4 & J5). apply measured_copy. eapply Dth; eauto. }
    clear G5. apply cbind_ok in H. destruct H as ([[pts ess] acc] & r6 & G6 & G7). unfold cret in G7. injection G7 as <- <-.
    unfold mcmc_proposal in G6. apply cbind_ok in G6. destruct G6 as (tau & r7 & G7 & G6). apply cbind_ok in G6. destruct G6 as (sp & r8 & G8 & G6).
    cbv zeta in G6. apply cbind_ok in G6. destruct G6 as (ac & r9 & G9 & G6). apply cbind_ok in G6. destruct G6 as ([pts' k] & r10 & G10 & G6).
    apply cbind_ok in G6. destruct G6 as (ess' & r11 & G11 & G6). apply cbind_ok in G6. destruct G6 as (a & r12 & G12 & G6).
    unfold cret in G6. injection G6 as <- <- <- <-. cbn [fst snd] in *. unfold cres in G9. injection G9 as G9 <-.
    apply marks_nan in G9. subst ac. destruct (select_spec unif _ _ _ _ _ _ _ (fun r => proj1 (Hu r)) G10) as (S1 & S2 & S3).
    apply select_false in G10; [|intros r0; apply Hu]. subst k. cbn [s_eps s_acc s_pts s_wts]. splits; auto.
    - unfold cres, idiv in G12. destruct (Nat.eqb (n_iter g) 0); [discriminate|]. injection G12 as <- _. simpl. unfold Rdiv. ring.
    - intros i p y K Ky Py. destruct (S3 i p K) as [[J1 _]|J]; [|eauto]. exfalso.
      apply nth_error_In in J1. apply repeat_spec in J1. discriminate.
  Qed.
End Findings.

(** When all particles of the first round have the same distance, the round raises: every distance
    below the old tolerance must be strictly below the new one, and none is. *)
Theorem C57_equal_distances : forall w simulate lp_isinf (step : Type) normal vadd wstd draw draw_next unif fuel g (m : dmodel w flt) st r x ws,
  (0 <= alpha g <= 1)%R -> s_eps st = PInf -> s_wts st = map Fin ws -> length (s_pts st) = length ws -> s_pts st <> [] ->
  (forall i p, nth_error (s_pts st) i = Some p -> measured m p (Fin x)) ->
  a_round simulate lp_isinf (step:=step) normal vadd wstd draw draw_next unif fuel g m st r = Some (Err AssertionError, r).
Proof. intros. eapply round_ties; eauto. Qed.
Print Assumptions C57_equal_distances.

(** One nan among the distances of the first round: if the round ends at all, the tolerance is nan,
    all weight is on particles whose distance is nan, and no proposal is accepted. *)
Theorem C57_nan_takes_over : forall w simulate lp_isinf (step : Type) normal vadd wstd draw draw_next unif fuel g (m : dmodel w flt) st r st' r' ws,
  (0 <= alpha g <= 1)%R -> (forall r, fair (draw r)) -> standard_uniform unif ->
  s_eps st = PInf -> s_wts st = map Fin ws -> Forall (fun x => (0 <= x)%R) ws -> length (s_pts st) = length ws ->
  (forall i p, nth_error (s_pts st) i = Some p -> exists d, measured m p d /\ isinf d = false) ->
  (exists i p, nth_error (s_pts st) i = Some p /\ measured m p NaN) ->
  a_round simulate lp_isinf (step:=step) normal vadd wstd draw draw_next unif fuel g m st r = Some (Ok st', r') ->
  s_eps st' = NaN /\ s_acc st' = 0%R
  /\ forall i p x, nth_error (s_pts st') i = Some p -> nth_error (s_wts st') i = Some x -> fltb (Fin 0) x = true -> measured m p NaN.
Proof. intros. eapply round_nan; eauto. Qed.
Print Assumptions C57_nan_takes_over.

(** ** A concrete case: four particles with the distances 1, 3, 5, 7, and with 1, nan, nan, nan *)

Definition tab_a (z : Z) : flt :=
  match z with 1%Z => Fin 1 | 3%Z => Fin 3 | 5%Z => Fin 5 | 7%Z => Fin 7 | _ => Fin 2 end.
Definition tab_b (z : Z) : flt := match z with 1%Z => Fin 1 | 3%Z | 5%Z | 7%Z => NaN | _ => Fin 2 end.
Definition ex_target (tab : Z -> flt) (ys : dict (V exw)) : res flt :=
  match dget ys "y" with Some (PZ z) => Ok (tab z) | Some _ => Err TypeError | None => Err KeyError end.
Definition exsmc (tab : Z -> flt) : dmodel exw flt :=
  mkDM [("y", mkTarget (w:=exw) (ex_target tab) (fun _ => Err AttributeError))] exnet [("a", PZ 1); ("s", PZ 2)] ["x"].
Definition ex_q (tab : Z -> flt) (r : nat) : particle exw flt :=
  match attempt exsim (exsmc tab) r with Some (Ok (d, p), _) => p | _ => pt_new (mkChrom (w:=exw) [] LNan) [] end.
Definition ex_qs (tab : Z -> flt) : list (particle exw flt) := [ex_q tab 0; ex_q tab 2; ex_q tab 4; ex_q tab 6].
Definition ex_cfg : cfg := mkCfg 4 false 1 (1 / 8) 1 5 0.
Definition ex_ws : list R := [1 / INR 4; 1 / INR 4; 1 / INR 4; 1 / INR 4]%R.
Definition ex_st (tab : Z -> flt) (ess : flt) : state exw := mkSt (map Fin ex_ws) (ex_qs tab) 0 0 ess 1 PInf (INR 4 * (1 / 8)).
Definition ex_normal (_ : unit) (r : RNG exw) : V exw * RNG exw := (PZ 0, r).
Definition ex_vadd (a b : V exw) : res (V exw) := Ok a.
Definition ex_wstd (_ : dmodel exw flt) (_ : list (particle exw flt)) (_ : list flt) (r : RNG exw) : res (dict unit) * RNG exw := (Ok [], r).
Definition ex_unif (r : RNG exw) : R * RNG exw := (0%R, r).
(** the first index with positive probability, n times *)
Fixpoint first_pos (q : list R) : nat := match q with [] => 0 | x :: q' => if rltb 0 x then 0 else S (first_pos q') end.
Definition ex_draw (_ : RNG exw) (q : list R) (n : nat) : list nat := repeat (first_pos q) n.
Notation ex_round tab ess := (a_round exsim (fun _ => false) ex_normal ex_vadd ex_wstd ex_draw (fun r => r) ex_unif 1 ex_cfg (exsmc tab) (ex_st tab ess) 8).
Notation ex_fit tab := (smc_fit exsim (fun _ => false) ex_normal ex_vadd ex_wstd ex_draw (fun r => r) ex_unif 1 1 ex_cfg (exsmc tab) None 0).

Lemma first_pos_ok : forall q, Forall (fun x => (0 <= x)%R) q -> (0 < rsum q)%R -> exists x, nth_error q (first_pos q) = Some x /\ (0 < x)%R.
Proof.
  induction q as [|x q IH]; intros F H; [simpl in H; lra|]. inversion F; subst. cbn [first_pos].
  destruct (rltb 0 x) eqn:E; [apply rltb_true in E; exists x; auto|]. apply rltb_false in E.
  destruct IH as (y & K); auto; [simpl in H; lra|]. exists y. auto.
Qed.
Lemma ex_fair : forall r, fair (ex_draw r).
Proof.
  intros r q n F S. unfold ex_draw. split; [apply repeat_length|]. apply Forall_repeat. apply first_pos_ok; auto. lra.
Qed.
Lemma ex_uniform : standard_uniform (w:=exw) ex_unif.
Proof. intros r. simpl. lra. Qed.
Lemma ex_honest : forall tab, honest (exsmc tab) exsim.
Proof. intros tab c r p r' d H K. inversion H; subst. discriminate K. Qed.
Lemma ex_total : forall tab ys d, total (Fin 0) fadd t_dist (dm_data (exsmc tab)) ys = Ok d -> exists z, d = fadd (Fin 0) (tab z).
Proof.
  intros tab ys d H. unfold total in H. simpl in H. unfold ex_target in H.
  destruct (dget ys "y") as [[z|s|f| |tp fs]|]; try discriminate H. simpl in H. exists z. injection H as <-. reflexivity.
Qed.
Lemma ex_never_nan : never_nan (exsmc tab_a).
Proof.
  intros ys H. apply ex_total in H. destruct H as [z H]. unfold tab_a in H.
  repeat match type of H with NaN = fadd _ (match ?x with _ => _ end) => destruct x end; discriminate H.
Qed.

Lemma ex_measured : forall tab i p, nth_error (ex_qs tab) i = Some p -> exists z, measured (exsmc tab) p (fadd (Fin 0) (tab z)).
Proof.
  intros tab i p H. destruct i as [|[|[|[|i]]]]; simpl in H; inversion H; subst.
  - exists 1%Z. eexists. vm_compute. splits; auto.
  - exists 3%Z. eexists. vm_compute. splits; auto.
  - exists 5%Z. eexists. vm_compute. splits; auto.
  - exists 7%Z. eexists. vm_compute. splits; auto.
  - destruct i; discriminate.
Qed.

Example C57_example_state : forall ess, sound_state (exsmc tab_a) (n_iter ex_cfg) (ex_st tab_a ess).
Proof.
  intros ess.
  split; [|left; auto]. split; [auto|]. splits.
  - exists ex_ws. splits; auto; [repeat constructor; simpl; lra|simpl; lra].
  - intros i p H. destruct (ex_measured _ _ _ H) as [z M]. destruct M as (ys & M1 & M2 & M3).
    destruct (fadd (Fin 0) (tab_a z)) eqn:E; [exists x; exists ys; auto| | |];
      unfold tab_a in E; repeat match type of E with context[match ?x with _ => _ end] => destruct x end; discriminate E.
  - intros i p x H _ _. destruct (ex_measured _ _ _ H) as [z M]. exists (fadd (Fin 0) (tab_a z)). split; auto.
    unfold tab_a. repeat match goal with |- context[match ?x with _ => _ end] => destruct x end; auto.
Qed.

Lemma ex_distances_a : forall r, distances (exsmc tab_a) (ex_qs tab_a) r
  = Some (Ok ([Fin (0 + 1); Fin (0 + 3); Fin (0 + 5); Fin (0 + 7)], ex_qs tab_a), r).
Proof. intros r. vm_cast_no_check (eq_refl (Some (Ok ([Fin (0 + 1); Fin (0 + 3); Fin (0 + 5); Fin (0 + 7)], ex_qs tab_a), r))). Qed.
Lemma ex_distances_b : forall r, distances (exsmc tab_b) (ex_qs tab_b) r
  = Some (Ok ([Fin (0 + 1); NaN; NaN; NaN], ex_qs tab_b), r).
Proof. intros r. vm_cast_no_check (eq_refl (Some (Ok ([Fin (0 + 1); NaN; NaN; NaN], ex_qs tab_b), r))). Qed.

Ltac rdec := repeat match goal with
  | |- context[rleb ?a ?b] => first [replace (rleb a b) with true by (symmetry; apply rleb_true; lra)
                                    | replace (rleb a b) with false by (symmetry; apply rleb_false; lra)]
  | |- context[rltb ?a ?b] => first [replace (rltb a b) with true by (symmetry; apply rltb_true; lra)
                                    | replace (rltb a b) with false by (symmetry; apply rltb_false; lra)]
  end; cbv iota.

Lemma ex_quantile : quantile_r [0 + 1; 0 + 3; 0 + 5; 0 + 7]%R 1%R = 7%R.
Proof.
  unfold quantile_r. cbv zeta. assert (S : rsort [0 + 1; 0 + 3; 0 + 5; 0 + 7]%R = [0 + 1; 0 + 3; 0 + 5; 0 + 7]%R).
  { unfold rsort. cbn [fold_right rins]. rdec. cbn [rins]. rdec. cbn [rins]. rdec. reflexivity. }
  rewrite S. replace (1 * INR (length [0 + 1; 0 + 3; 0 + 5; 0 + 7]%R - 1))%R with 3%R by (simpl; lra).
  rewrite (Int_part_INR_frac 3 3) by (simpl; lra). simpl. lra.
Qed.

(** The round of C57_round_partial, run from that state: it keeps three of the four. *)
Example C57_example_round : forall ess, exists st' r', ex_round tab_a ess = Some (Ok st', r') /\ s_eps st' = Fin 7 /\ s_rnd st' = 1
  /\ length (s_pts st') = 4 /\ s_wts st' = map Fin [1 / 3; 1 / 3; 1 / 3; 0]%R.
Proof.
  intros ess.
  unfold a_round. cbv zeta. cbn [ex_st s_eps s_pts s_wts s_stay s_rnd s_thres].
  assert (F : find_eps ex_cfg (exsmc tab_a) PInf (ex_qs tab_a) 8 = Some (Ok (Fin 7, ex_qs tab_a), 8)).
  { unfold find_eps, cbind. rewrite ex_distances_a. cbv zeta. unfold cres.
    change [Fin (0 + 1); Fin (0 + 3); Fin (0 + 5); Fin (0 + 7)] with (map Fin [0 + 1; 0 + 3; 0 + 5; 0 + 7]%R).
    assert (U : (alpha ex_cfg * (INR (count (fun d => fleb d PInf) (map Fin [0 + 1; 0 + 3; 0 + 5; 0 + 7]))
                 / INR (length (map Fin [0 + 1; 0 + 3; 0 + 5; 0 + 7]))))%R = 1%R) by (simpl; field).
    rewrite U, quantile_fin by (try discriminate; lra). rewrite ex_quantile. reflexivity. }
  unfold cbind at 1. rewrite F. cbn [fleb].
  assert (W : reweigh PInf (Fin 7) (map Fin ex_ws) [Fin (0 + 1); Fin (0 + 3); Fin (0 + 5); Fin (0 + 7)]
            = Ok (map Fin [1 / INR 4; 1 / INR 4; 1 / INR 4; 0]%R)).
  { unfold ex_ws. cbn [map reweigh bind fltb]. rdec. reflexivity. }
  unfold update_wts. unfold cbind at 1 2. rewrite ex_distances_a. unfold cres, cbind at 1. rewrite W. cbv iota beta. unfold cret at 1.
  assert (Sm : rsum [1 / INR 4; 1 / INR 4; 1 / INR 4; 0]%R = (3 * (1 / INR 4))%R) by (cbn [rsum fold_right]; simpl; lra).
  assert (N : normalise (map Fin [1 / INR 4; 1 / INR 4; 1 / INR 4; 0]%R) = map Fin [1 / 3; 1 / 3; 1 / 3; 0]%R).
  { rewrite normalise_fin by (rewrite Sm; simpl; lra). rewrite Sm. cbn [map].
    replace (1 / INR 4 / (3 * (1 / INR 4)))%R with (1 / 3)%R by (simpl; field).
    replace (0 / (3 * (1 / INR 4)))%R with 0%R by (simpl; field). reflexivity. }
  rewrite N. unfold cbind at 1. unfold resample_smc.
  assert (C : count (fltb (Fin 0)) (map Fin [1 / 3; 1 / 3; 1 / 3; 0]%R) = 3).
  { unfold count. cbn [map filter fltb]. rdec. reflexivity. }
  rewrite C. change (Nat.ltb 2 3) with true. cbv iota.
  assert (S2 : fsum (map (fun x => fmul x x) (map Fin [1 / 3; 1 / 3; 1 / 3; 0]%R)) = Fin (1 / 3)).
  { cbn [map fmul]. change [Fin (1 / 3 * (1 / 3)); Fin (1 / 3 * (1 / 3)); Fin (1 / 3 * (1 / 3)); Fin (0 * 0)]
      with (map Fin [1 / 3 * (1 / 3); 1 / 3 * (1 / 3); 1 / 3 * (1 / 3); 0 * 0]%R). rewrite fsum_fin. f_equal. simpl. lra. }
  rewrite S2. cbn [fmul fltb]. replace (INR 4 * (1 / 8) * (1 / 3))%R with (1 / 6)%R by (simpl; field). rdec. unfold cret at 1. unfold cbind at 1. unfold mcmc_proposal.
  unfold cbind at 1. unfold clift at 1. unfold ex_wstd at 1. cbv iota beta.
  unfold cbind at 1. match goal with |- context[cmap ?f ?l 8] => set (o := cmap f l 8) end.
  assert (E : match o with Some (Ok l, r') => map (fun s => p_distance (snd (fst s))) l = [Some (Fin (0 + 2)); Some (Fin (0 + 2)); Some (Fin (0 + 2)); Some (Fin (0 + 2))] | _ => False end).
  { unfold o. vm_compute. reflexivity. }
  clearbody o.
  destruct o as [[[l|e] r']|]; [|destruct E|destruct E].
  destruct l as [|[[d1 p1] n1] [|[[d2 p2] n2] [|[[d3 p3] n3] [|[[d4 p4] n4] [|]]]]]; try discriminate E. cbn [map fst snd] in E.
  injection E as E1 E2 E3 E4. cbn [map fst snd]. cbv zeta. unfold cres at 1, cbind at 1.
  cbn [ex_cfg n_iter marks src_distance]. rewrite E1, E2, E3, E4. cbn [bind fltb]. rdec. cbn [repeat].
  cbn [select]. unfold clift, ex_unif, cbind, cres. cbv iota beta zeta. rdec. cbn [tl map fst snd]. cbv iota beta. unfold cret. cbn [tl fst snd].
  unfold ess_of. cbn [map]. unfold idiv. cbn [Nat.eqb]. eexists. eexists. splits; reflexivity.
Qed.

Lemma ex_round_b : forall ess, exists st' r', ex_round tab_b ess = Some (Ok st', r') /\ s_eps st' = NaN /\ s_rnd st' = 1
  /\ nth_error (s_pts st') 1 = Some (pt_copy (ex_q tab_b 2)) /\ s_wts st' = map Fin [0; 1 / 3; 1 / 3; 1 / 3]%R.
Proof.
  intros ess.
  unfold a_round. cbv zeta. cbn [ex_st s_eps s_pts s_wts s_stay s_rnd s_thres].
  assert (F : find_eps ex_cfg (exsmc tab_b) PInf (ex_qs tab_b) 8 = Some (Ok (NaN, ex_qs tab_b), 8)).
  { unfold find_eps, cbind. rewrite ex_distances_b. cbv zeta. unfold cres.
    rewrite quantile_nan; [reflexivity| |simpl; auto]. apply fraction_unit; [simpl; lra|discriminate]. }
  unfold cbind at 1. rewrite F. cbn [fleb].
  assert (W : reweigh PInf NaN (map Fin ex_ws) [Fin (0 + 1); NaN; NaN; NaN]
            = Ok (map Fin [0; 1 / INR 4; 1 / INR 4; 1 / INR 4]%R)).
  { unfold ex_ws. cbn [map reweigh bind fltb]. rdec. reflexivity. }
  unfold update_wts. unfold cbind at 1 2. rewrite ex_distances_b. unfold cres, cbind at 1. rewrite W. cbv iota beta. unfold cret at 1.
  assert (Sm : rsum [0; 1 / INR 4; 1 / INR 4; 1 / INR 4]%R = (3 * (1 / INR 4))%R) by (cbn [rsum fold_right]; simpl; lra).
  assert (N : normalise (map Fin [0; 1 / INR 4; 1 / INR 4; 1 / INR 4]%R) = map Fin [0; 1 / 3; 1 / 3; 1 / 3]%R).
  { rewrite normalise_fin by (rewrite Sm; simpl; lra). rewrite Sm. cbn [map].
    replace (1 / INR 4 / (3 * (1 / INR 4)))%R with (1 / 3)%R by (simpl; field).
    replace (0 / (3 * (1 / INR 4)))%R with 0%R by (simpl; field). reflexivity. }
  rewrite N. unfold cbind at 1. unfold resample_smc.
  assert (C : count (fltb (Fin 0)) (map Fin [0; 1 / 3; 1 / 3; 1 / 3]%R) = 3).
  { unfold count. cbn [map filter fltb]. rdec. reflexivity. }
  rewrite C. change (Nat.ltb 2 3) with true. cbv iota.
  assert (S2 : fsum (map (fun x => fmul x x) (map Fin [0; 1 / 3; 1 / 3; 1 / 3]%R)) = Fin (1 / 3)).
  { cbn [map fmul]. change [Fin (0 * 0); Fin (1 / 3 * (1 / 3)); Fin (1 / 3 * (1 / 3)); Fin (1 / 3 * (1 / 3))]
      with (map Fin [0 * 0; 1 / 3 * (1 / 3); 1 / 3 * (1 / 3); 1 / 3 * (1 / 3)]%R). rewrite fsum_fin. f_equal. simpl. lra. }
  rewrite S2. cbn [fmul fltb]. replace (INR 4 * (1 / 8) * (1 / 3))%R with (1 / 6)%R by (simpl; field). rdec. unfold cret at 1. unfold cbind at 1. unfold mcmc_proposal.
  unfold cbind at 1. unfold clift at 1. unfold ex_wstd at 1. cbv iota beta.
  unfold cbind at 1. match goal with |- context[cmap ?f ?l 8] => set (o := cmap f l 8) end.
  assert (E : match o with Some (Ok l, r') => map (fun s => p_distance (snd (fst s))) l = [Some (Fin (0 + 2)); Some (Fin (0 + 2)); Some (Fin (0 + 2)); Some (Fin (0 + 2))] | _ => False end).
  { unfold o. vm_compute. reflexivity. }
  clearbody o.
  destruct o as [[[l|e] r']|]; [|destruct E|destruct E].
  destruct l as [|[[d1 p1] n1] [|[[d2 p2] n2] [|[[d3 p3] n3] [|[[d4 p4] n4] [|]]]]]; try discriminate E. cbn [map fst snd] in E.
  injection E as E1 E2 E3 E4. cbn [map fst snd]. cbv zeta. unfold cres at 1, cbind at 1.
  cbn [ex_cfg n_iter marks src_distance]. rewrite E1, E2, E3, E4. cbn [bind fltb]. rdec. cbn [repeat].
  cbn [select]. unfold clift, ex_unif, cbind, cres. cbv iota beta zeta. rdec. cbn [tl map fst snd]. cbv iota beta. unfold cret. cbn [tl fst snd].
  unfold ess_of. cbn [map]. unfold idiv. cbn [Nat.eqb]. eexists. eexists. splits; reflexivity.
Qed.

Lemma ex_initialise : forall tab, exists ess, (tab = tab_a \/ tab = tab_b) ->
  initialise exsim ex_draw (fun r => r) 1 ex_cfg (exsmc tab) None 0 = Some (Ok (ex_st tab ess), 8).
Proof.
  intros tab. exists (fdivf (Fin 1) (fsum (map (fun x => fmul x x) (ones 4)))). intros T.
  assert (O : ones 4 = map Fin ex_ws) by (rewrite ones_fin; auto).
  unfold initialise. cbv zeta. unfold cbind at 1. cbn [n_iter ex_cfg].
  match goal with |- context[cmap ?f ?l 0] => assert (E : option_map (fun x => (match fst x with Ok ss => Ok (map (fun s => snd (fst s)) ss) | Err e => Err e end, snd x)) (cmap f l 0) = Some (Ok (ex_qs tab), 8)) end.
  { destruct T as [-> | ->]; [vm_cast_no_check (eq_refl (Some (Ok (ex_qs tab_a), 8)))|vm_cast_no_check (eq_refl (Some (Ok (ex_qs tab_b), 8)))]. }
  match goal with |- context[cmap ?f ?l 0] => destruct (cmap f l 0) as [[[l0|e] r']|] end; [|discriminate E|discriminate E].
  simpl in E. injection E as E1 E2. unfold cbind, cres, ess_of. rewrite O. cbn [map ex_ws]. unfold cret, ex_st. rewrite E1, E2. reflexivity.
Qed.

Example C57_example_fit : exists st r', ex_fit tab_a = Some (Ok st, r') /\ s_eps st = Fin 7 /\ s_rnd st = 1
  /\ s_wts st = map Fin [1 / 3; 1 / 3; 1 / 3; 0]%R
  /\ honest (exsmc tab_a) exsim /\ never_nan (exsmc tab_a) /\ (forall r, fair (ex_draw r)) /\ standard_uniform (w:=exw) ex_unif.
Proof.
  destruct (ex_initialise tab_a) as [ess I]. destruct (C57_example_round ess) as (st & r' & R1 & R2 & R3 & R4 & R5).
  exists st, r'. splits; auto; [|apply ex_honest|apply ex_never_nan|apply ex_fair|apply ex_uniform].
  unfold smc_fit, cbind at 1. rewrite I by auto. cbn [update]. unfold cbind. rewrite R1. unfold check_termination. rewrite R3. reflexivity.
Qed.

(** A model whose distance can be nan: a whole run, from the prior, that ends with a particle of
    positive weight whose distance is not below the tolerance, and with a tolerance (nan) that is
    not below the one before. *)
Theorem C57_without_nan_refuted : exists simulate lp_isinf normal vadd wstd draw draw_next unif (m : dmodel exw flt) g r st r',
  honest m simulate /\ (forall r, fair (draw r)) /\ standard_uniform unif
  /\ smc_fit simulate lp_isinf (step:=unit) normal vadd wstd draw draw_next unif 1 1 g m None r = Some (Ok st, r')
  /\ fleb (s_eps st) PInf = false
  /\ exists i p x, nth_error (s_pts st) i = Some p /\ nth_error (s_wts st) i = Some x /\ fltb (Fin 0) x = true
     /\ forall d, measured m p d -> fltb d (s_eps st) = false.
Proof.
  destruct (ex_initialise tab_b) as [ess I]. destruct (ex_round_b ess) as (st & r' & R1 & R2 & R3 & R4 & R5).
  exists exsim, (fun _ => false), ex_normal, ex_vadd, ex_wstd, ex_draw, (fun r => r), ex_unif, (exsmc tab_b), ex_cfg, 0, st, r'.
  splits; [apply ex_honest|apply ex_fair|apply ex_uniform| |rewrite R2; reflexivity|].
  - unfold smc_fit, cbind at 1. rewrite I by auto. cbn [update]. unfold cbind. rewrite R1. unfold check_termination. rewrite R3. reflexivity.
  - exists 1, (pt_copy (ex_q tab_b 2)), (Fin (1 / 3)). splits; auto; [rewrite R5; reflexivity|apply fltb_fin; lra|].
    intros d _. rewrite R2. destruct d; reflexivity.
Qed.
Print Assumptions C57_without_nan_refuted.

(** The hypotheses of C57_equal_distances and of C57_nan_takes_over. *)
Definition tab_c (z : Z) : flt := Fin 1.
Example C57_example_findings :
  (forall i p, nth_error (ex_qs tab_c) i = Some p -> measured (exsmc tab_c) p (Fin (0 + 1)))
  /\ (forall ess, ex_round tab_c ess = Some (Err AssertionError, 8))
  /\ (exists i p, nth_error (ex_qs tab_b) i = Some p /\ measured (exsmc tab_b) p NaN)
  /\ (forall i p, nth_error (ex_qs tab_b) i = Some p -> exists d, measured (exsmc tab_b) p d /\ isinf d = false).
Proof.
  assert (M : forall i p, nth_error (ex_qs tab_c) i = Some p -> measured (exsmc tab_c) p (Fin (0 + 1))).
  { intros i p H. destruct (ex_measured _ _ _ H) as [z Hz]. exact Hz. }
  splits; auto.
  - intros ess. apply C57_equal_distances with (x := (0 + 1)%R) (ws := ex_ws); auto; [simpl; lra|discriminate].
  - exists 1, (ex_q tab_b 2). split; auto. eexists. vm_compute. splits; auto.
  - intros i p H. destruct (ex_measured _ _ _ H) as [z Hz]. exists (fadd (Fin 0) (tab_b z)). split; auto.
    unfold tab_b. repeat match goal with |- context[match ?x with _ => _ end] => destruct x end; auto.
Qed.
