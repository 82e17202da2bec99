(** * Property C96: the traces that fitters keep *)

Require Import Coq.Reals.Reals.
Require Import Verif.Base Verif.World Verif.ModelMonitor Verif.ModelSample Verif.ModelFitBase Verif.ModelFloat Verif.ModelResample
        Verif.ModelABC Verif.ModelSMC Verif.ModelGA Verif.ModelTrace Verif.ProofBase Verif.ProofFloat Verif.PropsMonitor Verif.PropsABC
        Verif.ProofSMC Verif.ExWorld Verif.PropsSMC Verif.PropsStop Verif.PropsGA.
Require Import Coq.ZArith.ZArith Lia.
Local Open Scope nat_scope.

(** the record [rec] was made at time [t] from the entries [row] and holds nothing else *)
Definition logged {E} (t : Z) (row : dict E) (rec : dict (mval E)) : Prop :=
  dget rec "Time" = Some (MT t) /\ forall k, k <> "Time"%string -> dget rec k = option_map MV (dget row k).

(** records for these entries, one each, at consecutive times from [t] on *)
Inductive rows_from {E} : Z -> list (dict E) -> list (dict (mval E)) -> Prop :=
| rows_nil : forall t, rows_from t [] []
| rows_cons : forall t row rec rows recs, logged t row rec -> rows_from (t + 1) rows recs -> rows_from t (row :: rows) (rec :: recs).

(** what happens in one fit: the states after the start and after each round, and the outcome *)
Inductive loop_run {G S} (j : job G S) : G -> S -> list S -> res S -> G -> Prop :=
| lr_fail : forall r st e r', j_round j st r = Some (Err e, r') -> loop_run j r st [] (Err e) r'
| lr_stop : forall r st st' r', j_round j st r = Some (Ok st', r') -> j_stop j st' = true -> loop_run j r st [st'] (Ok st') r'
| lr_go : forall r st st' r1 l out r', j_round j st r = Some (Ok st', r1) -> j_stop j st' = false ->
    loop_run j r1 st' l out r' -> loop_run j r st (st' :: l) out r'.
Inductive fit_run {G S} (j : job G S) : G -> list S -> res S -> G -> Prop :=
| fr_fail : forall r e r', j_init j r = Some (Err e, r') -> fit_run j r [] (Err e) r'
| fr_run : forall r st r1 l out r', j_init j r = Some (Ok st, r1) -> loop_run j r1 st l out r' -> fit_run j r (st :: l) out r'.

Lemma rows_app : forall E (rows rows' : list (dict E)) t recs recs', rows_from t rows recs ->
  rows_from (t + Z.of_nat (length rows)) rows' recs' -> rows_from t (rows ++ rows') (recs ++ recs').
Proof.
  intros E rows rows' t recs recs' H. revert recs'. induction H as [t|t row rec rows recs L H IH]; intros recs' K; simpl in *.
  - rewrite Z.add_0_r in K. auto.
  - constructor; auto. apply IH. replace (t + 1 + Z.of_nat (length rows))%Z with (t + Z.pos (Pos.of_succ_nat (length rows)))%Z by lia. auto.
Qed.

Lemma rows_nth : forall E t (rows : list (dict E)) recs, rows_from t rows recs -> length recs = length rows
  /\ forall i row, nth_error rows i = Some row -> exists rec, nth_error recs i = Some rec /\ logged (t + Z.of_nat i) row rec.
Proof.
  intros E t rows recs H. induction H as [t|t row rec rows recs L H [I1 I2]]; [split; auto; intros [|i] row H; discriminate|].
  split; [simpl; lia|]. intros [|i] row' K; simpl in K.
  - injection K as <-. exists rec. split; auto. simpl. rewrite Z.add_0_r. auto.
  - destruct (I2 _ _ K) as (rec' & R1 & R2). exists rec'. split; auto. replace (t + Z.of_nat (S i))%Z with (t + 1 + Z.of_nat i)%Z by lia. auto.
Qed.

Section Trace.
  Context {G S E : Type} (row : S -> dict E).
  Context (row_keys : forall st, NoDup (dkeys (row st))).

  Lemma note_ok : forall st (r : G) (mon : monitor E), m_last mon = [] -> exists rec,
    note row st (r, mon) = Some (Ok tt, (r, mkMon (m_records mon ++ [rec]) (m_time mon + 1) [])) /\ logged (m_time mon) (row st) rec.
  Proof.
    intros st r mon L. unfold note. cbn [fst snd]. rewrite C52_next. cbn [mon_keep m_records m_time m_last]. eexists. split; [reflexivity|].
    split; [rewrite dget_dset; auto|]. intros k N. rewrite dget_dset. apply String.eqb_neq in N. rewrite N, L.
    rewrite dget_dupdate_NoDup; [rewrite dget_mv; destruct (dget (row st) k); auto|].
    unfold dkeys. rewrite map_map. apply row_keys.
  Qed.

  Lemma tr_loop_spec : forall fuel (j : job G S) st r mon out r' mon', m_last mon = [] -> tr_loop row fuel j st (r, mon) = Some (out, (r', mon')) ->
    exists sts recs, loop_run j r st sts out r' /\ m_records mon' = m_records mon ++ recs /\ rows_from (m_time mon) (map row sts) recs
      /\ m_time mon' = (m_time mon + Z.of_nat (length sts))%Z /\ m_last mon' = [].
  Proof.
    induction fuel as [|n IH]; intros j st r mon out r' mon' L H; cbn [tr_loop] in H; [discriminate|].
    unfold cbind at 1 in H. unfold beside in H. cbn [fst snd] in H.
    destruct (j_round j st r) as [[[st1|e] r1]|] eqn:R; [| |discriminate].
    - unfold cbind in H. destruct (note_ok st1 r1 mon L) as (rec & N & Lg). rewrite N in H.
      destruct (j_stop j st1) eqn:T.
      + unfold cret in H. injection H as <- <- <-. exists [st1], [rec]. cbn [m_records m_time m_last map length].
        splits; auto; [eapply lr_stop; eauto|constructor; auto; constructor].
      + apply IH in H; auto. destruct H as (sts & recs & H1 & H2 & H3 & H4 & H5). cbn [m_records m_time m_last] in *.
        exists (st1 :: sts), (rec :: recs). cbn [map length]. splits; auto.
        * eapply lr_go; eauto.
        * rewrite H2, <- app_assoc. auto.
        * constructor; auto.
        * lia.
    - injection H as <- <- <-. exists [], []. cbn [map length]. rewrite app_nil_r, Z.add_0_r. splits; auto; [apply lr_fail; auto|constructor].
  Qed.

  Lemma tr_fit_spec : forall fuel (j : job G S) r mon out r' mon', m_last mon = [] -> tr_fit row fuel j (r, mon) = Some (out, (r', mon')) ->
    exists sts recs, fit_run j r sts out r' /\ m_records mon' = m_records mon ++ recs /\ rows_from (m_time mon) (map row sts) recs
      /\ m_time mon' = (m_time mon + Z.of_nat (length sts))%Z /\ m_last mon' = [].
  Proof.
    intros fuel j r mon out r' mon' L H. unfold tr_fit in H. unfold cbind at 1 in H. unfold beside in H. cbn [fst snd] in H.
    destruct (j_init j r) as [[[st|e] r1]|] eqn:R; [| |discriminate].
    - unfold cbind in H. destruct (note_ok st r1 mon L) as (rec & N & Lg). rewrite N in H. apply tr_loop_spec in H; auto.
      destruct H as (sts & recs & H1 & H2 & H3 & H4 & H5). cbn [m_records m_time m_last] in *.
      exists (st :: sts), (rec :: recs). cbn [map length]. splits; auto.
      + eapply fr_run; eauto.
      + rewrite H2, <- app_assoc. auto.
      + constructor; auto.
      + lia.
    - injection H as <- <- <-. exists [], []. cbn [map length]. rewrite app_nil_r, Z.add_0_r. splits; auto; [apply fr_fail; auto|constructor].
  Qed.

  (** the loop without the monitor *)
  Fixpoint plain_loop (fuel : nat) (j : job G S) (st : S) : comp G S :=
    match fuel with
    | O => fun _ => None
    | Datatypes.S n => dc st' <- j_round j st; if j_stop j st' then cret st' else plain_loop n j st'
    end.
  Definition plain_fit (fuel : nat) (j : job G S) : comp G S := dc st <- j_init j; plain_loop fuel j st.
  Definition forget (x : option (res S * (G * monitor E))) : option (res S * G) :=
    match x with Some (out, (r, _)) => Some (out, r) | None => None end.

  Lemma forget_loop : forall fuel j st r mon, m_last mon = [] -> forget (tr_loop row fuel j st (r, mon)) = plain_loop fuel j st r.
  Proof.
    induction fuel as [|n IH]; intros j st r mon L; cbn [tr_loop plain_loop]; auto. unfold cbind at 1 3. unfold beside. cbn [fst snd].
    destruct (j_round j st r) as [[[st1|e] r1]|]; auto. unfold cbind. destruct (note_ok st1 r1 mon L) as (rec & N & Lg). rewrite N.
    destruct (j_stop j st1); auto.
  Qed.
  Lemma forget_fit : forall fuel j r mon, m_last mon = [] -> forget (tr_fit row fuel j (r, mon)) = plain_fit fuel j r.
  Proof.
    intros fuel j r mon L. unfold tr_fit, plain_fit. unfold cbind at 1 3. unfold beside. cbn [fst snd].
    destruct (j_init j r) as [[[st1|e] r1]|]; auto. unfold cbind. destruct (note_ok st1 r1 mon L) as (rec & N & Lg). rewrite N.
    apply forget_loop. auto.
  Qed.
End Trace.

(** A fitter that is used again and again: its records are those of all its fits, one after the
    other, in each fit one for the start and one for each round completed, also when the fit failed;
    the times count all of them. *)
Theorem C96_history : forall G S E (row : S -> dict E), (forall st, NoDup (dkeys (row st))) ->
  forall fuel (js : list (job G S * G)) mon', tr_fits row fuel js mon_new = Some mon' ->
  exists runs, Forall2 (fun jr sts => exists out r', fit_run (fst jr) (snd jr) sts out r') js runs
    /\ rows_from 0 (map row (concat runs)) (m_records mon') /\ m_time mon' = Z.of_nat (length (concat runs)).
Proof.
  intros G S E row RK fuel js mon' H.
  assert (A : forall (js : list (job G S * G)) (mon mon' : monitor E), m_last mon = [] -> tr_fits row fuel js mon = Some mon' ->
    exists runs recs, Forall2 (fun jr sts => exists out r', fit_run (fst jr) (snd jr) sts out r') js runs
    /\ m_records mon' = m_records mon ++ recs /\ rows_from (m_time mon) (map row (concat runs)) recs
    /\ m_time mon' = (m_time mon + Z.of_nat (length (concat runs)))%Z).
  { clear - RK. induction js as [|[j r] js IH]; intros mon mon' L H; cbn [tr_fits] in H.
    - injection H as <-. exists [], []. cbn [concat map length]. rewrite app_nil_r, Z.add_0_r. splits; auto; constructor.
    - destruct (tr_fit row fuel j (r, mon)) as [[out [r' mon1]]|] eqn:T; [|discriminate].
      apply tr_fit_spec in T; auto. destruct T as (sts & recs & T1 & T2 & T3 & T4 & T5).
      destruct (IH _ _ T5 H) as (runs & recs' & I1 & I2 & I3 & I4).
      exists (sts :: runs), (recs ++ recs'). cbn [concat]. splits.
      + constructor; auto. exists out, r'. auto.
      + rewrite I2, T2, app_assoc. auto.
      + rewrite map_app. apply rows_app; auto. rewrite map_length, <- T4. auto.
      + rewrite app_length. lia. }
  destruct (A js mon_new mon' eq_refl H) as (runs & recs & A1 & A2 & A3 & A4). exists runs. cbn [mon_new m_records m_time app] in *.
  rewrite A2. splits; auto.
Qed.
Print Assumptions C96_history.

(** Keeping the trace changes nothing about the fit: the fit of ModelSMC. *)
Theorem C96_same_fit : forall w simulate lp_isinf (step : Type) normal vadd wstd draw draw_next unif rounds fuel g (m : dmodel w flt) pars0 r mon,
  m_last mon = [] ->
  match tr_fit smc_row rounds (smc_job simulate lp_isinf (step:=step) normal vadd wstd draw draw_next unif fuel g m pars0) (r, mon) with
  | Some (out, (r', _)) => smc_fit simulate lp_isinf normal vadd wstd draw draw_next unif rounds fuel g m pars0 r = Some (out, r')
  | None => smc_fit simulate lp_isinf normal vadd wstd draw draw_next unif rounds fuel g m pars0 r = None
  end.
Proof.
  intros w simulate lp_isinf step normal vadd wstd draw draw_next unif rounds fuel g m pars0 r mon L.
  pose (j := smc_job simulate lp_isinf (step:=step) normal vadd wstd draw draw_next unif fuel g m pars0).
  assert (RK : forall st : state w, NoDup (dkeys (smc_row st))) by (intros st; cbn; repeat constructor; simpl; intuition discriminate).
  assert (F : forget (tr_fit smc_row rounds j (r, mon)) = plain_fit rounds j r) by (apply forget_fit; auto).
  assert (U : forall n st r, plain_loop n j st r = update simulate lp_isinf normal vadd wstd draw draw_next unif n fuel g m st r).
  { induction n as [|n IH]; intros st r0; cbn [plain_loop update]; auto. unfold cbind. unfold j at 1. cbn [smc_job j_round].
    destruct (a_round simulate lp_isinf normal vadd wstd draw draw_next unif fuel g m st r0) as [[[st1|e] r1]|]; auto.
    unfold j at 1. cbn [smc_job j_stop]. destruct (check_termination g st1); auto. }
  assert (P : plain_fit rounds j r = smc_fit simulate lp_isinf normal vadd wstd draw draw_next unif rounds fuel g m pars0 r).
  { unfold plain_fit, smc_fit, cbind. unfold j at 1. cbn [smc_job j_init].
    destruct (initialise simulate draw draw_next fuel g m pars0 r) as [[[st1|e] r1]|]; auto. }
  rewrite P in F. fold j. rewrite <- F. destruct (tr_fit smc_row rounds j (r, mon)) as [[out [r' mon']]|]; auto.
Qed.
Print Assumptions C96_same_fit.

Lemma run_numbers : forall G S (j : job G S) (num : S -> nat),
  (forall st r st' r', j_round j st r = Some (Ok st', r') -> num st' = Datatypes.S (num st)) ->
  forall r st l out r', loop_run j r st l out r' -> forall i s, nth_error (st :: l) i = Some s -> num s = num st + i.
Proof.
  intros G S j num N r st l out r' H. induction H as [r st e r' R|r st st' r' R T|r st st' r1 l out r' R T H IH]; intros i s K.
  - destruct i as [|[|i]]; simpl in K; try discriminate. injection K as <-. lia.
  - destruct i as [|[|[|i]]]; simpl in K; try discriminate; injection K as <-; [lia|]. rewrite (N _ _ _ _ R). lia.
  - destruct i as [|i]; simpl in K; [injection K as <-; lia|]. rewrite (IH i s K), (N _ _ _ _ R). lia.
Qed.

Lemma run_last : forall G S (j : job G S) r st l st' r', loop_run j r st l (Ok st') r' -> exists l', l = l' ++ [st'].
Proof.
  intros G S j r st l st' r' H. remember (Ok st') as out eqn:O. induction H as [r st e r' R|r st st1 r' R T|r st st1 r1 l out r' R T H IH].
  - discriminate O.
  - injection O as <-. exists []. auto.
  - destruct (IH O) as [l' ->]. exists (st1 :: l'). auto.
Qed.

Lemma run_pairs : forall G S (j : job G S) (P : S -> S -> Prop),
  (forall st r st' r', j_round j st r = Some (Ok st', r') -> P st st') ->
  forall r st l out r', loop_run j r st l out r' -> forall i a b, nth_error (st :: l) i = Some a -> nth_error (st :: l) (Datatypes.S i) = Some b -> P a b.
Proof.
  intros G S j P N r st l out r' H. induction H as [r st e r' R|r st st' r' R T|r st st' r1 l out r' R T H IH]; intros i a b A B.
  - destruct i; discriminate B.
  - destruct i as [|[|i]]; simpl in B; try discriminate. simpl in A. injection A as <-. injection B as <-. eauto.
  - destruct i as [|i]; [simpl in A, B; injection A as <-; injection B as <-; eauto|]. apply (IH i); auto.
Qed.

(** the rows of the frame Trajectories *)
Lemma frame_rows : forall E (mon : monitor E) rows, rows_from 0 rows (m_records mon) -> rows <> [] ->
  exists tr, trajectories mon = Ok tr /\ length tr = length rows
    /\ forall i row, nth_error rows i = Some row -> exists d, nth_error tr i = Some (Some (MT (Z.of_nat i)), d)
         /\ dget d "Time" = None /\ forall k, k <> "Time"%string -> dget d k = option_map MV (dget row k).
Proof.
  intros E mon rows H N. destruct (rows_nth _ _ _ _ H) as [L R]. unfold trajectories.
  destruct (m_records mon) as [|x xs] eqn:M; [destruct rows; [congruence|discriminate L]|]. rewrite <- M in *.
  eexists. split; [reflexivity|]. rewrite map_length. split; auto. intros i row K. destruct (R _ _ K) as (rec & R1 & R2 & R3).
  exists (ddel rec "Time"). rewrite nth_error_map, R1. cbn [option_map]. rewrite R2. splits; auto.
  - rewrite dget_ddel. auto.
  - intros k Hk. rewrite dget_ddel. apply String.eqb_neq in Hk as Hk'. rewrite Hk'. auto.
Qed.

(** The first fit of a fitter: the trace has one row for the start and one for each round,
    numbered from 0 on; the last row is the final state; the tolerance never rises; and the
    tolerance noted beside the trace is that of the last row.
    Missing: a fitter that was used before (C96_reuse_refuted). *)
Theorem C96_smc_partial : forall w simulate lp_isinf (step : Type) normal vadd wstd draw draw_next unif rounds fuel g (m : dmodel w flt) pars0 r st r' mon',
  tr_fit smc_row rounds (smc_job simulate lp_isinf (step:=step) normal vadd wstd draw draw_next unif fuel g m pars0) (r, mon_new) = Some (Ok st, (r', mon')) ->
  exists tr, smc_notes st mon' = Ok (tr, s_eps st) /\ length tr = S (s_rnd st)
  /\ (forall i t d, nth_error tr i = Some (t, d) -> t = Some (MT (Z.of_nat i)) /\ dget d "Round" = Some (MV (TN i)))
  /\ (exists t d, nth_error tr (s_rnd st) = Some (t, d) /\ dget d "Eps" = Some (MV (TF (s_eps st)))
        /\ dget d "ESS" = Some (MV (TF (s_ess st))) /\ dget d "Acc" = Some (MV (TR (s_acc st))))
  /\ (exists t d, nth_error tr 0 = Some (t, d) /\ dget d "Eps" = Some (MV (TF PInf)))
  /\ forall i t d t' d', nth_error tr i = Some (t, d) -> nth_error tr (S i) = Some (t', d') ->
       exists e e', dget d "Eps" = Some (MV (TF e)) /\ dget d' "Eps" = Some (MV (TF e')) /\ fltb e e' = false.
Proof.
  intros w simulate lp_isinf step normal vadd wstd draw draw_next unif rounds fuel g m pars0 r st r' mon' H.
  set (j := smc_job simulate lp_isinf (step:=step) normal vadd wstd draw draw_next unif fuel g m pars0) in *.
  assert (RK : forall st : state w, NoDup (dkeys (smc_row st))) by (intros s; cbn; repeat constructor; simpl; intuition discriminate).
  apply tr_fit_spec in H; auto. destruct H as (sts & recs & F & M & R & _ & _). cbn [mon_new m_records m_time app] in M, R. rewrite <- M in R.
  inversion F as [|? st0 r1 l out r2 I L]; subst. clear F.
  assert (I0 : s_rnd st0 = 0 /\ s_eps st0 = PInf).
  { unfold j in I. cbn [smc_job j_init] in I. unfold initialise in I. cbv zeta in I. apply cbind_ok in I. destruct I as (ss & r3 & _ & I).
    apply cbind_ok in I. destruct I as (e & r4 & _ & I). unfold cret in I. injection I as <- <-. auto. }
  destruct I0 as [I0 I1].
  destruct (frame_rows _ _ _ R) as (tr & T & Len & Row); [discriminate|].
  assert (Num : forall i s, nth_error (st0 :: l) i = Some s -> s_rnd s = i).
  { intros i s K. erewrite run_numbers with (num := s_rnd); eauto; [rewrite I0; auto|]. intros a b c d Q. eapply round_count. exact Q. }
  destruct (run_last _ _ _ _ _ _ _ _ L) as [l' ->].
  assert (Last : nth_error (st0 :: l' ++ [st]) (S (length l')) = Some st) by (simpl; rewrite nth_error_app2, Nat.sub_diag; auto).
  pose proof (Num _ _ Last) as NS.
  assert (Get : forall i s, nth_error (st0 :: l' ++ [st]) i = Some s -> exists d, nth_error tr i = Some (Some (MT (Z.of_nat i)), d)
     /\ dget d "Round" = Some (MV (TN (s_rnd s))) /\ dget d "Eps" = Some (MV (TF (s_eps s))) /\ dget d "ESS" = Some (MV (TF (s_ess s)))
     /\ dget d "Acc" = Some (MV (TR (s_acc s)))).
  { intros i s K. destruct (Row i (smc_row s)) as (d & D1 & _ & D2); [rewrite nth_error_map, K; auto|]. exists d. split; auto.
    splits; rewrite D2 by discriminate; reflexivity. }
  assert (Some_ : forall i x, nth_error tr i = Some x -> exists s, nth_error (st0 :: l' ++ [st]) i = Some s).
  { intros i x K. assert (B : i < length tr) by (apply nth_error_Some; congruence). rewrite Len, map_length in B.
    apply nth_error_Some in B. destruct (nth_error (st0 :: l' ++ [st]) i) as [s|]; [eauto|congruence]. }
  exists tr. splits.
  - unfold smc_notes. rewrite T. reflexivity.
  - rewrite Len, NS. rewrite map_length. simpl. rewrite app_length. simpl. lia.
  - intros i t d K. destruct (Some_ _ _ K) as [s Ks]. destruct (Get _ _ Ks) as (d' & G1 & G2 & _). rewrite G1 in K. injection K as <- <-.
    rewrite (Num _ _ Ks) in G2. auto.
  - rewrite NS. destruct (Get _ _ Last) as (d & G1 & G2 & G3 & G4 & G5). eexists _, d. splits; eauto.
  - destruct (Get 0 st0 eq_refl) as (d & G1 & _ & G3 & _). rewrite I1 in G3. eexists _, d. splits; eauto.
  - intros i t d t' d' K K'. destruct (Some_ _ _ K) as [a Ka]. destruct (Some_ _ _ K') as [b Kb].
    destruct (Get _ _ Ka) as (da & A1 & _ & A3 & _). destruct (Get _ _ Kb) as (db & B1 & _ & B3 & _).
    rewrite A1 in K. rewrite B1 in K'. injection K as <- <-. injection K' as <- <-. exists (s_eps a), (s_eps b). splits; auto.
    eapply (run_pairs _ _ j (fun a b => fltb (s_eps a) (s_eps b) = false)); [|exact L|exact Ka|exact Kb].
    intros s1 r1' s2 r2' Q. apply round_eps in Q. destruct Q as [(_ & Q & _)|[_ Q]].
    + rewrite Q. destruct (s_eps s1); auto. simpl. apply rltb_false. lra.
    + destruct (s_eps s1), (s_eps s2); simpl in *; auto; try discriminate. apply rleb_false in Q. apply rltb_false. lra.
Qed.
Print Assumptions C96_smc_partial.

(** The same for the genetic algorithm (its first fit, and the record of it that collect keeps).
    Missing: as above. *)
Theorem C96_ga_partial : forall G I loc loglik logpost clone domain rnd random normal binomial choice choice_p norm_wts draw serve fuel g sc (r : G) (st : gstate (I:=I)) r' mon',
  tr_fit ga_row fuel (ga_job loc loglik logpost clone domain rnd random normal binomial choice choice_p norm_wts draw serve g sc) (r, mon_new) = Some (Ok st, (r', mon')) ->
  exists tr, trajectories mon' = Ok tr /\ length tr = S (ga_gen st)
  /\ (forall i t d, nth_error tr i = Some (t, d) -> t = Some (MT (Z.of_nat i)) /\ dget d "Round" = Some (MV (TN i)))
  /\ exists t d, nth_error tr (ga_gen st) = Some (t, d) /\ dget d "MaxFitness" = Some (MV (TF (ga_max st))) /\ dget d "Stay" = Some (MV (TN (ga_stay st))).
Proof.
  intros G I loc loglik logpost clone domain rnd random normal binomial choice choice_p norm_wts draw serve fuel g sc r st r' mon' H.
  set (j := ga_job loc loglik logpost clone domain rnd random normal binomial choice choice_p norm_wts draw serve g sc) in *.
  assert (RK : forall st : gstate (I:=I), NoDup (dkeys (ga_row st))) by (intros s; cbn; repeat constructor; simpl; intuition discriminate).
  apply tr_fit_spec in H; auto. destruct H as (sts & recs & F & M & R & _ & _). cbn [mon_new m_records m_time app] in M, R. rewrite <- M in R.
  inversion F as [|? st0 r1 l out r2 J L]; subst. clear F.
  assert (I0 : ga_gen st0 = 0).
  { unfold j in J. cbn [ga_job j_init] in J. unfold ga_initialise in J. apply cbind_ok in J. destruct J as (ps & r3 & _ & J).
    unfold cres in J. injection J as J _. unfold elitism in J. apply bind_ok in J. destruct J as (b & _ & J). cbv zeta in J. injection J as <-. reflexivity. }
  destruct (frame_rows _ _ _ R) as (tr & T & Len & Row); [discriminate|].
  assert (Num : forall i s, nth_error (st0 :: l) i = Some s -> ga_gen s = i).
  { intros i s K. erewrite run_numbers with (num := ga_gen (I:=I)); eauto; [rewrite I0; auto|]. intros a b c d Q. eapply generation_count. exact Q. }
  destruct (run_last _ _ _ _ _ _ _ _ L) as [l' ->].
  assert (Last : nth_error (st0 :: l' ++ [st]) (S (length l')) = Some st) by (simpl; rewrite nth_error_app2, Nat.sub_diag; auto).
  pose proof (Num _ _ Last) as NS.
  exists tr. splits; auto.
  - rewrite Len, NS. rewrite map_length. simpl. rewrite app_length. simpl. lia.
  - intros i t d K. assert (B : i < length tr) by (apply nth_error_Some; congruence). rewrite Len, map_length in B.
    apply nth_error_Some in B. destruct (nth_error (st0 :: l' ++ [st]) i) as [s|] eqn:Ks; [|congruence].
    destruct (Row i (ga_row s)) as (d' & D1 & _ & D2); [rewrite nth_error_map, Ks; auto|]. rewrite D1 in K. injection K as <- <-.
    split; auto. rewrite D2 by discriminate. cbn. rewrite (Num _ _ Ks). auto.
  - rewrite NS. destruct (Row (S (length l')) (ga_row st)) as (d' & D1 & _ & D2); [rewrite nth_error_map, Last; auto|].
    eexists _, d'. split; [exact D1|]. split; rewrite D2 by discriminate; reflexivity.
Qed.
Print Assumptions C96_ga_partial.

Notation ex_job tab := (smc_job exsim (fun _ => false) (step:=unit) ex_normal ex_vadd ex_wstd ex_draw (fun r => r) ex_unif 1 ex_cfg (exsmc tab) None).

Lemma ex_traced : forall mon, m_last mon = [] -> exists st r' mon', tr_fit smc_row 1 (ex_job tab_a) (0, mon) = Some (Ok st, (r', mon')) /\ s_rnd st = 1 /\ s_eps st = Fin 7.
Proof.
  intros mon L. destruct C57_example_fit as (st & r' & F & E & R & _).
  pose proof (C96_same_fit exw exsim (fun _ => false) unit ex_normal ex_vadd ex_wstd ex_draw (fun r => r) ex_unif 1 1 ex_cfg (exsmc tab_a) None 0 mon L) as H.
  rewrite F in H. revert H. match goal with |- context[tr_fit ?a ?b ?c ?d] => destruct (tr_fit a b c d) as [[out [r1 mon']]|] eqn:T end; intros H; [|discriminate H].
  injection H as <- <-. exists st, r', mon'. split; [exact T|auto].
Qed.

(** The first fit: two rows, the tolerances are inf and 7. *)
Example C96_example_smc : exists st r' mon' tr, tr_fit smc_row 1 (ex_job tab_a) (0, mon_new) = Some (Ok st, (r', mon'))
  /\ smc_notes st mon' = Ok (tr, Fin 7) /\ length tr = 2
  /\ (exists t d, nth_error tr 0 = Some (t, d) /\ dget d "Eps" = Some (MV (TF PInf)))
  /\ exists t d, nth_error tr 1 = Some (t, d) /\ dget d "Eps" = Some (MV (TF (Fin 7))).
Proof.
  destruct (ex_traced mon_new eq_refl) as (st & r' & mon' & F & R & E).
  destruct (C96_smc_partial _ _ _ _ _ _ _ _ _ _ _ _ _ _ _ _ _ _ _ F) as (tr & T1 & T2 & T3 & (t & d & T4 & T5 & _) & T6 & _).
  exists st, r', mon', tr. rewrite R in *. rewrite E in *. splits; auto. exists t, d. auto.
Qed.

(** Reused fitter, the same call of fit twice: the trace noted with the second result has four rows
    for one round; in it the tolerance rises from 7 to infinity. *)
Theorem C96_reuse_refuted : exists (m : dmodel exw flt) simulate lp_isinf normal vadd wstd draw draw_next unif g st1 r1 mon1 st2 r2 mon2 tr,
  let j := smc_job simulate lp_isinf (step:=unit) normal vadd wstd draw draw_next unif 1 g m None in
  tr_fit smc_row 1 j (0, mon_new) = Some (Ok st1, (r1, mon1)) /\ tr_fit smc_row 1 j (0, mon1) = Some (Ok st2, (r2, mon2))
  /\ smc_notes st2 mon2 = Ok (tr, s_eps st2) /\ s_rnd st2 = 1 /\ length tr = 4
  /\ (exists t d, nth_error tr 1 = Some (t, d) /\ dget d "Round" = Some (MV (TN 1)) /\ dget d "Eps" = Some (MV (TF (Fin 7))))
  /\ exists t d, nth_error tr 2 = Some (t, d) /\ dget d "Round" = Some (MV (TN 0)) /\ dget d "Eps" = Some (MV (TF PInf)).
Proof.
  assert (RK : forall st : state exw, NoDup (dkeys (smc_row st))) by (intros s; cbn; repeat constructor; simpl; intuition discriminate).
  destruct (ex_traced mon_new eq_refl) as (st1 & r1 & mon1 & F1 & R1 & E1).
  pose proof F1 as K1. apply (tr_fit_spec smc_row RK) in K1; [|reflexivity]. destruct K1 as (sts1 & recs1 & A1 & A2 & A3 & A4 & A5).
  destruct (ex_traced mon1 A5) as (st2 & r2 & mon2 & F2 & R2 & E2).
  pose proof F2 as K2. apply (tr_fit_spec smc_row RK) in K2; [|exact A5]. destruct K2 as (sts2 & recs2 & B1 & B2 & B3 & B4 & B5).
  cbn [mon_new m_records m_time app] in A2, A3, A4. rewrite <- A2 in A3.
  assert (I0 : forall st r r', j_init (ex_job tab_a) r = Some (Ok st, r') -> s_rnd st = 0 /\ s_eps st = PInf).
  { intros st r r' I. cbn [smc_job j_init] in I. unfold initialise in I. cbv zeta in I. apply cbind_ok in I. destruct I as (ss & r3 & _ & I).
    apply cbind_ok in I. destruct I as (e & r4 & _ & I). unfold cret in I. injection I as <- <-. auto. }
  assert (Two : forall r sts st r', fit_run (ex_job tab_a) r sts (Ok st) r' -> s_rnd st = 1 -> exists st0, sts = [st0; st] /\ s_rnd st0 = 0 /\ s_eps st0 = PInf).
  { intros r sts st r' F Q. inversion F as [|? st0 r3 l out r4 I L]; subst. exists st0. destruct (I0 _ _ _ I) as [Z0 Z1]. split; [|split; auto].
    destruct (run_last _ _ _ _ _ _ _ _ L) as [l' ->].
    assert (N : s_rnd st = s_rnd st0 + S (length l')).
    { eapply (run_numbers _ _ _ s_rnd); [|exact L|simpl; rewrite nth_error_app2, Nat.sub_diag; auto]. intros a b c d K. eapply round_count. exact K. }
    rewrite Z0, Q in N. destruct l'; [auto|simpl in N; discriminate N]. }
  destruct (Two _ _ _ _ A1 R1) as (a0 & -> & Q1 & Q2). destruct (Two _ _ _ _ B1 R2) as (b0 & -> & Q3 & Q4).
  cbn [map length] in *. rewrite A4 in B3.
  assert (All : rows_from 0 (map smc_row [a0; st1; b0; st2]) (m_records mon2)).
  { rewrite B2. change (map smc_row [a0; st1; b0; st2]) with (map smc_row [a0; st1] ++ map smc_row [b0; st2]). apply rows_app; auto. }
  destruct (frame_rows _ _ _ All) as (tr & T & Len & Row); [discriminate|].
  do 10 eexists. exists st1, r1, mon1, st2, r2, mon2, tr. cbv zeta. split; [exact F1|]. split; [exact F2|].
  split; [unfold smc_notes; rewrite T; reflexivity|]. split; [exact R2|]. split; [exact Len|]. split.
  - destruct (Row 1 (smc_row st1) eq_refl) as (d & D1 & _ & D2). eexists _, d. split; [exact D1|]. split; rewrite D2 by discriminate; cbn; congruence.
  - destruct (Row 2 (smc_row b0) eq_refl) as (d & D1 & _ & D2). eexists _, d. split; [exact D1|]. split; rewrite D2 by discriminate; cbn; congruence.
Qed.
Print Assumptions C96_reuse_refuted.

(** The genetic algorithm, one generation. *)
Definition exg_draw (r : nat) : res ind * nat := match r with 0 => (Ok one, 1) | _ => (Ok two, 0) end.
Notation exg_job := (ga_job fst snd snd (fun x : ind => x) exg_dom exg_rnd exg_random exg_normal exg_bin exg_choice exg_choice_p (fun l => l) exg_draw exg_serve exg_cfg0 []).
Example C96_example_ga : exists st mon' tr, tr_fit ga_row 1 exg_job (0, mon_new) = Some (Ok st, (0, mon'))
  /\ trajectories mon' = Ok tr /\ length tr = 2
  /\ exists t d, nth_error tr 1 = Some (t, d) /\ dget d "Round" = Some (MV (TN 1)) /\ dget d "MaxFitness" = Some (MV (TF (Fin 3))).
Proof.
  destruct exg_generation as (s & E).
  assert (I : j_init exg_job 0 = Some (Ok exg_st, 0)).
  { cbn. unfold elitism. cbn. destruct (rltb 3 4) eqn:L; [reflexivity|apply rltb_false in L; lra]. }
  assert (RK : forall st : gstate (I:=ind), NoDup (dkeys (ga_row st))) by (intros x; cbn; repeat constructor; simpl; intuition discriminate).
  assert (F : forget (tr_fit ga_row 1 exg_job (0, mon_new)) = Some (Ok (mkGa [one; one] s 1 1 (Fin 3) (Some one)), 0)).
  { rewrite forget_fit; auto. unfold plain_fit, cbind at 1. rewrite I. cbn [plain_loop]. unfold cbind. change (j_round exg_job) with (exg_gen exg_cfg0). rewrite E. reflexivity. }
  destruct (tr_fit ga_row 1 exg_job (0, mon_new)) as [[out [r' mon']]|] eqn:T; [|discriminate F]. injection F as -> ->.
  destruct (C96_ga_partial _ _ _ _ _ _ _ _ _ _ _ _ _ _ _ _ _ _ _ _ _ _ _ T) as (tr & T1 & T2 & T3 & t & d & T4 & T5 & _).
  eexists _, mon', tr. split; [reflexivity|]. split; [exact T1|]. split; [exact T2|]. exists t, d. split; [exact T4|]. split; auto.
  apply T3 in T4. apply T4.
Qed.

Theorem C96_same_ga : forall G I loc loglik logpost clone domain rnd random normal binomial choice choice_p norm_wts draw serve fuel g sc (r : G) mon,
  m_last mon = [] ->
  match tr_fit (ga_row (I:=I)) fuel (ga_job loc loglik logpost clone domain rnd random normal binomial choice choice_p norm_wts draw serve g sc) (r, mon) with
  | Some (out, (r', _)) => cbind (ga_initialise loglik logpost draw g sc) (fun st => ga_update loc loglik logpost clone domain rnd random normal binomial choice choice_p norm_wts serve fuel g st) r = Some (out, r')
  | None => cbind (ga_initialise loglik logpost draw g sc) (fun st => ga_update loc loglik logpost clone domain rnd random normal binomial choice choice_p norm_wts serve fuel g st) r = None
  end.
Proof.
  intros G I loc loglik logpost clone domain rnd random normal binomial choice choice_p norm_wts draw serve fuel g sc r mon L.
  set (j := ga_job loc loglik logpost clone domain rnd random normal binomial choice choice_p norm_wts draw serve g sc).
  assert (RK : forall st : gstate (I:=I), NoDup (dkeys (ga_row st))) by (intros s; cbn; repeat constructor; simpl; intuition discriminate).
  assert (F : forget (tr_fit ga_row fuel j (r, mon)) = plain_fit fuel j r) by (apply forget_fit; auto).
  assert (U : forall n st r, plain_loop n j st r = ga_update loc loglik logpost clone domain rnd random normal binomial choice choice_p norm_wts serve n g st r).
  { induction n as [|n IH]; intros st r0; cbn [plain_loop ga_update]; auto. unfold cbind. change (j_round j) with (generation loc loglik logpost clone domain rnd random normal binomial choice choice_p norm_wts serve g).
    destruct (generation loc loglik logpost clone domain rnd random normal binomial choice choice_p norm_wts serve g st r0) as [[[st1|e] r1]|]; auto.
    change (j_stop j st1) with (finished g st1). destruct (finished g st1); auto. }
  unfold plain_fit, cbind in F. unfold cbind. change (j_init j) with (ga_initialise loglik logpost draw g sc) in F.
  destruct (ga_initialise loglik logpost draw g sc r) as [[[st1|e] r1]|]; try rewrite U in F; rewrite <- F;
    destruct (tr_fit ga_row fuel j (r, mon)) as [[out [r' mon']]|]; auto.
Qed.
Print Assumptions C96_same_ga.

(** Two fits of a fitter; the first fails in its third round, after three records. *)
Example C96_example_history :
  let row (n : nat) : dict nat := [("Round", n)] in
  let j (bad stop : nat) := mkJob (G:=unit) (cret 0) (fun n => if Nat.eqb n bad then cfail ValueError else cret (S n)) (fun n => Nat.eqb n stop) in
  (forall n, NoDup (dkeys (row n)))
  /\ exists mon', tr_fits row 9 [(j 2 5, tt); (j 9 1, tt)] mon_new = Some mon'
  /\ map (fun d => dget d "Round") (m_records mon') = map (fun n => Some (MV n)) [0; 1; 2; 0; 1] /\ m_time mon' = 5%Z.
Proof.
  cbv zeta. split; [intros n; repeat constructor; simpl; tauto|]. eexists. split; [vm_compute; reflexivity|]. split; vm_compute; reflexivity.
Qed.
