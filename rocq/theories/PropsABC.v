(** * Property C56: rejection ABC *)

Require Import Verif.Base Verif.World Verif.ModelGraph Verif.ModelExpr Verif.ModelLoci Verif.ModelBN Verif.ModelSample
        Verif.ModelFitBase Verif.ModelFloat Verif.ModelABC Verif.ProofBase Verif.ProofFloat Verif.PropsResample
        Verif.ExWorld Verif.PropsBN.
Require Import Coq.ZArith.ZArith Lia.
Local Open Scope nat_scope.

Section Specs.
  Context {w : world} (simulate : chrom w -> RNG w -> res (particle w flt) * RNG w).
  Implicit Types (m : dmodel w flt).

  (** One draw from the prior, simulated and measured, each step without an exception. *)
  Definition tried m (r : RNG w) (d : flt) (p : particle w flt) (r' : RNG w) : Prop :=
    exists c r1 p0 r2, sample_prior (dm_bn m) (dm_exo m) r = (Ok c, r1) /\ simulate c r1 = (Ok p0, r2)
      /\ calc_distance (Fin 0) fadd m p0 r2 = (Ok d, p, r').
  (** Several in a row: their distances and the last particle. *)
  Inductive tries m : RNG w -> list flt -> particle w flt -> RNG w -> Prop :=
  | tries_one : forall r d p r', tried m r d p r' -> tries m r [d] p r'
  | tries_more : forall r d p r1 ds q r', tried m r d p r1 -> tries m r1 ds q r' -> tries m r (d :: ds) q r'.
  (** Several such series, one after the other: the distances of each and its last particle. *)
  Inductive series m : RNG w -> list (list flt * particle w flt) -> RNG w -> Prop :=
  | series_nil : forall r, series m r [] r
  | series_cons : forall r ds p r1 l r', tries m r ds p r1 -> series m r1 l r' -> series m r ((ds, p) :: l) r'.
  (** The series stops at the first distance the test does not hold for. *)
  Definition stops_at (test : flt -> bool) (ds : list flt) (d : flt) : Prop :=
    exists ds0, ds = ds0 ++ [d] /\ Forall (fun x => test x = true) ds0 /\ test d = false.

  Lemma calc_distance_note : forall m p r d p' r', calc_distance (Fin 0) fadd m p r = (Ok d, p', r') -> p_distance p' = Some d.
  Proof.
    intros m p r d p' r' H. unfold calc_distance in H. destruct (p_distance p) as [d0|] eqn:E.
    - inversion H; subst. auto.
    - destruct (need_ys m p r) as [[[ys|e] p1] r1]; [|discriminate].
      destruct (total (Fin 0) fadd t_dist (dm_data m) ys) as [x|e]; inversion H; subst. auto.
  Qed.

  Lemma attempt_tried : forall m r d p r', attempt simulate m r = Some (Ok (d, p), r') <-> tried m r d p r'.
  Proof.
    intros m r d p r'. unfold attempt, cbind, clift, distance, tried. split.
    - intros H. destruct (sample_prior (dm_bn m) (dm_exo m) r) as [[c|e] r1]; [|discriminate].
      destruct (simulate c r1) as [[p0|e] r2] eqn:E2; [|discriminate].
      destruct (calc_distance (Fin 0) fadd m p0 r2) as [[[x|e] q] r3] eqn:E3; inversion H; subst.
      exists c, r1, p0, r2. auto.
    - intros (c & r1 & p0 & r2 & E1 & E2 & E3). rewrite E1, E2, E3. auto.
  Qed.

  Lemma seek_spec : forall m test fuel di n sim r d o k r',
    seek fuel (attempt simulate m) test di n sim r = Some (Ok (d, o, k), r') ->
    (test di = false /\ d = di /\ o = sim /\ k = n /\ r' = r)
    \/ (test di = true /\ exists ds p, tries m r ds p r' /\ stops_at test ds d /\ o = Some p /\ k = n + length ds /\ p_distance p = Some d).
  Proof.
    intros m test fuel. induction fuel as [|f IH]; intros di n sim r d o k r' H; simpl in H; destruct (test di) eqn:T.
    - discriminate.
    - inversion H; subst. left. auto 6.
    - unfold cbind in H. destruct (attempt simulate m r) as [[[[x p]|e] r1]|] eqn:A; try discriminate.
      simpl in H. right. split; auto. apply attempt_tried in A.
      destruct (IH _ _ _ _ _ _ _ _ H) as [(E1 & -> & -> & -> & ->)|(E1 & ds & q & S1 & S2 & -> & -> & S3)].
      + exists [x], p. splits; auto; [constructor; auto|exists []; splits; auto|simpl; lia|].
        destruct A as (c & r2 & p0 & r3 & _ & _ & A). apply calc_distance_note in A. auto.
      + exists (x :: ds), q. splits; auto; [econstructor; eauto| |simpl; lia].
        destruct S2 as [ds0 [-> [F1 F2]]]. exists (x :: ds0). splits; auto.
    - inversion H; subst. left. auto 6.
  Qed.

  Lemma seek_complete : forall m test ds p r r' d, tries m r ds p r' -> stops_at test ds d ->
    forall fuel di n sim, test di = true -> length ds <= fuel ->
    seek fuel (attempt simulate m) test di n sim r = Some (Ok (d, Some p, n + length ds), r').
  Proof.
    intros m test ds p r r' d T. induction T as [r x p r' A|r x p r1 ds q r' A T IH]; intros S fuel di n sim Hd L.
    - destruct S as [ds0 [E [F1 F2]]]. destruct ds0 as [|y ds0]; [|destruct ds0; discriminate]. inversion E; subst.
      destruct fuel as [|f]; [simpl in L; lia|]. cbn [seek]. rewrite Hd. unfold cbind. apply attempt_tried in A. rewrite A.
      cbn [fst snd length]. replace (n + 1) with (S n) by lia. destruct f; simpl; rewrite F2; reflexivity.
    - destruct S as [ds0 [E [F1 F2]]]. destruct ds0 as [|y ds0].
      { inversion E; subst. inversion T. }
      inversion E; subst. inversion F1; subst.
      destruct fuel as [|f]; [simpl in L; lia|]. cbn [seek]. rewrite Hd. unfold cbind. apply attempt_tried in A. rewrite A.
      cbn [fst snd]. rewrite (IH (ex_intro _ ds0 (conj eq_refl (conj H2 F2)))); auto; [|simpl in L; lia].
      cbn [length]. rewrite Nat.add_succ_r. reflexivity.
  Qed.

  (** ** sample_ess *)

  Theorem sample_ess_sound : forall m fuel eps r di j n r',
    sample_ess_abc simulate fuel m eps r = Some (Ok (di, j, n), r') ->
    exists ds p, tries m r ds p r' /\ stops_at (fltb eps) ds di /\ n = length ds /\ j = pt_to_json p /\ p_distance p = Some di.
  Proof.
    intros m fuel eps r di j n r' H. unfold sample_ess_abc, cbind in H.
    destruct (seek fuel (attempt simulate m) (fltb eps) PInf 0 None r) as [[[[[d o] k]|e] r1]|] eqn:E; try discriminate.
    destruct (seek_spec _ _ _ _ _ _ _ _ _ _ _ E) as [(E1 & -> & -> & -> & ->)|(E1 & ds & p & S1 & S2 & -> & -> & S3)].
    - discriminate.
    - simpl in H. unfold cret in H. inversion H; subst. exists ds, p. splits; auto.
  Qed.
End Specs.
Arguments tries {w} simulate m r ds p r'.
Arguments series {w} simulate m r l r'.

(** sample_ess returns exactly when some draw from the prior has a distance that is not greater
    than eps: it is the first such draw, its particle carries that distance, and the counter is
    the number of simulations made. *)
Theorem C56_sample_ess : forall w simulate (m : dmodel w flt) fuel eps r di j n r',
  sample_ess_abc simulate fuel m eps r = Some (Ok (di, j, n), r') ->
  exists ds p, tries simulate m r ds p r' /\ stops_at (fltb eps) ds di /\ n = length ds /\ j = pt_to_json p /\ p_distance p = Some di.
Proof. intros. eapply sample_ess_sound; eauto. Qed.
Print Assumptions C56_sample_ess.

Theorem C56_sample_ess_returns : forall w simulate (m : dmodel w flt) fuel e r ds di p r',
  tries simulate m r ds p r' -> stops_at (fltb (Fin e)) ds di -> length ds <= fuel ->
  sample_ess_abc simulate fuel m (Fin e) r = Some (Ok (di, pt_to_json p, length ds), r').
Proof.
  intros w simulate m fuel e r ds di p r' T S L. unfold sample_ess_abc, cbind.
  rewrite (seek_complete simulate m _ ds p r r' di T S fuel); auto.
Qed.
Print Assumptions C56_sample_ess_returns.

(** A distance that is nan ends the loop whatever the tolerance. *)
Theorem C56_nan_accepted : forall w simulate (m : dmodel w flt) fuel e r p r',
  tried simulate m r NaN p r' ->
  sample_ess_abc simulate (S fuel) m (Fin e) r = Some (Ok (NaN, pt_to_json p, 1), r').
Proof.
  intros w simulate m fuel e r p r' T.
  apply (C56_sample_ess_returns w simulate m (S fuel) e r [NaN] NaN p r'); [constructor; auto| |simpl; lia].
  exists []. splits; auto.
Qed.
Print Assumptions C56_nan_accepted.

(** With a tolerance that is inf or nan the loop is not entered and the variable sim is not bound. *)
Theorem C56_bad_tolerance : forall w simulate (m : dmodel w flt) fuel eps r, eps = PInf \/ eps = NaN ->
  sample_ess_abc simulate fuel m eps r = Some (Err UnboundLocalError, r).
Proof. intros w simulate m fuel eps r [-> | ->]; destruct fuel; reflexivity. Qed.
Print Assumptions C56_bad_tolerance.

(** ** initialise *)

Section Init.
  Context {w : world} (simulate : chrom w -> RNG w -> res (particle w flt) * RNG w).
  Implicit Types (m : dmodel w flt).

  Lemma cbind_ok : forall G A B (x : comp G A) (f : A -> comp G B) r b r', cbind x f r = Some (Ok b, r') ->
    exists a r1, x r = Some (Ok a, r1) /\ f a r1 = Some (Ok b, r').
  Proof. intros G A B x f r b r' H. unfold cbind in H. destruct (x r) as [[[a|e] r1]|]; try discriminate. eauto. Qed.

  Lemma nsum_cons : forall x l, nsum (x :: l) = x + nsum l.
  Proof.
    intros x l. unfold nsum. simpl. rewrite <- (Nat.add_0_r x) at 1. generalize 0 as a. revert x.
    induction l as [|y l IH]; intros x a; simpl; [lia|]. rewrite <- Nat.add_assoc, (IH x (a + y)). auto.
  Qed.

  Lemma fin_series : forall m fuel n k r l r',
    cmap (fun _ => sample_fin_abc simulate fuel m) (seq k n) r = Some (Ok l, r') ->
    exists sp, series simulate m r sp r' /\ length sp = n
      /\ Forall2 (fun s x => stops_at isinf (fst s) (fst x) /\ snd x = length (fst s)) sp l.
  Proof.
    intros m fuel n. induction n as [|n IH]; intros k r l r' H; cbn [seq cmap] in H.
    - inversion H; subst. exists []. splits; auto. constructor.
    - apply cbind_ok in H. destruct H as ([d c] & r1 & H1 & H2). apply cbind_ok in H2. destruct H2 as (l' & r2 & H2 & H3).
      inversion H3; subst. destruct (IH _ _ _ _ H2) as (sp & S1 & S2 & S3).
      unfold sample_fin_abc in H1. apply cbind_ok in H1. destruct H1 as ([[d' o] k'] & r3 & H1 & H4). inversion H4; subst.
      destruct (seek_spec simulate _ _ _ _ _ _ _ _ _ _ _ H1) as [(E1 & _)|(E1 & ds & p & T1 & T2 & -> & -> & T3)]; [discriminate|].
      exists ((ds, p) :: sp). splits; simpl; auto; econstructor; simpl; eauto.
  Qed.
End Init.

(** The tolerance is a quantile of the distances of n_test finite test runs, hence between any
    bounds of them; a nan among them makes the tolerance nan. *)
Theorem C56_tolerance : forall w simulate (m : dmodel w flt) fuel n_test p_test r eps r',
  abc_initialise simulate fuel m n_test p_test r = Some (Ok eps, r') ->
  exists sp ds, series simulate m r sp r' /\ length sp = n_test /\ Forall2 (fun s d => stops_at isinf (fst s) d) sp ds
  /\ ((In NaN ds /\ eps = NaN)
      \/ exists xs e, ds = map Fin xs /\ xs <> [] /\ eps = Fin e /\ forall a b, Forall (fun x => (a <= x <= b)%R) xs -> (a <= e <= b)%R).
Proof.
  intros w simulate m fuel n_test p_test r eps r' H. unfold abc_initialise in H.
  apply cbind_ok in H. destruct H as (l & r1 & H1 & H2). apply cbind_ok in H2. destruct H2 as (e & r2 & H2 & H3).
  apply cbind_ok in H3. destruct H3 as (z & r3 & H3 & H4). inversion H4; subst. inversion H2; subst. inversion H3; subst.
  destruct (fin_series simulate _ _ _ _ _ _ _ H1) as (sp & S1 & S2 & S3).
  exists sp, (map fst l). splits; auto.
  { clear -S3. induction S3 as [|x y sp l [K _] _ IH]; simpl; constructor; auto. }
  assert (NI : forall d, In d (map fst l) -> isinf d = false).
  { clear -S3. induction S3 as [|x y sp l [K _] _ IH]; simpl; [intros d []|]. intros d [<-|Hd]; auto.
    destruct K as (ds0 & _ & _ & K). auto. }
  destruct (quantile_cases _ _ _ H0) as (Q & N & [(xs & X1 & X2)|[X1 X2]]).
  - right. exists xs, (quantile_r xs p_test). assert (Nx : xs <> []) by (intros ->; rewrite X1 in N; apply N; auto).
    splits; auto. intros a b F. apply quantile_r_bounds; auto.
  - left. split; auto. clear -NI X1. revert NI X1. generalize (map fst l). induction l0 as [|d ds IH]; intros NI X; [discriminate|].
    simpl in X. destruct d; [|pose proof (NI PInf (or_introl eq_refl)); discriminate|pose proof (NI NInf (or_introl eq_refl)); discriminate|left; auto].
    right. apply IH; [intros d Hd; apply NI; right; auto|]. destruct (ModelResample.as_fin ds); [discriminate|auto].
Qed.
Print Assumptions C56_tolerance.

(** ** sample_posteriors *)

Section Post.
  Context {w : world} (simulate : chrom w -> RNG w -> res (particle w flt) * RNG w).
  Implicit Types (m : dmodel w flt).

  Lemma pt_json_id : forall p : particle w flt, pt_from_json (pt_to_json p) = p.
  Proof. intros [[c l] s x y d k n]. reflexivity. Qed.

  Lemma flatten_distance : forall m (p : particle w flt) r p' r', flatten_c m p r = Some (Ok p', r') ->
    p_distance p' = p_distance p /\ p_pars p' = p_pars p /\ p_sims p' = p_sims p.
  Proof.
    intros m p r p' r' H. unfold flatten_c, flatten in H. destruct (dm_domain m r) as [[dom|e] r1]; [|discriminate].
    destruct (mapM _ dom) as [xs|e]; [|discriminate].
    destruct (ModelFitBase.pick (p_sims p) (dkeys (dm_data m))) as [ys|e]; inversion H; subst. simpl. auto.
  Qed.

  Lemma ess_series : forall m fuel eps n k r l r',
    cmap (fun _ => sample_ess_abc simulate fuel m eps) (seq k n) r = Some (Ok l, r') ->
    exists sp, series simulate m r sp r' /\ length sp = n
      /\ Forall2 (fun s x => stops_at (fltb eps) (fst s) (fst (fst x)) /\ snd x = length (fst s)
                             /\ snd (fst x) = pt_to_json (snd s) /\ p_distance (snd s) = Some (fst (fst x))) sp l.
  Proof.
    intros m fuel eps n. induction n as [|n IH]; intros k r l r' H; cbn [seq cmap] in H.
    - inversion H; subst. exists []. splits; auto. constructor.
    - apply cbind_ok in H. destruct H as ([[d j] c] & r1 & H1 & H2). apply cbind_ok in H2. destruct H2 as (l' & r2 & H2 & H3).
      inversion H3; subst. destruct (IH _ _ _ _ H2) as (sp & S1 & S2 & S3).
      destruct (sample_ess_sound simulate _ _ _ _ _ _ _ _ H1) as (ds & p & T1 & T2 & T3 & T4 & T5).
      exists ((ds, p) :: sp). splits; simpl; auto; econstructor; simpl; eauto.
  Qed.
  Lemma ess_Forall2 : forall eps (sp : list (list flt * particle w flt)) (l : list (flt * jpt w * nat)),
    Forall2 (fun s x => stops_at (fltb eps) (fst s) (fst (fst x)) /\ snd x = length (fst s)
                        /\ snd (fst x) = pt_to_json (snd s) /\ p_distance (snd s) = Some (fst (fst x))) sp l ->
    nsum (map (fun s => snd s) l) = length (concat (map fst sp)).
  Proof.
    intros eps sp l F. induction F as [|x y sp l (K1 & K2 & K3 & K4) F IH]; auto.
    cbn [map]. rewrite nsum_cons, K2, IH. cbn [map concat]. rewrite app_length. auto.
  Qed.

  Lemma flatten_all : forall m eps (l : list (flt * jpt w * nat)) (sp : list (list flt * particle w flt)) r ps r',
    Forall2 (fun s x => stops_at (fltb eps) (fst s) (fst (fst x)) /\ snd x = length (fst s)
                        /\ snd (fst x) = pt_to_json (snd s) /\ p_distance (snd s) = Some (fst (fst x))) sp l ->
    cmap (fun s => flatten_c m (pt_from_json (snd (fst s)))) l r = Some (Ok ps, r') ->
    Forall2 (fun s p => exists d, stops_at (fltb eps) (fst s) d /\ p_distance p = Some d
                        /\ p_pars p = p_pars (snd s) /\ p_sims p = p_sims (snd s)) sp ps.
  Proof.
    intros m eps l sp r ps r' F. revert r ps. induction F as [|s [[d j] c] sp l (K1 & K2 & K3 & K4) F IH]; intros r ps H; cbn [cmap] in H.
    - inversion H; subst. constructor.
    - apply cbind_ok in H. destruct H as (p & r1 & H1 & H2). apply cbind_ok in H2. destruct H2 as (l' & r2 & H2 & H3).
      inversion H3; subst. cbn [fst snd] in *. subst j. rewrite pt_json_id in H1. destruct (flatten_distance _ _ _ _ _ H1) as (E1 & E2 & E3).
      constructor; [|eapply IH; eauto]. exists d. rewrite E1. auto.
  Qed.
End Post.

(** What sample_posteriors returns in parallel mode: n_collect particles, each the last of a
    series of draws from the prior ending at the first distance not greater than eps, carrying
    that distance; the acceptance is n_collect divided by the number of simulations. *)
Theorem C56_posteriors : forall w simulate (m : dmodel w flt) fuel eps n_collect r post acc n_eval r',
  abc_posteriors simulate fuel m true eps n_collect r = Some (Ok (post, acc, n_eval), r') ->
  exists sp r1, series simulate m r sp r1 /\ length post = n_collect
  /\ Forall2 (fun s p => exists d, stops_at (fltb eps) (fst s) d /\ p_distance p = Some d
                         /\ p_pars p = p_pars (snd s) /\ p_sims p = p_sims (snd s)) sp post
  /\ n_eval = length (concat (map fst sp)) /\ n_eval <> 0 /\ acc = (INR n_collect / INR n_eval)%R.
Proof.
  intros w simulate m fuel eps n r post acc n_eval r' H. unfold abc_posteriors in H.
  apply cbind_ok in H. destruct H as (l & r1 & H1 & H2). cbv zeta in H2.
  apply cbind_ok in H2. destruct H2 as (ps & r2 & H2 & H3).
  apply cbind_ok in H3. destruct H3 as (z & r3 & H3 & H4). inversion H4; subst. inversion H3; subst.
  destruct (ess_series simulate _ _ _ _ _ _ _ _ H1) as (sp & S1 & S2 & S3).
  pose proof (fun r' => flatten_all m eps l sp r1 post r' S3) as F0. pose proof (F0 _ H2) as F. clear F0.
  exists sp, r1. assert (L : length post = length sp) by (clear -F; induction F; simpl; auto).
  rewrite (ess_Forall2 eps sp l S3) in *. unfold idiv in H0.
  destruct (Nat.eqb_spec (length (concat (map fst sp))) 0) as [E|E]; inversion H0; subst.
  splits; auto.
Qed.
Print Assumptions C56_posteriors.

(** Without parallel no call with n_collect > 0 ever returns: the collected dictionaries have no
    attribute Pars. *)
Theorem C56_serial_fails : forall w simulate (m : dmodel w flt) fuel eps n_collect r x r',
  abc_posteriors simulate fuel m false eps n_collect r <> Some (Ok x, r').
Proof.
  intros w simulate m fuel eps n r x r' H. unfold abc_posteriors in H.
  apply cbind_ok in H. destruct H as (l & r1 & H1 & H2). cbv zeta in H2.
  apply cbind_ok in H2. destruct H2 as (ps & r2 & H2 & H3).
  destruct l as [|y l]; [|discriminate H2]. simpl in H3. apply cbind_ok in H3. destruct H3 as (z & r3 & H3 & _). discriminate H3.
Qed.
Print Assumptions C56_serial_fails.

(** With the tolerance a nan among the test distances gives, every call with n_collect > 0 raises,
    in both modes. *)
Theorem C56_nan_tolerance : forall w simulate (m : dmodel w flt) fuel parallel n_collect r, 0 < n_collect ->
  abc_posteriors simulate fuel m parallel NaN n_collect r = Some (Err UnboundLocalError, r).
Proof.
  intros w simulate m fuel parallel n_collect r L.
  destruct n_collect as [|n]; [lia|]. unfold abc_posteriors. cbn [seq cmap]. unfold cbind at 1 2.
  rewrite C56_bad_tolerance; auto.
Qed.
Print Assumptions C56_nan_tolerance.

(** ** A concrete case: the distances of successive draws are inf, 3, 1, nan *)

Definition extab (z : Z) : flt :=
  match z with 1%Z => PInf | 3%Z => Fin 3 | 5%Z => Fin 1 | 7%Z => NaN | _ => Fin 2 end.
Definition exdist (ys : dict (V exw)) : res flt :=
  match dget ys "y" with Some (PZ z) => Ok (extab z) | _ => Err KeyError end.
Definition exabc : dmodel exw flt :=
  mkDM [("y", mkTarget (w:=exw) exdist (fun _ => Err AttributeError))] exnet [("a", PZ 1); ("s", PZ 2)] ["x"].
Definition exsim (c : chrom exw) (r : RNG exw) : res (particle exw flt) * RNG exw :=
  (Ok (pt_new c [("y", PZ (Z.of_nat r))]), r).

Definition ex_attempt (r : nat) : option (flt * particle exw flt * nat) :=
  match attempt exsim exabc r with Some (Ok (d, p), r') => Some (d, p, r') | _ => None end.
Definition ex_pt (r : nat) : particle exw flt :=
  match ex_attempt r with Some (d, p, r') => p | None => pt_new (mkChrom (w:=exw) [] LNan) [] end.
Lemma ex_tried : forall r d r', (match ex_attempt r with Some (d, p, r') => Some (d, r') | None => None end) = Some (d, r') ->
  tried exsim exabc r d (ex_pt r) r'.
Proof.
  intros r d r' H. apply attempt_tried. unfold ex_pt, ex_attempt in *.
  destruct (attempt exsim exabc r) as [[[[x p]|e] r1]|]; try discriminate H. inversion H; subst. reflexivity.
Qed.
Lemma ex_tries : tries exsim exabc 0 [PInf; Fin (0 + 3); Fin (0 + 1)] (ex_pt 4) 6.
Proof.
  apply tries_more with (p := ex_pt 0) (r1 := 2); [apply ex_tried; vm_compute; reflexivity|].
  apply tries_more with (p := ex_pt 2) (r1 := 4); [apply ex_tried; vm_compute; reflexivity|].
  apply tries_one. apply ex_tried; vm_compute; reflexivity.
Qed.
Lemma ex_stops : stops_at (fltb (Fin 2)) [PInf; Fin (0 + 3); Fin (0 + 1)] (Fin (0 + 1)).
Proof.
  exists [PInf; Fin (0 + 3)]. splits; auto.
  - repeat constructor. apply rltb_true. lra.
  - apply rltb_false. lra.
Qed.

Example C56_example :
  sample_ess_abc exsim 3 exabc (Fin 2) 0 = Some (Ok (Fin (0 + 1), pt_to_json (ex_pt 4), 3), 6)
  /\ (exists p, tried exsim exabc 6 NaN p 8)
  /\ p_distance (ex_pt 4) = Some (Fin (0 + 1)).
Proof.
  splits.
  - apply (C56_sample_ess_returns exw exsim exabc 3 2 0 _ _ _ _ ex_tries ex_stops). simpl. lia.
  - exists (ex_pt 6). apply ex_tried. vm_compute. reflexivity.
  - vm_compute. reflexivity.
Qed.

Example C56_example_runs :
  (exists post acc r', abc_posteriors exsim 3 exabc true (Fin 2) 1 0 = Some (Ok (post, acc, 3), r'))
  /\ (exists e, abc_initialise exsim 2 exabc 2 (1/2) 0 = Some (Ok (Fin e), 6) /\ (1 <= e <= 3)%R)
  /\ abc_initialise exsim 2 exabc 3 (1/2) 0 = Some (Ok NaN, 8).
Proof.
  assert (Q : forall xs, xs <> [] -> quantile (map Fin xs) (1 / 2) = Ok (Fin (quantile_r xs (1 / 2)))).
  { intros xs N. apply quantile_fin; auto. lra. }
  splits.
  - unfold abc_posteriors. cbn [seq cmap]. unfold cbind at 1 2.
    rewrite (C56_sample_ess_returns exw exsim exabc 3 2 0 _ _ _ _ ex_tries ex_stops) by (simpl; lia).
    cbn [cbind cret cmap map fst snd nsum fold_left length Nat.add]. unfold cbind. cbn [cmap].
    set (o := flatten_c exabc _ _).
    assert (E : match o with Some (Ok _, _) => true | _ => false end = true) by (vm_compute; reflexivity).
    cbn [cret]. unfold cbind. fold o. destruct o as [[[p|e] r']|]; try discriminate E. do 3 eexists. reflexivity.
  - exists (quantile_r [0 + 3; 0 + 1]%R (1 / 2)). split.
    + unfold abc_initialise. set (o := cmap _ (seq 0 2)).
      assert (E : o 0 = Some (Ok [(Fin (0 + 3), 2); (Fin (0 + 1), 1)], 6)) by (vm_compute; reflexivity).
      unfold cbind at 1. rewrite E. cbn [map fst]. change [Fin (0 + 3); Fin (0 + 1)] with (map Fin [0 + 3; 0 + 1]%R).
      rewrite Q by discriminate. reflexivity.
    + apply quantile_r_bounds; [discriminate|lra|]. repeat constructor; lra.
  - unfold abc_initialise. set (o := cmap _ (seq 0 3)).
    assert (E : o 0 = Some (Ok [(Fin (0 + 3), 2); (Fin (0 + 1), 1); (NaN, 1)], 8)) by (vm_compute; reflexivity).
    unfold cbind at 1. rewrite E. cbn [map fst]. rewrite quantile_nan; [reflexivity|lra|simpl; auto].
Qed.
