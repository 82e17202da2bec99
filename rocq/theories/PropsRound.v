(** * Property C97: when a round of ABC-SMC fails *)

Require Import Coq.Reals.Reals.
Require Import Verif.Base Verif.World Verif.ModelGraph Verif.ModelExpr Verif.ModelLoci Verif.ModelBN Verif.ModelSample
        Verif.ModelFitBase Verif.ModelFloat Verif.ModelResample Verif.ModelABC Verif.ModelSMC
        Verif.ProofBase Verif.ProofFloat Verif.PropsResample Verif.PropsABC Verif.ProofSMC Verif.ExWorld Verif.PropsSMC.
Require Import Coq.ZArith.ZArith Lia Permutation Sorted Lra.
Local Open Scope nat_scope.

(** ** How many numbers lie strictly below a quantile of them *)

Definition below (v : R) (l : list R) : nat := length (filter (fun x => rltb x v) l).

Lemma rins_perm : forall x l, Permutation (rins x l) (x :: l).
Proof.
  intros x l. induction l as [|y l IH]; simpl; auto. destruct (rleb x y); auto.
  eapply perm_trans; [apply perm_skip, IH|]. apply perm_swap.
Qed.
Lemma rsort_perm : forall l, Permutation (rsort l) l.
Proof. induction l as [|x l IH]; simpl; auto. eapply perm_trans; [apply rins_perm|]. auto. Qed.
Lemma rins_sorted : forall x l, StronglySorted Rle l -> StronglySorted Rle (rins x l).
Proof.
  intros x l S. induction S as [|y l S IH F]; simpl; [repeat constructor|]. destruct (rleb x y) eqn:E.
  - apply rleb_true in E. constructor; [constructor; auto|]. constructor; auto. eapply Forall_impl; [|exact F]. intros a Ha; simpl in Ha; lra.
  - apply rleb_false in E. constructor; auto. apply rins_Forall; auto. lra.
Qed.
Lemma rsort_sorted : forall l, StronglySorted Rle (rsort l).
Proof. induction l as [|x l IH]; simpl; [constructor|]. apply rins_sorted; auto. Qed.
Lemma sorted_nth : forall l, StronglySorted Rle l -> forall i j, i <= j -> j < length l -> (nth i l 0 <= nth j l 0)%R.
Proof.
  intros l S. induction S as [|x l S IH F]; intros i j H L; [simpl in L; lia|]. destruct i as [|i], j as [|j]; simpl in *; try lia; try lra.
  - rewrite Forall_forall in F. apply F. apply nth_In. lia.
  - apply IH; lia.
Qed.

Lemma below_perm : forall v l l', Permutation l l' -> below v l = below v l'.
Proof.
  intros v l l' P. unfold below. induction P; simpl; auto; try congruence.
  - destruct (rltb x v); simpl; auto.
  - destruct (rltb x v), (rltb y v); simpl; auto.
Qed.
Lemma below_le : forall v l k, (forall j, k <= j -> j < length l -> (v <= nth j l 0)%R) -> below v l <= k.
Proof.
  intros v l. unfold below. induction l as [|x l IH]; intros k H; [simpl; lia|]. cbn [filter]. destruct k as [|k].
  - pose proof (H 0) as H0. simpl in H0. assert (E : rltb x v = false) by (apply rltb_false; apply H0; lia). rewrite E.
    apply IH. intros j J L. apply (H (S j)); simpl; lia.
  - assert (A : length (filter (fun x0 => rltb x0 v) l) <= k) by (apply IH; intros j J L; apply (H (S j)); simpl; lia).
    destruct (rltb x v); simpl; lia.
Qed.
Lemma below_ge : forall v l k, k <= length l -> (forall j, j < k -> (nth j l 0 < v)%R) -> k <= below v l.
Proof.
  intros v l. unfold below. induction l as [|x l IH]; intros k L H; [simpl in *; lia|]. cbn [filter]. destruct k as [|k]; [lia|].
  pose proof (H 0) as H0. simpl in H0. assert (E : rltb x v = true) by (apply rltb_true; apply H0; lia). rewrite E. simpl. apply le_n_S.
  apply IH; [simpl in L; lia|]. intros j J. apply (H (S j)); lia.
Qed.

(** h = q (n - 1) is the position of the quantile. *)
Lemma quantile_below : forall l q, l <> [] -> (0 <= q <= 1)%R ->
  (INR (below (quantile_r l q) l) < q * INR (length l - 1) + 1)%R
  /\ (NoDup l -> (q * INR (length l - 1) <= INR (below (quantile_r l q) l))%R).
Proof.
  intros l q N Q. unfold quantile_r.
  set (h := (q * INR (length l - 1))%R). set (i := Z.to_nat (Int_part h)).
  assert (L1 : 1 <= length l) by (destruct l; [congruence|simpl; lia]).
  assert (H0 : (0 <= h)%R) by (unfold h; apply Rmult_le_pos; [lra|apply pos_INR]).
  pose proof (Int_part_bounds h H0) as B. fold i in B.
  assert (Hh : (h <= INR (length l - 1))%R).
  { unfold h. rewrite <- (Rmult_1_l (INR (length l - 1))) at 2. apply Rmult_le_compat_r; [apply pos_INR|lra]. }
  assert (Li : i <= length l - 1) by (apply INR_le; lra).
  pose proof (rsort_sorted l) as S. pose proof (rsort_perm l) as P. pose proof (rsort_length l) as RL.
  set (s := rsort l) in *. set (lo := nth i s 0%R). set (hi := nth (Nat.min (Datatypes.S i) (length l - 1)) s 0%R).
  assert (LH : (lo <= hi)%R) by (apply sorted_nth; auto; lia).
  set (t := (h - INR i)%R) in *. set (v := (lo + t * (hi - lo))%R).
  assert (V : (lo <= v <= hi)%R).
  { unfold v. assert (0 <= t * (hi - lo))%R by (apply Rmult_le_pos; lra).
    assert (t * (hi - lo) <= 1 * (hi - lo))%R by (apply Rmult_le_compat_r; lra). lra. }
  rewrite <- (below_perm v s l P). split.
  - destruct (Req_EM_T t 0) as [T|T].
    + assert (v = lo) by (unfold v; rewrite T; ring). assert (Bl : below v s <= i).
      { apply below_le. intros j J Lj. rewrite H. unfold lo. apply sorted_nth; auto. }
      apply le_INR in Bl. unfold t in T. lra.
    + assert (Bl : below v s <= Datatypes.S i).
      { apply below_le. intros j J Lj. eapply Rle_trans; [apply V|]. unfold hi. apply sorted_nth; auto; lia. }
      apply le_INR in Bl. rewrite S_INR in Bl. unfold t in T, B. lra.
  - intros ND. assert (NS : NoDup s) by (eapply Permutation_NoDup; [apply Permutation_sym; exact P|auto]).
    assert (ST : forall a b, a < b -> b < length s -> (nth a s 0 < nth b s 0)%R).
    { intros a b A1 A2. destruct (sorted_nth s S a b) as [|E]; auto; try lia. exfalso.
      assert (a = b) by (apply (proj1 (NoDup_nth s 0%R) NS); auto; lia). lia. }
    destruct (Req_EM_T t 0) as [T|T].
    + assert (v = lo) by (unfold v; rewrite T; ring). assert (Bl : i <= below v s).
      { apply below_ge; [lia|]. intros j J. rewrite H. apply ST; lia. }
      apply le_INR in Bl. unfold t in T. lra.
    + assert (Li2 : Datatypes.S i <= length l - 1).
      { assert (INR i < INR (length l - 1))%R by (unfold t in T, B; lra). apply INR_lt in H. lia. }
      assert (Hlt : (lo < hi)%R). { unfold lo, hi. rewrite Nat.min_l by lia. apply ST; lia. }
      assert (Vlt : (lo < v)%R). { unfold v. assert (0 < t * (hi - lo))%R by (apply Rmult_lt_0_compat; lra). lra. }
      assert (Bl : Datatypes.S i <= below v s).
      { apply below_ge; [lia|]. intros j J. eapply Rle_lt_trans; [|exact Vlt]. unfold lo. apply sorted_nth; auto; lia. }
      apply le_INR in Bl. rewrite S_INR in Bl. unfold t in B. lra.
Qed.

(** ** The specification *)

(** the share of distances not above the tolerance *)
Definition share (eps : flt) (ds : list R) : R :=
  (INR (length (filter (fun d => fleb (Fin d) eps) ds)) / INR (length ds))%R.
(** the next tolerance: a quantile of the distances, if that is smaller than the old tolerance *)
Definition next_tolerance (a : R) (eps : flt) (ds : list R) : flt :=
  let q := Fin (quantile_r ds (a * share eps ds)) in if fleb eps q then eps else q.
(** the particles of positive weight that are strictly closer than the tolerance *)
Definition closer (eps : flt) (ws ds : list R) : nat :=
  length (filter (fun wd => rltb 0 (fst wd) && fltb (Fin (snd wd)) eps) (combine ws ds)).

Section Round.
  Context {w : world}.
  Notation pt := (particle w flt).
  Notation G := (RNG w).
  Implicit Types (m : dmodel w flt) (p : pt).

  Definition distant m (pts : list pt) (ds : list R) : Prop := Forall2 (fun p d => measured m p (Fin d)) pts ds.

  Lemma distant_len : forall m pts ds, distant m pts ds -> length pts = length ds.
  Proof. intros m pts ds H. induction H; simpl; auto. Qed.
  Lemma distant_nth : forall m pts ds, distant m pts ds -> forall i p, nth_error pts i = Some p -> exists d, nth_error ds i = Some d /\ measured m p (Fin d).
  Proof.
    intros m pts ds H. induction H as [|p d pts ds M H IH]; intros i q K; [destruct i; discriminate|].
    destruct i as [|i]; simpl in K; [injection K as <-; exists d; auto|]. apply IH in K. exact K.
  Qed.
  Lemma distant_exists : forall m pts, (forall i p, nth_error pts i = Some p -> exists x, measured m p (Fin x)) -> exists ds, distant m pts ds.
  Proof.
    intros m pts. induction pts as [|p pts IH]; intros H; [exists []; constructor|].
    destruct (H 0 p eq_refl) as [x Hx]. destruct IH as [ds D]; [intros i q K; apply (H (S i) q K)|]. exists (x :: ds). constructor; auto.
  Qed.

  Lemma distances_fin : forall m theta ds r, distant m theta ds ->
    exists theta', distances m theta r = Some (Ok (map Fin ds, theta'), r) /\ distant m theta' ds.
  Proof.
    intros m theta ds r D. unfold distances.
    assert (A : exists l, cmap (distance m) theta r = Some (Ok l, r) /\ map fst l = map Fin ds /\ distant m (map snd l) ds).
    { induction D as [|p d theta ds M D IH]; [exists []; splits; auto; constructor|].
      destruct (distance_again m p (Fin d) r M) as (p' & E1 & E2). destruct IH as (l & I1 & I2 & I3).
      exists ((Fin d, p') :: l). cbn [cmap map fst snd]. unfold cbind at 1. rewrite E1. unfold cbind at 1. rewrite I1.
      splits; auto; [rewrite I2; auto|]. constructor; auto. }
    destruct A as (l & A1 & A2 & A3). exists (map snd l). unfold cbind. rewrite A1. unfold cret. rewrite A2. auto.
  Qed.

  Definition kept (eps0 eps1 : flt) (ws ds : list R) : list R :=
    map (fun wd => if fltb (Fin (snd wd)) eps0 then (if fltb (Fin (snd wd)) eps1 then fst wd else 0%R) else fst wd) (combine ws ds).
  Lemma reweigh_kept : forall eps0 eps1 ws ds, length ws = length ds -> reweigh eps0 eps1 (map Fin ws) (map Fin ds) = Ok (map Fin (kept eps0 eps1 ws ds)).
  Proof.
    intros eps0 eps1 ws. unfold kept. induction ws as [|x ws IH]; intros [|d ds] L; simpl in L; try discriminate; auto.
    cbn [map reweigh combine fst snd]. rewrite IH by congruence. cbn [bind].
    destruct (fltb (Fin d) eps0); [destruct (fltb (Fin d) eps1)|]; auto.
  Qed.
  Lemma kept_pos : forall eps0 eps1 ws ds, Forall (fun x => (0 <= x)%R) ws -> Forall (fun x => (0 <= x)%R) (kept eps0 eps1 ws ds).
  Proof.
    intros eps0 eps1 ws ds F. unfold kept. apply Forall_forall. intros x Hx. apply in_map_iff in Hx. destruct Hx as ([v d] & <- & K).
    apply in_combine_l in K. rewrite Forall_forall in F. apply F in K. cbn [fst snd].
    destruct (fltb (Fin d) eps0); [destruct (fltb (Fin d) eps1)|]; lra.
  Qed.
  Lemma kept_count : forall eps0 eps1 ws ds, (forall i v d, nth_error ws i = Some v -> nth_error ds i = Some d -> (0 < v)%R -> fltb (Fin d) eps0 = true) ->
    length (filter (rltb 0) (kept eps0 eps1 ws ds)) = closer eps1 ws ds.
  Proof.
    intros eps0 eps1 ws. unfold kept, closer. induction ws as [|v ws IH]; intros [|d ds] H; try reflexivity.
    cbn [combine map filter fst snd]. specialize (IH ds (fun i => H (S i))). pose proof (H 0 v d eq_refl eq_refl) as H0.
    assert (Z : rltb 0 0 = false) by (apply rltb_false; lra).
    destruct (rltb 0 v) eqn:Ev.
    - apply rltb_true in Ev as Ev'. rewrite (H0 Ev'). destruct (fltb (Fin d) eps1); [rewrite Ev|rewrite Z]; cbn [andb length]; congruence.
    - cbn [andb]. destruct (fltb (Fin d) eps0); [destruct (fltb (Fin d) eps1)|]; try rewrite Ev; try rewrite Z; auto.
  Qed.
  Lemma normalise_count : forall vs, Forall (fun x => (0 <= x)%R) vs -> count (fltb (Fin 0)) (normalise (map Fin vs)) = length (filter (rltb 0) vs).
  Proof.
    intros vs F. destruct (Req_EM_T (rsum vs) 0) as [E|E].
    - apply rsum_zero in E; auto. rewrite normalise_zero by auto. rewrite count_nan. clear F. induction E as [|x vs -> E IH]; auto.
      cbn [filter]. assert (Z : rltb 0 0 = false) by (apply rltb_false; lra). rewrite Z. auto.
    - rewrite normalise_fin by auto. assert (P : (0 < rsum vs)%R) by (pose proof (rsum_nonneg vs F); lra).
      unfold count. generalize dependent (rsum vs). intros k _ P. clear F. induction vs as [|x vs IH]; auto. cbn [map filter fltb].
      assert (K : rltb 0 (x / k) = rltb 0 x).
      { assert (0 < / k)%R by (apply Rinv_0_lt_compat; auto). destruct (rltb 0 x) eqn:X.
        - apply rltb_true. apply rltb_true in X. apply Rmult_lt_0_compat; auto.
        - apply rltb_false in X. apply rltb_false. assert (x * / k <= 0 * / k)%R by (apply Rmult_le_compat_r; lra). unfold Rdiv. lra. }
      rewrite K. destruct (rltb 0 x); cbn [length]; congruence.
  Qed.

  Context (simulate : chrom w -> G -> res pt * G) (lp_isinf : LP w -> bool).
  Context {step : Type} (normal : step -> G -> V w * G) (vadd : V w -> V w -> res (V w)).
  Context (wstd : dmodel w flt -> list pt -> list flt -> G -> res (dict step) * G).
  Context (draw : G -> list R -> nat -> list nat) (draw_next : G -> G) (unif : G -> R * G).
  Notation round := (a_round simulate lp_isinf normal vadd wstd draw draw_next unif).

  (** the round up to the resampling *)
  Lemma round_front : forall fuel g m st r ws ds, (0 <= alpha g <= 1)%R -> s_wts st = map Fin ws -> length ws = length ds -> distant m (s_pts st) ds -> ds <> [] ->
    let eps1 := next_tolerance (alpha g) (s_eps st) ds in
    exists th stay, distant m th ds /\
    round fuel g m st r =
      (dc x <- resample_smc draw draw_next g th (normalise (map Fin (kept (s_eps st) eps1 ws ds))) (s_thres st);
       let '(wts, theta1) := x in
       dc x <- mcmc_proposal simulate lp_isinf normal vadd wstd unif fuel g m theta1 wts eps1;
       let '(pts, ess, acc) := x in
       cret (mkSt wts pts (S (s_rnd st)) stay ess acc eps1 (s_thres st))) r.
  Proof using.
    intros fuel g m st r ws ds A W L D N eps1.
    destruct (distances_fin m _ _ r D) as (th1 & E1 & D1). destruct (distances_fin m _ _ r D1) as (th2 & E2 & D2).
    assert (Cn : count (fun d => fleb d (s_eps st)) (map Fin ds) = length (filter (fun d => fleb (Fin d) (s_eps st)) ds)).
    { unfold count. clear. induction ds as [|d ds IH]; auto. cbn [map filter]. destruct (fleb (Fin d) (s_eps st)); cbn [length]; rewrite ?IH; reflexivity. }
    assert (U : (0 <= alpha g * share (s_eps st) ds <= 1)%R) by (apply fraction_unit; auto).
    assert (Q : find_eps g m (s_eps st) (s_pts st) r = Some (Ok (Fin (quantile_r ds (alpha g * share (s_eps st) ds)), th1), r)).
    { unfold find_eps, cbind at 1. rewrite E1. cbv zeta. rewrite Cn, map_length. unfold cbind, cres. fold (share (s_eps st) ds).
      rewrite quantile_fin; auto. }
    exists th2, (if fleb (s_eps st) (Fin (quantile_r ds (alpha g * share (s_eps st) ds))) then S (s_stay st) else 0). split; auto.
    unfold a_round. cbv zeta. unfold cbind at 1. rewrite Q. fold (next_tolerance (alpha g) (s_eps st) ds).
    change (if fleb (s_eps st) (Fin (quantile_r ds (alpha g * share (s_eps st) ds))) then s_eps st else Fin (quantile_r ds (alpha g * share (s_eps st) ds))) with eps1.
    unfold update_wts, cbind at 1. unfold cbind at 1. rewrite E2. unfold cbind at 1. unfold cres. rewrite W, reweigh_kept by auto. unfold cret at 1. reflexivity.
  Qed.

  Lemma cmap_raises : forall A B (f : A -> comp G B) l r e r', cmap f l r = Some (Err e, r') -> exists a r1, In a l /\ f a r1 = Some (Err e, r').
  Proof using.
    intros A B f l. induction l as [|a l IH]; intros r e r' H; cbn [cmap] in H; [discriminate H|].
    unfold cbind at 1 in H. destruct (f a r) as [[[b|e1] r1]|] eqn:E; [| |discriminate H].
    - unfold cbind in H. destruct (cmap f l r1) as [[[bs|e2] r2]|] eqn:E2; try discriminate H. injection H as <- <-.
      destruct (IH _ _ _ E2) as (a' & r3 & I1 & I2). exists a', r3. split; simpl; auto.
    - injection H as <- <-. exists a, r. simpl. auto.
  Qed.
  Lemma marks_ok : forall eps (ps : list pt), (forall i q, nth_error ps i = Some q -> exists x, p_distance q = Some x) -> exists acc, marks eps ps (length ps) = Ok acc.
  Proof using.
    intros eps ps. induction ps as [|p ps IH]; intros H; cbn [length marks]; [eauto|].
    destruct (H 0 p eq_refl) as [x Hx]. cbn [src_distance]. rewrite Hx. cbn [bind].
    destruct IH as [acc ->]; [intros i q K; apply (H (S i) q K)|]. cbn [bind]. eauto.
  Qed.
  Lemma select_ok : forall acc (tp t1 : list pt) r, length tp = length acc -> length t1 = length acc -> exists x r', select unif acc tp t1 r = Some (Ok x, r').
  Proof using.
    induction acc as [|a acc IH]; intros tp t1 r L1 L2; cbn [select]; [unfold cret; eauto|].
    destruct tp as [|p tp], t1 as [|q t1]; try discriminate. unfold cbind at 1, clift. destruct (unif r) as [u r1]. cbv zeta.
    unfold cbind at 1, cres. destruct (IH tp t1 r1) as (x & r' & E); simpl in L1, L2; try lia.
    destruct (rltb u (if a then 1 else 0)%R); cbn [tl]; unfold cbind; rewrite E; unfold cret; eauto.
  Qed.
End Round.

(** A round raises AssertionError if fewer than three particles of positive weight are strictly
    closer than the new tolerance; any other exception is raised while steps or proposals are made
    (that is, by the functions of the model). *)
Theorem C97_round : forall w simulate lp_isinf (step : Type) normal vadd wstd draw draw_next unif fuel g (m : dmodel w flt) st r,
  honest m simulate -> never_nan m -> (forall r, fair (draw r)) -> (0 <= alpha g <= 1)%R -> sound_state m (n_iter g) st ->
  exists ws ds, s_wts st = map Fin ws /\ Forall2 (fun p d => measured m p (Fin d)) (s_pts st) ds
  /\ let eps1 := next_tolerance (alpha g) (s_eps st) ds in
     let a_round := a_round simulate lp_isinf (step:=step) normal vadd wstd draw draw_next unif fuel g m st r in
     (closer eps1 ws ds <= 2 -> a_round = Some (Err AssertionError, r))
     /\ (2 < closer eps1 ws ds -> forall e r', a_round = Some (Err e, r') ->
           exists theta wts r1, (exists r2, wstd m theta wts r1 = (Err e, r2))
             \/ exists tau p r2 r3, In p theta /\ sample_mutation simulate lp_isinf normal vadd fuel m (parallel g) tau p r2 = Some (Err e, r3))
     /\ forall st' r', a_round = Some (Ok st', r') -> s_eps st' = eps1.
Proof.
  intros w simulate lp_isinf step normal vadd wstd draw draw_next unif fuel g m st r Hh Hn Hf Ha ((P1 & (ws & W1 & W2 & W3 & W4) & P3 & P4) & T).
  destruct (distant_exists m (s_pts st) P3) as [ds D]. exists ws, ds. split; auto. split; [exact D|]. cbv zeta.
  assert (L : length ws = length ds) by (rewrite <- (distant_len _ _ _ D); congruence).
  assert (N0 : n_iter g <> 0) by (intros Z; rewrite Z in W2; destruct ws; [simpl in W4; lra|discriminate]).
  assert (N : ds <> []) by (intros ->; simpl in L; congruence).
  destruct (round_front simulate lp_isinf normal vadd wstd draw draw_next unif fuel g m st r ws ds Ha W1 L D N) as (th & stay & Dt & ->).
  set (eps1 := next_tolerance (alpha g) (s_eps st) ds). set (vs := kept (s_eps st) eps1 ws ds).
  assert (V2 : Forall (fun x => (0 <= x)%R) vs) by (apply kept_pos; auto).
  assert (Cl : count (fltb (Fin 0)) (normalise (map Fin vs)) = closer eps1 ws ds).
  { rewrite normalise_count by auto. apply kept_count. intros i v d I1 I2 I3.
    assert (Li : i < length (s_pts st)) by (rewrite P1, <- W2; apply nth_error_Some; congruence).
    destruct (nth_error (s_pts st) i) as [p|] eqn:Ep; [|apply nth_error_None in Ep; lia].
    destruct (distant_nth _ _ _ D i p Ep) as (d' & Q1 & Q2). rewrite I2 in Q1. injection Q1 as <-.
    destruct (P4 i p (Fin v) Ep) as (d' & M' & L'); [rewrite W1, nth_error_map, I1; auto|apply fltb_fin; auto|].
    rewrite (measured_fun _ _ _ _ Q2 M'). auto. }
  split; [|split].
  - intros C. unfold cbind at 1, resample_smc. rewrite Cl. destruct (Nat.ltb_spec 2 (closer eps1 ws ds)); [lia|]. reflexivity.
  - intros C e r' H.
    destruct (normalise_counted vs V2) as (us & U1 & U2 & U3 & U4 & U5); [rewrite Cl; lia|].
    assert (Lus : length us = length th) by (rewrite (distant_len _ _ _ Dt), U2; unfold vs, kept; rewrite map_length, combine_length; lia).
    assert (R : exists wts theta1 r1, resample_smc draw draw_next g th (normalise (map Fin vs)) (s_thres st) r = Some (Ok (wts, theta1), r1)
       /\ length theta1 = n_iter g /\ wts <> [] /\ forall i p, nth_error theta1 i = Some p -> exists x, measured m p (Fin x)).
    { unfold resample_smc. rewrite Cl. destruct (Nat.ltb_spec 2 (closer eps1 ws ds)); [|lia]. rewrite U1.
      destruct (fltb (Fin 1) (fmul (Fin (s_thres st)) (fsum (map (fun x0 => fmul x0 x0) (map Fin us))))).
      - rewrite selection_proper by auto. unfold cbind at 1, choice_c. rewrite map_length, Lus, Nat.eqb_refl. unfold choice. rewrite as_fin_Fin.
        assert (F1 : forallb (rleb 0) us = true) by (apply forallb_forall; intros x Hx; apply rleb_true; rewrite Forall_forall in U3; auto).
        assert (F2 : reqb (rsum us) 1 = true) by (apply reqb_true; auto). rewrite F1, F2. cbn [andb].
        destruct (Hf r us (n_iter g) U3 U4) as [D1 D2].
        assert (Pk : exists th2, pick th (draw r us (n_iter g)) = Ok th2).
        { unfold pick. clear D1. induction D2 as [|i is (x & X1 & X2) D2 IH]; cbn [mapM]; [eauto|].
          assert (Li : i < length th) by (rewrite <- Lus; apply nth_error_Some; congruence).
          destruct (nth_error th i) as [p|] eqn:Ep; [|apply nth_error_None in Ep; lia]. cbn [bind]. destruct IH as [th2 ->]. cbn [bind]. eauto. }
        destruct Pk as [th2 Pk]. unfold cbind, cres. rewrite Pk. unfold cret. do 3 eexists. split; [reflexivity|].
        apply ProofSMC.pick_spec in Pk. destruct Pk as [K1 K2]. split; [rewrite map_length; congruence|]. split.
        { unfold ones. destruct (n_iter g); [congruence|discriminate]. }
        intros i p K. rewrite nth_error_map in K. destruct (nth_error th2 i) as [q|] eqn:E; inversion K; subst.
        destruct (K2 i q E) as (j & J1 & J2). destruct (distant_nth _ _ _ Dt j q J2) as (d & _ & Md). exists d. apply measured_copy; auto.
      - unfold cret. do 3 eexists. split; [reflexivity|]. split; [rewrite map_length, (distant_len _ _ _ Dt); congruence|]. split.
        { destruct us; [simpl in U4; lra|discriminate]. }
        intros i p K. rewrite nth_error_map in K. destruct (nth_error th i) as [q|] eqn:E; inversion K; subst.
        destruct (distant_nth _ _ _ Dt i q E) as (d & _ & Md). exists d. apply measured_copy; auto. }
    destruct R as (wts & theta1 & r1 & R1 & R2 & R3 & R4). unfold cbind at 1 in H. rewrite R1 in H.
    exists theta1, wts. unfold cbind at 1 in H. unfold mcmc_proposal, cbind at 1 in H. unfold clift in H at 1.
    exists r1. destruct (wstd m theta1 wts r1) as [[tau|e1] r2] eqn:E1; [right|left; injection H as <- <-; eauto].
    unfold cbind at 1 in H. destruct (cmap (sample_mutation simulate lp_isinf normal vadd fuel m (parallel g) tau) theta1 r2) as [[[sp|e1] r3]|] eqn:E2; [| |discriminate H].
    2:{ injection H as <- <-. apply cmap_raises in E2. destruct E2 as (p & r4 & I1 & I2). eauto 8. }
    exfalso. cbv zeta in H. destruct (ProofSMC.cmap_ok _ _ _ _ _ _ _ _ E2) as [C1 C2].
    assert (Mk : exists acc, marks eps1 (map (fun s => snd (fst s)) sp) (n_iter g) = Ok acc).
    { rewrite <- R2, <- C1. rewrite <- (map_length (fun s : flt * particle w flt * nat => snd (fst s)) sp). apply marks_ok. intros i q K.
      rewrite nth_error_map in K. destruct (nth_error sp i) as [[[d q0] n0]|] eqn:E; inversion K; subst.
      destruct (C2 i _ E) as (p0 & s1 & s2 & J1 & J2).
      destruct (sample_mutation_finite simulate lp_isinf normal vadd m fuel (parallel g) tau p0 s1 d q n0 s2) as (x & _ & X); eauto. }
    destruct Mk as [acc Mk]. unfold cbind at 1, cres at 1 in H. rewrite Mk in H.
    destruct (marks_spec _ _ _ _ Mk) as [M1 _].
    destruct (select_ok unif acc (map (fun s => snd (fst s)) sp) theta1 r3) as (sel & r4 & S1); [rewrite map_length; congruence|congruence|].
    unfold cbind at 1 in H. rewrite S1 in H. unfold cbind at 1, cres at 1 in H. unfold ess_of in H. destruct wts as [|v wts]; [congruence|].
    unfold cbind at 1, cres at 1 in H. unfold idiv in H. destruct (Nat.eqb_spec (n_iter g) 0); [congruence|].
    unfold cret in H. destruct sel. discriminate H.
  - intros st' r' H. apply cbind_ok in H. destruct H as ([wts th1] & r1 & _ & H). apply cbind_ok in H. destruct H as ([[pts ess] acc] & r2 & _ & H).
    unfold cret in H. injection H as <- _. reflexivity.
Qed.
Print Assumptions C97_round.

(** The first round, from the state that initialise leaves: as long as alpha * (n_iter - 1) is not
    above 2 it raises, and with distinct distances only then. *)
Lemma first_tolerance : forall a ds, ds <> [] -> next_tolerance a PInf ds = Fin (quantile_r ds a).
Proof.
  intros a ds N. unfold next_tolerance, share. cbn [fleb]. change (fun d : R => fleb (Fin d) PInf) with (fun d : R => true). f_equal. f_equal.
  assert (E : filter (fun d : R => true) ds = ds) by (clear N; induction ds as [|d ds IH]; cbn [filter]; rewrite ?IH; reflexivity). rewrite E.
  assert (INR (length ds) <> 0)%R by (apply not_0_INR; destruct ds; simpl; congruence). field. auto.
Qed.
Lemma closer_below : forall v ws ds, length ws = length ds -> closer (Fin v) ws ds <= below v ds /\ (Forall (fun x => (0 < x)%R) ws -> closer (Fin v) ws ds = below v ds).
Proof.
  intros v ws. unfold closer, below. induction ws as [|x ws IH]; intros [|d ds] L; simpl in L; try discriminate; auto.
  destruct (IH ds) as [I1 I2]; [congruence|]. cbn [combine filter fst snd fltb] in I1, I2 |- *. split.
  - destruct (rltb 0 x), (rltb d v); cbn [andb length]; lia.
  - intros F. inversion F as [|? ? X F']; subst. apply rltb_true in X. rewrite X. specialize (I2 F'). destruct (rltb d v); cbn [andb length]; congruence.
Qed.

Theorem C97_first_round : forall a ws ds, ds <> [] -> length ws = length ds -> Forall (fun x => (0 < x)%R) ws -> (0 <= a <= 1)%R ->
  ((a * INR (length ds - 1) <= 2)%R -> closer (next_tolerance a PInf ds) ws ds <= 2)
  /\ (NoDup ds -> (2 < a * INR (length ds - 1))%R -> 2 < closer (next_tolerance a PInf ds) ws ds).
Proof.
  intros a ws ds N L F A. rewrite first_tolerance by auto. destruct (closer_below (quantile_r ds a) ws ds L) as [C1 C2]. rewrite (C2 F).
  destruct (quantile_below ds a N A) as [Q1 Q2]. split.
  - intros H. assert (K : (INR (below (quantile_r ds a) ds) < INR 3)%R) by (simpl; simpl in *; lra). apply INR_lt in K. lia.
  - intros Nd H. specialize (Q2 Nd). assert (K : (INR 2 < INR (below (quantile_r ds a) ds))%R) by (simpl; simpl in *; lra). apply INR_lt in K. lia.
Qed.
Print Assumptions C97_first_round.

(** A fit whose alpha * (n_iter - 1) is not above 2 - so any fit with three particles or fewer -
    raises AssertionError in its first round, whatever the model. *)
Theorem C97_few : forall w simulate lp_isinf (step : Type) normal vadd wstd draw draw_next unif rounds fuel g (m : dmodel w flt) pars0 r st0 r0,
  honest m simulate -> never_nan m -> (forall r, fair (draw r)) -> (0 <= alpha g <= 1)%R -> (alpha g * INR (n_iter g - 1) <= 2)%R ->
  initialise simulate draw draw_next fuel g m pars0 r = Some (Ok st0, r0) ->
  smc_fit simulate lp_isinf (step:=step) normal vadd wstd draw draw_next unif (S rounds) fuel g m pars0 r = Some (Err AssertionError, r0).
Proof.
  intros w simulate lp_isinf step normal vadd wstd draw draw_next unif rounds fuel g m pars0 r st0 r0 Hh Hn Hf Ha Hs I.
  destruct (C57_initialise_partial _ _ _ _ _ _ _ _ _ _ _ Hh Hn Hf I) as (Sd & _ & _ & Ep & Nz).
  destruct (C97_round w simulate lp_isinf step normal vadd wstd draw draw_next unif fuel g m st0 r0 Hh Hn Hf Ha Sd) as (ws & ds & W & D & R1 & _).
  destruct Sd as ((P1 & (ws' & W' & Lw & _) & _) & _). assert (ws' = ws) as -> by (rewrite W in W'; clear - W'; revert ws' W'; induction ws as [|x ws IH]; intros [|y ws'] H; try discriminate; auto; simpl in H; injection H as -> H; f_equal; auto).
  pose proof (distant_len _ _ _ D) as Ld.
  assert (N : ds <> []) by (intros ->; simpl in Ld; congruence).
  unfold smc_fit, cbind at 1. rewrite I. cbn [update]. unfold cbind. rewrite R1; [reflexivity|].
  rewrite Ep, first_tolerance by auto. destruct (closer_below (quantile_r ds (alpha g)) ws ds) as [C1 _]; [congruence|].
  destruct (quantile_below ds (alpha g) N Ha) as [Q1 _]. rewrite <- Ld, P1 in Q1.
  assert (K : (INR (below (quantile_r ds (alpha g)) ds) < INR 3)%R) by (simpl; simpl in *; lra). apply INR_lt in K. lia.
Qed.
Print Assumptions C97_few.

(** With a model and a state as in C57_example_fit: with alpha = 1 the round goes through (three
    particles are closer than the largest distance); with alpha = 1/2 the fit raises. *)
Definition half_cfg : cfg := mkCfg 4 false (1 / 2) (1 / 8) 1 5 0.
Example C97_example :
  (exists st r', ex_fit tab_a = Some (Ok st, r') /\ s_eps st = Fin 7)
  /\ smc_fit exsim (fun _ => false) ex_normal ex_vadd ex_wstd ex_draw (fun r => r) ex_unif 1 1 half_cfg (exsmc tab_a) None 0 = Some (Err AssertionError, 8)
  /\ 2 < closer (next_tolerance 1 PInf [1; 3; 5; 7]%R) ex_ws [1; 3; 5; 7]%R
  /\ closer (next_tolerance (1 / 2) PInf [1; 3; 5; 7]%R) ex_ws [1; 3; 5; 7]%R <= 2.
Proof.
  assert (F : Forall (fun x => (0 < x)%R) ex_ws) by (repeat constructor; simpl; lra).
  splits.
  - destruct C57_example_fit as (st & r' & E1 & E2 & _). eauto.
  - destruct (ex_initialise tab_a) as [ess I].
    eapply C97_few; [apply ex_honest|apply ex_never_nan|apply ex_fair|simpl; lra|simpl; lra|]. exact (I (or_introl eq_refl)).
  - apply C97_first_round; auto; [discriminate|lra| |simpl; lra]. repeat constructor; simpl; intros H; repeat destruct H as [H|H]; lra.
  - apply C97_first_round; auto; [discriminate|lra|simpl; lra].
Qed.
