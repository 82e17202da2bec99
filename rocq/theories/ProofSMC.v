(** * Specification of the ABC-SMC invariant and its proof *)

Require Import Verif.Base Verif.World Verif.ModelGraph Verif.ModelExpr Verif.ModelLoci Verif.ModelBN Verif.ModelSample
        Verif.ModelFitBase Verif.ModelFloat Verif.ModelResample Verif.ModelABC Verif.ModelSMC
        Verif.ProofBase Verif.ProofFloat Verif.PropsResample Verif.PropsABC.
Require Import Coq.ZArith.ZArith Lia.
Local Open Scope nat_scope.

Section Spec.
  Context {w : world}.
  Notation pt := (particle w flt).
  Implicit Types (m : dmodel w flt) (p : pt).

  (** The simulated target values are noted, [d] is their distance, and if a distance is noted it is this one. *)
  Definition measured m p (d : flt) : Prop :=
    exists ys, p_ys p = Some ys /\ total (Fin 0) fadd t_dist (dm_data m) ys = Ok d
               /\ (p_distance p = None \/ p_distance p = Some d).
  (** simulate notes no distance other than the right one (normally it notes nothing). *)
  Definition honest m (simulate : chrom w -> RNG w -> res pt * RNG w) : Prop :=
    forall c r p r' d, simulate c r = (Ok p, r') -> p_distance p = Some d -> measured m p d.
  (** No values of the targets have the distance nan. *)
  Definition never_nan m : Prop := forall ys, total (Fin 0) fadd t_dist (dm_data m) ys <> Ok NaN.
  (** rd.random() *)
  Definition standard_uniform (unif : RNG w -> R * RNG w) : Prop := forall r, (0 <= fst (unif r) < 1)%R.

  (** n weights, non-negative, of sum one; n particles, each with a finite distance; those with
      positive weight closer than the tolerance. *)
  Definition population m (n : nat) (wts : list flt) (pts : list pt) (eps : flt) : Prop :=
    length pts = n
    /\ (exists ws, wts = map Fin ws /\ length ws = n /\ Forall (fun x => (0 <= x)%R) ws /\ rsum ws = 1%R)
    /\ (forall i p, nth_error pts i = Some p -> exists x, measured m p (Fin x))
    /\ (forall i p x, nth_error pts i = Some p -> nth_error wts i = Some x -> fltb (Fin 0) x = true ->
          exists d, measured m p d /\ fltb d eps = true).
  Definition tolerance (eps : flt) : Prop := eps = PInf \/ exists e, eps = Fin e.
  Definition sound_state m (n : nat) (st : state w) : Prop :=
    population m n (s_wts st) (s_pts st) (s_eps st) /\ tolerance (s_eps st).
End Spec.

Section Proof.
  Context {w : world}.
  Notation pt := (particle w flt).
  Notation G := (RNG w).
  Implicit Types (m : dmodel w flt) (p : pt).

  Lemma measured_fun : forall m p d e, measured m p d -> measured m p e -> d = e.
  Proof. intros m p d e (y & H1 & H2 & _) (z & K1 & K2 & _). rewrite H1 in K1. inversion K1; subst. congruence. Qed.

  Lemma measured_copy : forall m p d, measured m p d -> measured m (pt_copy p) d.
  Proof. intros m p d (y & H1 & H2 & _). exists y. simpl. auto. Qed.
  Lemma through_id : forall b p, through b p = p.
  Proof. intros [|] p; auto. simpl. apply pt_json_id. Qed.

  Lemma distance_measured : forall m p r d p' r', distance m p r = Some (Ok (d, p'), r') ->
    (forall d0, p_distance p = Some d0 -> measured m p d0) -> measured m p' d /\ p_distance p' = Some d.
  Proof.
    intros m p r d p' r' H Hp. unfold distance in H. unfold calc_distance in H.
    destruct (p_distance p) as [d0|] eqn:E.
    - inversion H; subst. split; auto.
    - unfold need_ys in H. destruct (p_ys p) as [ys|] eqn:Ey.
      + destruct (total (Fin 0) fadd t_dist (dm_data m) ys) as [x|e] eqn:T; inversion H; subst.
        split; auto. exists ys. simpl. auto.
      + destruct (flatten m p r) as [[[[]|e] p1] r1]; [|discriminate].
        destruct (p_ys p1) as [ys|] eqn:Ey1; [|discriminate].
        destruct (total (Fin 0) fadd t_dist (dm_data m) ys) as [x|e] eqn:T; inversion H; subst.
        split; auto. exists ys. simpl. auto.
  Qed.
  Lemma distance_again : forall m p d r, measured m p d ->
    exists p', distance m p r = Some (Ok (d, p'), r) /\ measured m p' d.
  Proof.
    intros m p d r (ys & H1 & H2 & H3). unfold distance, calc_distance. destruct (p_distance p) as [d0|] eqn:E.
    - destruct H3 as [H3|H3]; [discriminate|]. inversion H3; subst. exists p. split; auto. exists ys. rewrite E. auto.
    - unfold need_ys. rewrite H1, H2. eexists. split; [reflexivity|]. exists ys. simpl. auto.
  Qed.

  (** asking all distances again changes no distance and does not draw *)
  Lemma distances_measured : forall m theta r ds theta' r', distances m theta r = Some (Ok (ds, theta'), r') ->
    (forall i p, nth_error theta i = Some p -> exists d, measured m p d) ->
    r' = r /\ length theta' = length theta /\ length ds = length theta
    /\ (forall i p, nth_error theta' i = Some p -> exists q d, nth_error theta i = Some q /\ nth_error ds i = Some d /\ measured m q d /\ measured m p d).
  Proof.
    intros m theta r ds theta' r' H M. unfold distances in H. apply cbind_ok in H. destruct H as (l & r1 & H1 & H2).
    inversion H2; subst. clear H2. revert l r H1 M. induction theta as [|p theta IH]; intros l r H M; cbn [cmap] in H.
    - inversion H; subst. splits; auto. intros [|i] q K; discriminate K.
    - destruct (M 0 p eq_refl) as [d Hd]. destruct (distance_again m p d r Hd) as (p' & E1 & E2).
      unfold cbind in H at 1. rewrite E1 in H. apply cbind_ok in H. destruct H as (l' & r2 & H3 & H4).
      inversion H4; subst. destruct (IH l' r H3) as (I1 & I2 & I3 & I4); [intros i q K; apply (M (S i) q K)|].
      subst. splits; simpl; auto. intros [|i] q K; simpl in K.
      + inversion K; subst. exists p, d. auto.
      + destruct (I4 i q K) as (q0 & d0 & J1 & J2 & J3 & J4). exists q0, d0. auto.
  Qed.

  (** ** weights *)
  Lemma reweigh_spec : forall eps0 eps1 ws ds wts, reweigh eps0 eps1 (map Fin ws) ds = Ok wts -> Forall (fun x => (0 <= x)%R) ws ->
    exists vs, wts = map Fin vs /\ length vs = length ws /\ Forall (fun x => (0 <= x)%R) vs
    /\ forall i v, nth_error vs i = Some v -> (0 < v)%R ->
         exists x d, nth_error ws i = Some x /\ (0 < x)%R /\ nth_error ds i = Some d /\ (fltb d eps0 = true -> fltb d eps1 = true).
  Proof.
    intros eps0 eps1 ws. induction ws as [|x ws IH]; intros ds wts H F; simpl in H.
    - inversion H; subst. exists []. splits; auto. intros [|i] v K; discriminate.
    - destruct ds as [|d ds]; [discriminate|]. apply bind_ok in H. destruct H as (l & H1 & H2). inversion H2; subst. inversion F; subst.
      destruct (IH ds l H1 H4) as (vs & -> & L & FV & HS).
      destruct (fltb d eps0) eqn:E0; [destruct (fltb d eps1) eqn:E1|].
      + exists (x :: vs). splits; simpl; auto. intros [|i] v K P; simpl in K; [inversion K; subst; exists v, d; auto|eapply HS; eauto].
      + exists (0%R :: vs). splits; simpl; auto; [constructor; auto; lra|].
        intros [|i] v K P; simpl in K; [inversion K; subst; lra|eapply HS; eauto].
      + exists (x :: vs). splits; simpl; auto. intros [|i] v K P; simpl in K; [inversion K; subst; exists v, d; splits; auto; congruence|eapply HS; eauto].
  Qed.

  Lemma normalise_fin : forall vs, rsum vs <> 0%R -> normalise (map Fin vs) = map Fin (map (fun x => x / rsum vs)%R vs).
  Proof.
    intros vs N. unfold normalise. rewrite fsum_fin, !map_map. apply map_ext. intros x. simpl. apply fdiv_fin; auto.
  Qed.
  Lemma normalise_zero : forall vs, Forall (fun x => x = 0%R) vs -> normalise (map Fin vs) = repeat NaN (length vs).
  Proof.
    intros vs F. assert (Z : rsum vs = 0%R).
    { clear -F. induction F; simpl; auto. subst. unfold rsum in *. lra. }
    unfold normalise. rewrite fsum_fin, Z, map_map. clear Z. induction F as [|x l -> F IH]; simpl; auto.
    f_equal; auto. unfold fdiv. assert (E : reqb 0 0 = true) by (apply reqb_true; auto). rewrite E. auto.
  Qed.
  Lemma count_nan : forall n, count (fltb (Fin 0)) (repeat NaN n) = 0.
  Proof. induction n; simpl; auto. Qed.

  (** after the assertion the weights are proper *)
  Lemma normalise_counted : forall vs, Forall (fun x => (0 <= x)%R) vs -> 0 < count (fltb (Fin 0)) (normalise (map Fin vs)) ->
    exists us, normalise (map Fin vs) = map Fin us /\ length us = length vs /\ Forall (fun x => (0 <= x)%R) us /\ rsum us = 1%R
    /\ forall i u, nth_error us i = Some u -> (0 < u)%R -> exists v, nth_error vs i = Some v /\ (0 < v)%R.
  Proof.
    intros vs F C. destruct (Req_EM_T (rsum vs) 0) as [E|E].
    - apply rsum_zero in E; auto. rewrite normalise_zero in C by auto. rewrite count_nan in C. lia.
    - exists (map (fun x => x / rsum vs)%R vs). assert (P : (0 < rsum vs)%R) by (pose proof (rsum_nonneg vs F); lra).
      splits.
      + apply normalise_fin; auto.
      + apply map_length.
      + apply Forall_forall. intros x Hx. apply in_map_iff in Hx. destruct Hx as (y & <- & Hy). rewrite Forall_forall in F.
        apply Rmult_le_pos; auto. apply Rlt_le, Rinv_0_lt_compat; auto.
      + rewrite rsum_div. field. auto.
      + intros i u K U. rewrite nth_error_map in K. destruct (nth_error vs i) as [v|]; [|discriminate]. inversion K; subst.
        exists v. split; auto. destruct (Rlt_dec 0 v) as [L|L]; auto. exfalso.
        assert (v <= 0)%R by lra. assert (v * / rsum vs <= 0 * / rsum vs)%R; [|unfold Rdiv in U; lra].
        apply Rmult_le_compat_r; auto. apply Rlt_le, Rinv_0_lt_compat; auto.
  Qed.

  Lemma where_pos : forall us, Forall (fun x => (0 <= x)%R) us ->
    map (fun x => if fltb (Fin 0) x then x else Fin 0) (map Fin us) = map Fin us.
  Proof.
    intros us F. induction F as [|x l Hx F IH]; auto. cbn [map]. rewrite IH. f_equal. cbn [fltb].
    destruct (rltb 0 x) eqn:E; auto. apply rltb_false in E. f_equal. lra.
  Qed.
  Lemma selection_proper : forall us, Forall (fun x => (0 <= x)%R) us -> rsum us = 1%R -> selection (map Fin us) = map Fin us.
  Proof.
    intros us F S. unfold selection. rewrite where_pos by auto. rewrite normalise_fin by lra. f_equal.
    rewrite S. rewrite <- (map_id us) at 2. apply map_ext. intros. field.
  Qed.

  Lemma ones_fin : forall n, n <> 0 -> ones n = map Fin (repeat (1 / INR n)%R n).
  Proof.
    intros n N. unfold ones. simpl. rewrite fdiv_fin by (apply not_0_INR; auto).
    generalize (1 / INR n)%R. intros x. clear N. induction n; simpl; auto. f_equal; auto.
  Qed.
  Lemma ones_sum : forall n, n <> 0 -> rsum (repeat (1 / INR n)%R n) = 1%R.
  Proof. intros n N. rewrite rsum_repeat. field. apply not_0_INR; auto. Qed.
  Lemma ones_pos : forall n, n <> 0 -> Forall (fun x => (0 <= x)%R) (repeat (1 / INR n)%R n).
  Proof.
    intros n N. apply Forall_forall. intros x Hx. apply repeat_spec in Hx. subst.
    apply Rmult_le_pos; [lra|]. apply Rlt_le, Rinv_0_lt_compat. apply lt_0_INR. lia.
  Qed.

  Lemma pick_spec : forall A (xs : list A) sel ys, pick xs sel = Ok ys ->
    length ys = length sel /\ forall i y, nth_error ys i = Some y -> exists k, nth_error sel i = Some k /\ nth_error xs k = Some y.
  Proof.
    intros A xs sel. unfold pick. induction sel as [|k sel IH]; intros ys H; simpl in H.
    - inversion H; subst. split; auto. intros [|i] y K; discriminate.
    - destruct (nth_error xs k) as [x|] eqn:E; simpl in H; [|discriminate]. apply bind_ok in H. destruct H as (ys' & H1 & H2).
      inversion H2; subst. destruct (IH ys' H1) as [I1 I2]. split; [simpl; auto|].
      intros [|i] y K; simpl in K; [inversion K; subst; exists k; auto|apply I2 in K; exact K].
  Qed.

  Lemma cmap_ok : forall G A B (f : A -> comp G B) l r bs r', cmap f l r = Some (Ok bs, r') ->
    length bs = length l /\ forall i b, nth_error bs i = Some b -> exists a r1 r2, nth_error l i = Some a /\ f a r1 = Some (Ok b, r2).
  Proof.
    intros G0 A B f l. induction l as [|a l IH]; intros r bs r' H; cbn [cmap] in H.
    - inversion H; subst. split; auto. intros [|i] b K; discriminate.
    - apply cbind_ok in H. destruct H as (b & r1 & H1 & H2). apply cbind_ok in H2. destruct H2 as (bs' & r2 & H2 & H3).
      inversion H3; subst. destruct (IH _ _ _ H2) as [I1 I2]. split; [simpl; auto|].
      intros [|i] c K; simpl in K; [inversion K; subst; exists a, r, r1; auto|]. destruct (I2 i c K) as (a' & s1 & s2 & J1 & J2).
      exists a', s1, s2. auto.
  Qed.

  Lemma marks_spec : forall eps ps n acc, marks eps ps n = Ok acc -> length acc = n
    /\ forall i, nth_error acc i = Some true -> exists p d, nth_error ps i = Some p /\ p_distance p = Some d /\ fltb d eps = true.
  Proof.
    intros eps ps. induction ps as [|p ps IH]; intros n acc H; cbn [marks] in H.
    - inversion H; subst. split; [apply repeat_length|]. intros i K. apply nth_error_In in K. apply repeat_spec in K. discriminate.
    - apply bind_ok in H. destruct H as (d & H1 & H2). simpl in H1. destruct (p_distance p) as [d0|] eqn:E; inversion H1; subst.
      destruct n as [|n].
      + destruct (fltb d eps) eqn:L; [discriminate|]. destruct (IH 0 acc H2) as [I1 I2]. split; auto.
        intros i K. destruct acc; [destruct i; discriminate|simpl in I1; discriminate].
      + apply bind_ok in H2. destruct H2 as (l & H2 & H3). inversion H3; subst. destruct (IH n l H2) as [I1 I2]. split; [simpl; auto|].
        intros [|i] K; simpl in K; [inversion K; exists p, d; auto|]. apply I2 in K. exact K.
  Qed.

  (** ** drawing and mutating *)
  Context (simulate : chrom w -> G -> res pt * G).

  Lemma seek_measured : forall m (d0 : comp G (flt * pt)) test fuel di n sim r d o k r',
    (forall r d p r', d0 r = Some (Ok (d, p), r') -> measured m p d) ->
    seek fuel d0 test di n sim r = Some (Ok (d, o, k), r') -> test di = true ->
    exists p, o = Some p /\ measured m p d /\ test d = false.
  Proof.
    intros m d0 test fuel. induction fuel as [|f IH]; intros di n sim r d o k r' Hd H T; simpl in H; rewrite T in H.
    - discriminate.
    - unfold cbind in H. destruct (d0 r) as [[[[x p]|e] r1]|] eqn:A; try discriminate. simpl in H.
      destruct (test x) eqn:Tx.
      + eapply IH; eauto.
      + destruct f; simpl in H; rewrite Tx in H; inversion H; subst; exists p; splits; auto; eapply Hd; eauto.
  Qed.
  Lemma attempt_measured : forall m, honest m simulate -> forall r d p r',
    attempt simulate m r = Some (Ok (d, p), r') -> measured m p d.
  Proof.
    intros m H r d p r' A. unfold attempt in A. apply cbind_ok in A. destruct A as (c & r1 & A1 & A2).
    apply cbind_ok in A2. destruct A2 as (p0 & r2 & A2 & A3). unfold clift in A2. inversion A2.
    apply distance_measured in A3; [tauto|]. intros d0 K. eapply H; eauto.
  Qed.
  Lemma attempt_from_measured : forall m (p0 : dict (V w)), honest m simulate -> forall r d p r',
    attempt_from simulate m p0 r = Some (Ok (d, p), r') -> measured m p d.
  Proof.
    intros m q H r d p r' A. unfold attempt_from in A. apply cbind_ok in A. destruct A as (c & r1 & A1 & A2).
    apply cbind_ok in A2. destruct A2 as (c2 & r2 & A2 & A3). apply cbind_ok in A3. destruct A3 as (p0 & r3 & A3 & A4).
    unfold clift in A3. inversion A3. apply distance_measured in A4; [tauto|]. intros d0 K. eapply H; eauto.
  Qed.

  Lemma finite_of : forall m p d, never_nan m -> measured m p d -> isinf d = false -> exists x, d = Fin x.
  Proof. intros m p d N (ys & _ & T & _) I. destruct d; try discriminate; eauto. exfalso. apply (N ys T). Qed.

  Lemma sample_fin_finite : forall m fuel par r d p n r', honest m simulate -> never_nan m ->
    sample_fin simulate fuel m par r = Some (Ok (d, p, n), r') -> exists x, measured m p (Fin x).
  Proof.
    intros m fuel par r d p n r' H N E. unfold sample_fin in E. apply cbind_ok in E. destruct E as ([[d1 o] k] & r1 & E1 & E2).
    destruct (seek_measured m _ _ _ _ _ _ _ _ _ _ _ (attempt_measured m H) E1 eq_refl) as (q & -> & M & I).
    simpl in E2. unfold cbind, cres, cret in E2. simpl in E2. inversion E2; subst. rewrite through_id.
    destruct (finite_of _ _ _ N M I) as [x ->]. eauto.
  Qed.
  Lemma sample_fin_cont_finite : forall m fuel par (p0 : dict (V w)) r d p n r', honest m simulate -> never_nan m ->
    sample_fin_cont simulate fuel m par p0 r = Some (Ok (d, p, n), r') -> exists x, measured m p (Fin x).
  Proof.
    intros m fuel par p0 r d p n r' H N E. unfold sample_fin_cont in E. apply cbind_ok in E. destruct E as ([[d1 o] k] & r1 & E1 & E2).
    destruct (seek_measured m _ _ _ _ _ _ _ _ _ _ _ (attempt_from_measured m p0 H) E1 eq_refl) as (q & -> & M & I).
    simpl in E2. unfold cbind, cres, cret in E2. simpl in E2. inversion E2; subst. rewrite through_id.
    destruct (finite_of _ _ _ N M I) as [x ->]. eauto.
  Qed.

  Context (lp_isinf : LP w -> bool) {step : Type} (normal : step -> G -> V w * G) (vadd : V w -> V w -> res (V w)).

  Lemma mut_loop_spec : forall m s steps, honest m simulate -> never_nan m ->
    (forall p, s = SPt p -> exists x, measured m p (Fin x)) ->
    forall fuel di n sim r d o k r',
    mut_loop simulate lp_isinf normal vadd fuel m s steps di n sim r = Some (Ok (d, o, k), r') ->
    (isinf di = false -> forall q, sim = Some (SPt q) -> measured m q di /\ p_distance q = Some di) ->
    forall q, o = Some (SPt q) -> exists x, measured m q (Fin x) /\ p_distance q = Some (Fin x).
  Proof.
    intros m s steps H N Hs fuel. induction fuel as [|f IH]; intros di n sim r d o k r' E Hsim q Ho; cbn [mut_loop] in E.
    - destruct (isinf di) eqn:I; [discriminate|]. unfold cret in E. injection E as E1 E2 E3 E4.
      destruct (Hsim eq_refl q (eq_trans E2 Ho)) as [M D]. destruct (finite_of _ _ _ N M I) as [x ->]. eauto.
    - destruct (isinf di) eqn:I.
      + apply cbind_ok in E. destruct E as (p1 & r1 & E1 & E). apply cbind_ok in E. destruct E as (c & r2 & E2 & E).
        destruct (lp_isinf (ch_lp c)).
        { eapply IH; eauto; intros K; congruence. }
        apply cbind_ok in E. destruct E as (p & r3 & E3 & E). apply cbind_ok in E. destruct E as ([x p'] & r4 & E4 & E).
        assert (M : measured m p' x /\ p_distance p' = Some x).
        { eapply distance_measured; eauto. intros d0 K. unfold clift in E3. inversion E3. eapply H; eauto. }
        destruct (Nat.ltb 20 (S n)).
        * apply cbind_ok in E. destruct E as (e & r5 & E5 & E6). unfold cret in E6. injection E6 as F1 F2 F3 F4.
          rewrite Ho in F2. injection F2 as F2. destruct (Hs q F2) as (y & My). exists y. split; auto. unfold cres in E5. rewrite F2 in E5. simpl in E5.
          destruct My as (ys & Y1 & Y2 & Y3). destruct (p_distance q) as [z|]; [|discriminate]. destruct Y3 as [Y3|Y3]; [discriminate|auto].
        * eapply IH; eauto. cbn [fst snd]. intros _ q0 K. inversion K; subst. auto.
      + unfold cret in E. injection E as E1 E2 E3 E4.
        destruct (Hsim eq_refl q (eq_trans E2 Ho)) as [M D]. destruct (finite_of _ _ _ N M I) as [x ->]. eauto.
  Qed.

  Lemma sample_mutation_finite : forall m fuel par tau p r d q n r', honest m simulate -> never_nan m ->
    (exists x, measured m p (Fin x)) ->
    sample_mutation simulate lp_isinf normal vadd fuel m par tau p r = Some (Ok (d, q, n), r') ->
    exists x, measured m q (Fin x) /\ p_distance q = Some (Fin x).
  Proof.
    intros m fuel par tau p r d q n r' H N Hp E. unfold sample_mutation in E. cbv zeta in E.
    apply cbind_ok in E. destruct E as ([[d1 o] k] & r1 & E1 & E2).
    apply cbind_ok in E2. destruct E2 as (s1 & r2 & E2 & E3). apply cbind_ok in E3. destruct E3 as (q1 & r3 & E3 & E4).
    inversion E4; subst. destruct o as [[q0|j]|]; inversion E2; subst; inversion E3; subst. rewrite through_id.
    eapply mut_loop_spec; try exact E1; auto; [|intros K; discriminate K].
    intros p2 K. destruct par; inversion K; subst. auto.
  Qed.

  Context (unif : G -> R * G).

  Lemma select_spec : forall acc tp t1 r ps k r', (forall r, (0 <= fst (unif r))%R) -> select unif acc tp t1 r = Some (Ok (ps, k), r') ->
    length ps = length acc /\ k <= length acc
    /\ forall i p, nth_error ps i = Some p -> (nth_error acc i = Some true /\ nth_error tp i = Some p) \/ nth_error t1 i = Some p.
  Proof.
    intros acc. induction acc as [|a acc IH]; intros tp t1 r ps k r' U H; cbn [select] in H.
    - inversion H; subst. splits; auto. intros [|i] p K; discriminate.
    - apply cbind_ok in H. destruct H as (u & r1 & H1 & H). cbv zeta in H. apply cbind_ok in H. destruct H as (p & r2 & H2 & H).
      apply cbind_ok in H. destruct H as ([ps' k'] & r3 & H3 & H4). inversion H4; subst. clear H4.
      destruct (IH _ _ _ _ _ _ U H3) as (I1 & I2 & I3). unfold clift in H1. pose proof (U r) as Ur. destruct (unif r) as [u0 r0].
      inversion H1; subst. simpl in Ur. unfold cres in H2. cbn [fst snd].
      destruct (rltb u (if a then 1 else 0)%R) eqn:L.
      + destruct a; [|apply rltb_true in L; lra]. destruct tp as [|p0 tp]; inversion H2; subst. splits; simpl; auto; [lia|].
        intros [|i] q K; simpl in K; [inversion K; auto|]. destruct (I3 i q K) as [[J1 J2]|J]; auto.
        right. destruct t1; [destruct i; discriminate|exact J].
      + destruct t1 as [|p0 t1]; inversion H2; subst. splits; simpl; auto.
        intros [|i] q K; simpl in K; [inversion K; auto|]. destruct (I3 i q K) as [[J1 J2]|J]; auto.
        left. split; auto. destruct tp; [destruct i; discriminate|exact J2].
  Qed.
End Proof.
