(** * Property C98: fitting models to targets as read *)

Require Import Coq.Reals.Reals.
Require Import Verif.ModelNum Verif.ModelTargets Verif.PropsTargets.
Require Import Verif.Base Verif.World Verif.ModelGraph Verif.ModelExpr Verif.ModelLoci Verif.ModelBN Verif.ModelSample
        Verif.ModelFitBase Verif.ModelFloat Verif.ModelResample Verif.ModelABC Verif.ModelSMC Verif.ModelToys
        Verif.SpecBN Verif.SpecSample Verif.ProofBNHist Verif.ProofBase Verif.ProofFloat Verif.PropsResample Verif.PropsABC Verif.ProofSMC Verif.ExWorld
        Verif.PropsBN Verif.PropsSample Verif.PropsSMC.
Require Import Coq.ZArith.ZArith Lia Lra.
Local Open Scope nat_scope.

(** ** The specification, in terms of what is passed to read_targets *)

(** the error of an entry *)
Definition err_of (error : R) (e : option R) : R := match e with Some x => x | None => error end.

(** the entry is a point whose error times value has the property P, or an interval *)
Definition point_entry (P : R -> Prop) (error : R) (v : raw) : Prop :=
  match v with
  | RNum x => P (error * x)%R
  | RDict (Some m) (Some l) (Some u) _ => True
  | RDict (Some m) _ _ e => P (err_of error e * m)%R
  | _ => False
  end.
(** ... or a distribution whose log density is finite everywhere *)
Definition finite_entry (error : R) (v : raw) : Prop :=
  point_entry (fun x => x <> 0%R) error v \/ exists d, v = RText (Ok d) /\ forall s, exists x, fd_logpdf d s = Fin x.

(** ** Targets *)

Definition finite_def (t : tdef) : Prop :=
  match t with TPoint v e => (e * v <> 0)%R | TRange _ l u => (l < u)%R | TDistr d => forall s, exists x, fd_logpdf d s = Fin x end.
Definition settled_def (t : tdef) : Prop :=
  match t with TPoint v e => (0 < e * v)%R | TRange _ l u => (l < u)%R | TDistr d => False end.

Lemma finite_distance : forall t s, finite_def t -> exists x, ModelTargets.distance t s = Fin x.
Proof.
  intros [v e|m l u|d] s H; simpl in H.
  - rewrite point_closed by auto. eauto.
  - rewrite range_closed by auto. eauto.
  - simpl. destruct (H s) as [x ->]. simpl. eauto.
Qed.
Lemma settled_distance : forall t s, settled_def t -> exists x, ModelTargets.distance t s = Fin x /\ (0 <= x)%R /\ (x = 0%R <-> s = t_value t).
Proof.
  assert (K : forall a b c, (0 < c)%R -> (0 <= (a - b) ^ 2 * (z95 / c))%R /\ (((a - b) ^ 2 * (z95 / c))%R = 0%R <-> a = b)).
  { intros a b c Hc. pose proof z95_pos as Z. assert (P : (0 < z95 / c)%R) by (apply div_pos; auto). pose proof (sq_nonneg (a - b)) as Q. split.
    - apply Rmult_le_pos; lra.
    - split; [|intros ->; ring]. intros E. destruct (Req_EM_T a b) as [|N]; auto. exfalso.
      assert (0 < (a - b) ^ 2)%R by (apply sq_pos; lra). assert (0 < (a - b) ^ 2 * (z95 / c))%R by (apply Rmult_lt_0_compat; auto). lra. }
  intros [v e|m l u|d] s H; simpl in H; [| |destruct H].
  - rewrite point_closed by lra. eexists. split; [reflexivity|]. apply K; auto.
  - rewrite range_closed by auto. eexists. split; [reflexivity|]. apply K; lra.
Qed.
(** a point with error or value zero *)
Lemma zero_distance : forall v e s, (e * v = 0)%R -> ModelTargets.distance (TPoint v e) s = if reqb s v then NaN else PInf.
Proof.
  intros v e s H. unfold ModelTargets.distance, p_std, fdiv. assert (E : reqb (e * v / 2 / (196 / 100)) 0 = true) by (apply reqb_true; rewrite H; field).
  rewrite E. destruct (reqb s v) eqn:Es.
  - apply reqb_true in Es. subst. assert (K : reqb ((v - v) ^ 2) 0 = true) by (apply reqb_true; ring). rewrite K. auto.
  - apply reqb_false in Es. assert (P : (0 < (s - v) ^ 2)%R) by (apply sq_pos; lra).
    assert (K : reqb ((s - v) ^ 2) 0 = false) by (apply reqb_false; lra). rewrite K. apply rltb_true in P. rewrite P. auto.
Qed.

Lemma read_defs : forall (P : R -> Prop) src error ts k t, NoDup (dkeys src) -> read_targets src error = Ok ts -> dget ts k = Some t ->
  exists v, dget src k = Some v /\
  (point_entry P error v -> s_name t = k /\ match s_def t with TPoint x e => P (e * x)%R | TRange _ l u => (l < u)%R | TDistr _ => False end)
  /\ (forall d, v = RText (Ok d) -> t = mkSingle k (TDistr d)).
Proof.
  intros P src error ts k t N H K. destruct (C54_read _ _ _ N H) as [H1 H2].
  destruct (dget src k) as [v|] eqn:E.
  - exists v. split; auto. destruct (H2 k v E) as (t' & K' & M). rewrite K in K'. injection K' as <-. split.
    + intros Q. destruct v as [x|[m|] [l|] [u|] [e|]|d|x|]; simpl in Q; try (exfalso; exact Q);
        first [solve [rewrite M; simpl; auto]|destruct M as [-> M]; simpl; split; [reflexivity|lra]].
    + intros d ->. destruct M as (x & X & ->). injection X as <-. auto.
  - exfalso. assert (I : In k (dkeys ts)) by (apply dget_In; eauto). rewrite H1 in I. apply dget_None in E. auto.
Qed.

Section Data.
  Context {w : world} (number : V w -> option flt) (nonfinite : fdist -> flt -> flt).
  (** every number simulated is finite *)
  Definition finite_numbers : Prop := forall v x, number v = Some x -> exists s, x = Fin s.
  Notation data_of := (data_of number nonfinite).
  Notation tot ts := (total (w:=w) (Fin 0) fadd t_dist (map (fun kt => (fst kt, data_of (snd kt))) ts)).

  (** the values simulated for the targets, in their order *)
  Definition simulated (ts : dict single) (ys : dict (V w)) (ss : list R) : Prop :=
    Forall2 (fun kt s => exists v, dget ys (s_name (snd kt)) = Some v /\ number v = Some (Fin s)) ts ss.
  Fixpoint fadds (a : flt) (l : list flt) : flt := match l with [] => a | x :: l' => fadds (fadd a x) l' end.

  Lemma total_spec : finite_numbers -> forall (ts : dict single) ys d, tot ts ys = Ok d ->
    exists ss, simulated ts ys ss /\ d = fadds (Fin 0) (map (fun p => ModelTargets.distance (s_def (snd (fst p))) (snd p)) (combine ts ss)).
  Proof.
    intros F ts ys. unfold total. generalize (Fin 0) as a. induction ts as [|[k t] ts IH]; intros a d H; cbn [map foldM fst snd] in H.
    - injection H as <-. exists []. split; [constructor|]. reflexivity.
    - unfold ModelToys.data_of at 1 in H. cbn [t_dist] in H. unfold dgetE in H.
      destruct (dget ys (s_name t)) as [v|] eqn:E; [|discriminate H]. cbn [bind] in H.
      destruct (number v) as [x|] eqn:N; [|discriminate H]. destruct (F v x N) as [s ->]. cbn [bind] in H.
      apply IH in H. destruct H as (ss & S1 & S2). exists (s :: ss). split; [constructor; auto; exists v; auto|]. exact S2.
  Qed.
  Lemma total_complete : forall (ts : dict single) ys ss, simulated ts ys ss -> 
    tot ts ys = Ok (fadds (Fin 0) (map (fun p => ModelTargets.distance (s_def (snd (fst p))) (snd p)) (combine ts ss))).
  Proof.
    intros ts ys ss S. unfold total. generalize (Fin 0) as a. induction S as [|[k t] s ts ss (v & V1 & V2) S IH]; intros a; cbn [map foldM fst snd combine fadds]; auto.
    unfold ModelToys.data_of at 1. cbn [t_dist]. unfold dgetE. cbn [snd] in V1. rewrite V1. cbn [bind]. rewrite V2. cbn [bind]. apply IH.
  Qed.
End Data.

Lemma fadds_fin : forall l a, Forall (fun x => exists y, x = Fin y) l -> exists y, fadds (Fin a) l = Fin y.
Proof.
  induction l as [|x l IH]; intros a F; simpl; [eauto|]. inversion F as [|? ? [y ->] F']; subst. simpl. apply IH; auto.
Qed.
Lemma fadds_rsum : forall l a, fadds (Fin a) (map Fin l) = Fin (a + rsum l).
Proof. induction l as [|x l IH]; intros a; simpl; [f_equal; ring|]. rewrite IH. f_equal. ring. Qed.
Lemma fadds_nan : forall l, fadds NaN l = NaN.
Proof. induction l; simpl; auto. Qed.
Lemma fadds_pinf : forall l, Forall (fun x => exists y, x = Fin y) l -> fadds PInf l = PInf.
Proof. induction l as [|x l IH]; intros F; simpl; auto. inversion F as [|? ? [y ->] F']; subst. simpl. auto. Qed.

(** the data value of an entry *)
Definition entry_value (v : raw) : option R :=
  match v with RNum x => Some x | RDict (Some m) _ _ _ => Some m | _ => None end.

Lemma pair_get : forall A (d : dict A) k v, NoDup (dkeys d) -> In (k, v) d -> dget d k = Some v.
Proof.
  intros A d k v. induction d as [|[k' v'] d IH]; intros N H; [destruct H|]. simpl in N. inversion N as [|? ? N1 N2]; subst.
  simpl. destruct H as [H|H].
  - injection H as -> ->. rewrite String.eqb_refl. auto.
  - destruct (String.eqb_spec k k') as [->|]; auto. exfalso. apply N1. apply (in_map fst) in H. exact H.
Qed.
Lemma finite_defs : forall src error ts, NoDup (dkeys src) -> read_targets src error = Ok ts ->
  (forall k v, dget src k = Some v -> finite_entry error v) -> Forall (fun kt => finite_def (s_def (snd kt))) ts.
Proof.
  intros src error ts N H F. apply Forall_forall. intros [k t] I. destruct (C54_read _ _ _ N H) as [H1 _].
  assert (K : dget ts k = Some t) by (apply pair_get; auto; rewrite H1; auto).
  destruct (read_defs (fun x => x <> 0%R) _ _ _ _ _ N H K) as (v & E & R1 & R2). destruct (F k v E) as [Q|(d & -> & Q)].
  - destruct (R1 Q) as [_ R]. cbn [snd]. destruct (s_def t); simpl; auto. destruct R.
  - rewrite (R2 d eq_refl). simpl. exact Q.
Qed.
Lemma distances_finite : forall (ts : dict single) ss, Forall (fun kt => finite_def (s_def (snd kt))) ts -> 
  Forall (fun x => exists y, x = Fin y) (map (fun p : name * single * R => ModelTargets.distance (s_def (snd (fst p))) (snd p)) (combine ts ss)).
Proof.
  intros ts ss F. apply Forall_forall. intros x I. apply in_map_iff in I. destruct I as ([[k t] s] & <- & I). apply in_combine_l in I.
  rewrite Forall_forall in F. apply F in I. cbn [fst snd] in *. apply finite_distance; auto.
Qed.

(** If the numbers simulated are finite and every entry is an interval, a point with non-zero error
    and value, or a distribution with a finite log density, every distance is finite. *)
Theorem C98_finite : forall w number nonfinite src error ts b exo free ys d,
  @finite_numbers w number -> NoDup (dkeys src) -> read_targets src error = Ok ts ->
  (forall k v, dget src k = Some v -> finite_entry error v) ->
  total (Fin 0) fadd t_dist (dm_data (data_model number nonfinite ts b exo free)) ys = Ok d -> exists x, d = Fin x.
Proof.
  intros w number nonfinite src error ts b exo free ys d F N H E T. cbn [dm_data data_model] in T.
  apply total_spec in T; auto. destruct T as (ss & _ & ->). apply fadds_fin. apply distances_finite. eapply finite_defs; eauto.
Qed.
Print Assumptions C98_finite.

(** If error and value of every point have the same sign, distances are never negative, and zero
    exactly if the data themselves are simulated. *)
Theorem C98_positive : forall w number nonfinite src error ts b exo free ys d,
  @finite_numbers w number -> NoDup (dkeys src) -> read_targets src error = Ok ts ->
  (forall k v, dget src k = Some v -> point_entry (fun x => (0 < x)%R) error v) ->
  total (Fin 0) fadd t_dist (dm_data (data_model number nonfinite ts b exo free)) ys = Ok d ->
  exists x, d = Fin x /\ (0 <= x)%R
  /\ (x = 0%R <-> forall k v y, dget src k = Some v -> entry_value v = Some y -> exists z, dget ys k = Some z /\ number z = Some (Fin y)).
Proof.
  intros w number nonfinite src error ts b exo free ys d F N H E T. cbn [dm_data data_model] in T.
  apply total_spec in T; auto. destruct T as (ss & S & ->). destruct (C54_read _ _ _ N H) as [H1 H2].
  assert (Df : forall k t, In (k, t) ts -> settled_def (s_def t) /\ s_name t = k).
  { intros k t I. assert (K : dget ts k = Some t) by (apply pair_get; auto; rewrite H1; auto).
    destruct (read_defs (fun x => (0 < x)%R) _ _ _ _ _ N H K) as (v & Ev & R1 & _). destruct (R1 (E k v Ev)) as [R2 R3]. split; auto. }
  assert (L : exists xs, map (fun p : name * single * R => ModelTargets.distance (s_def (snd (fst p))) (snd p)) (combine ts ss) = map Fin xs
    /\ Forall (fun x => (0 <= x)%R) xs /\ (Forall (fun x => x = 0%R) xs <-> Forall2 (fun kt s => s = t_value (s_def (snd kt))) ts ss)).
  { clear H1 H2 H. induction S as [|[k t] s ts ss V S IH]; [exists []; splits; auto; split; constructor|].
    destruct IH as (xs & X1 & X2 & X3); [intros k' t' I; apply Df; simpl; auto|].
    destruct (Df k t (or_introl eq_refl)) as [D1 _]. destruct (settled_distance (s_def t) s D1) as (x & Y1 & Y2 & Y3).
    exists (x :: xs). cbn [combine map fst snd]. rewrite Y1, X1. splits; auto. split; intros K; inversion K; subst; constructor; cbn [snd] in *; tauto. }
  destruct L as (xs & -> & P & Q). rewrite fadds_rsum. exists (0 + rsum xs)%R. split; auto. pose proof (rsum_nonneg xs P) as P'. split; [lra|].
  assert (Z : (0 + rsum xs)%R = 0%R <-> Forall (fun x => x = 0%R) xs).
  { split; intros K; [apply rsum_zero; auto; lra|]. clear - K. induction K as [|x xs -> K IH]; simpl; lra. }
  rewrite Z, Q. clear Z Q P P' xs. split.
  - intros K k v y Kv Ky. destruct (H2 k v Kv) as (t & T1 & T2). apply dget_in_pair in T1 as I.
    assert (Y : t_value (s_def t) = y).
    { destruct v as [x|[m|] [l|] [u|] [e|]|dd|x|]; simpl in Ky; try discriminate; injection Ky as <-;
        first [rewrite T2; reflexivity|destruct T2 as [-> _]; reflexivity]. }
    rewrite <- Y. clear - S K I Df. induction S as [|[k0 t0] s ts ss (z & V1 & V2) S IH]; [destruct I|]. inversion K; subst.
    destruct I as [I|I]; [|apply IH; auto; intros; apply Df; simpl; auto]. injection I as -> ->. cbn [snd] in *.
    destruct (Df k t (or_introl eq_refl)) as [_ <-]. exists z. auto.
  - intros K. assert (K2 : forall k t, In (k, t) ts -> exists z, dget ys k = Some z /\ number z = Some (Fin (t_value (s_def t)))).
    { intros k t I. assert (G : dget ts k = Some t) by (apply pair_get; auto; rewrite H1; auto).
      destruct (read_defs (fun x => (0 < x)%R) _ _ _ _ _ N H G) as (v & Ev & _). pose proof (E k v Ev) as Pe.
      destruct (H2 k v Ev) as (t' & T1 & T2). rewrite G in T1. injection T1 as <-. apply (K k v); auto.
      destruct v as [x|[m|] [l|] [u|] [e|]|dd|x|]; simpl in Pe; try (exfalso; exact Pe);
        first [rewrite T2; reflexivity|destruct T2 as [-> _]; reflexivity]. }
    clear - S K2 Df. induction S as [|[k t] s ts ss (z & V1 & V2) S IH]; constructor.
    + cbn [snd] in *. destruct (K2 k t (or_introl eq_refl)) as (z' & Z1 & Z2). destruct (Df k t (or_introl eq_refl)) as [_ Nm]. congruence.
    + apply IH; [intros; apply Df|intros; apply K2]; simpl; auto.
Qed.
Print Assumptions C98_positive.

(** A simulation that returns a new particle, as all of toys.py do, notes no distance. *)
Definition fresh_particles {w} (simulate : chrom w -> RNG w -> res (particle w flt) * RNG w) : Prop :=
  forall c r p r', simulate c r = (Ok p, r') -> p = pt_new c (p_sims p).
Lemma fresh_honest : forall w (m : dmodel w flt) simulate, fresh_particles simulate -> honest m simulate.
Proof. intros w m simulate H c r p r' d E K. rewrite (H _ _ _ _ E) in K. discriminate K. Qed.

(** So for such targets and such simulations ABC-SMC keeps its invariant in every fit (C57, here
    without further hypotheses), and its tolerance stays above zero. *)
Theorem C98_fit : forall w number nonfinite src error ts b exo free simulate lp_isinf (step : Type) normal vadd wstd draw draw_next unif rounds fuel g pars0 r st r',
  @finite_numbers w number -> NoDup (dkeys src) -> read_targets src error = Ok ts ->
  (forall k v, dget src k = Some v -> point_entry (fun x => (0 < x)%R) error v) ->
  fresh_particles simulate -> (forall r, fair (draw r)) -> standard_uniform unif ->
  smc_fit simulate lp_isinf (step:=step) normal vadd wstd draw draw_next unif rounds fuel g (data_model number nonfinite ts b exo free) pars0 r = Some (Ok st, r') ->
  sound_state (data_model number nonfinite ts b exo free) (n_iter g) st /\ fltb (Fin 0) (s_eps st) = true.
Proof.
  intros w number nonfinite src error ts b exo free simulate lp_isinf step normal vadd wstd draw draw_next unif rounds fuel g pars0 r st r' F N H E Fp Hf Hu K.
  set (m := data_model number nonfinite ts b exo free) in *.
  assert (Nn : never_nan m).
  { intros ys T. destruct (C98_finite w number nonfinite src error ts b exo free ys NaN F N H) as [x X]; auto; [|discriminate X].
    intros k v Kv. left. specialize (E k v Kv). destruct v as [x|[m0|] [l|] [u|] [e|]|d|x|]; simpl in *; auto; lra. }
  pose proof (C57_fit_partial _ _ _ _ _ _ _ _ _ _ _ _ _ _ _ _ _ _ (fresh_honest w m simulate Fp) Nn Hf Hu K) as S. split; auto.
  destruct S as ((P1 & (ws & W1 & W2 & W3 & W4) & P3 & P4) & _).
  assert (X : exists i x, nth_error ws i = Some x /\ (0 < x)%R).
  { clear - W3 W4. assert (W5 : (0 < rsum ws)%R) by lra. clear W4. induction ws as [|x ws IH]; [simpl in W5; lra|]. inversion W3 as [|? ? Q1 Q2]; subst. simpl in W5.
    destruct (Rlt_dec 0 x) as [Px|Px]; [exists 0, x; auto|]. destruct IH as (i & y & I); auto; [lra|]. exists (Datatypes.S i), y. auto. }
  destruct X as (i & x & X1 & X2).
  destruct (nth_error (s_pts st) i) as [p|] eqn:Ep.
  2:{ apply nth_error_None in Ep. assert (i < length ws) by (apply nth_error_Some; congruence). lia. }
  destruct (P4 i p (Fin x) Ep) as (d & (ys & M1 & M2 & M3) & Ld); [rewrite W1, nth_error_map, X1; auto|apply fltb_fin; auto|].
  destruct (C98_positive w number nonfinite src error ts b exo free ys d F N H E M2) as (y & -> & Y & _).
  destruct (s_eps st) as [e| | |]; try discriminate Ld; auto. apply fltb_fin in Ld. apply fltb_fin. lra.
Qed.
Print Assumptions C98_fit.

(** ** A point whose error or value is zero *)

(** one entry k is such a point; the others are as in C98_finite *)
Definition zero_entry (error : R) (v : raw) (y : R) : Prop :=
  point_entry (fun x => x = 0%R) error v /\ entry_value v = Some y /\ forall m l u e, v <> RDict (Some m) (Some l) (Some u) e.

Lemma zero_total : forall w number nonfinite src error ts ys d k v y,
  @finite_numbers w number -> NoDup (dkeys src) -> read_targets src error = Ok ts ->
  dget src k = Some v -> zero_entry error v y -> (forall k' v', dget src k' = Some v' -> k' <> k -> finite_entry error v') ->
  total (Fin 0) fadd t_dist (map (fun kt => (fst kt, data_of number nonfinite (snd kt))) ts) ys = Ok d ->
  exists z s, dget ys k = Some z /\ number z = Some (Fin s) /\ d = if reqb s y then NaN else PInf.
Proof.
  intros w number nonfinite src error ts ys d k v y F N H Kv (Z1 & Z2 & Z3) E T.
  apply total_spec in T; auto. destruct T as (ss & S & ->). destruct (C54_read _ _ _ N H) as [H1 H2].
  destruct (H2 k v Kv) as (t & T1 & T2).
  assert (T3 : s_name t = k /\ exists e, s_def t = TPoint y e /\ (e * y = 0)%R).
  { destruct v as [x|[m|] [l|] [u|] [e|]|dd|x|]; simpl in Z1, Z2; try (exfalso; exact Z1); try (injection Z2 as ->); try (exfalso; eapply Z3; reflexivity);
      rewrite T2; cbn [s_name s_def]; split; auto; eexists; (split; [reflexivity|]); auto. }
  assert (Nt : NoDup (dkeys ts)) by (rewrite H1; auto).
  assert (O : forall k' t', In (k', t') ts -> k' <> k -> finite_def (s_def t')).
  { intros k' t' I Ne. assert (K : dget ts k' = Some t') by (apply pair_get; auto).
    destruct (read_defs (fun x => x <> 0%R) _ _ _ _ _ N H K) as (v' & Ev & R1 & R2). destruct (E k' v' Ev Ne) as [Q|(dd & -> & Q)].
    - destruct (R1 Q) as [_ R]. destruct (s_def t'); simpl; auto. destruct R.
    - rewrite (R2 dd eq_refl). simpl. exact Q. }
  destruct T3 as (Nm & e & Df & Ze). apply dget_in_pair in T1. clear H H1 H2 E Kv Z1 Z2 Z3 T2.
  generalize (0%R) as a. induction S as [|[k0 t0] s ts ss (z & V1 & V2) S IH]; intros a; [destruct T1|].
  simpl in Nt. inversion Nt as [|? ? N1 N2]; subst. cbn [combine map fst snd fadds]. cbn [fst snd] in *.
  destruct T1 as [T1|T1].
  - injection T1 as -> ->. rewrite Df, zero_distance by auto. exists z, s. split; auto. split; auto.
    assert (Fr : Forall (fun x => exists y, x = Fin y) (map (fun p : name * single * R => ModelTargets.distance (s_def (snd (fst p))) (snd p)) (combine ts ss))).
    { apply distances_finite. apply Forall_forall. intros [k' t'] I. cbn [snd]. apply (O k' t'); simpl; auto.
      intros ->. apply N1. apply (in_map fst) in I. exact I. }
    destruct (reqb s y); [apply fadds_nan|]. simpl. apply fadds_pinf; auto.
  - assert (Ne : k0 <> s_name t) by (intros ->; apply N1; apply (in_map fst) in T1; exact T1).
    destruct (finite_distance (s_def t0) s (O k0 t0 (or_introl eq_refl) Ne)) as [x ->]. cbn [fadd]. apply IH; auto. intros; apply (O k'); simpl; auto.
Qed.

(** Whatever the other targets are: every particle of the first population simulates exactly the
    value of this target, its distance is nan, and so is the tolerance after the first round; no
    proposal of that round is accepted. *)
Theorem C98_zero : forall w number nonfinite src error ts b exo free k v y simulate lp_isinf (step : Type) normal vadd wstd draw draw_next unif fuel g pars0 r st r',
  @finite_numbers w number -> NoDup (dkeys src) -> read_targets src error = Ok ts ->
  dget src k = Some v -> zero_entry error v y -> (forall k' v', dget src k' = Some v' -> k' <> k -> finite_entry error v') ->
  fresh_particles simulate -> (forall r, fair (draw r)) -> standard_uniform unif -> (0 <= alpha g <= 1)%R ->
  let m := data_model number nonfinite ts b exo free in
  initialise simulate draw draw_next fuel g m pars0 r = Some (Ok st, r') ->
  (forall i p, nth_error (s_pts st) i = Some p -> measured m p NaN
     /\ exists ys z, p_ys p = Some ys /\ dget ys k = Some z /\ number z = Some (Fin y))
  /\ forall st1 r1, a_round simulate lp_isinf (step:=step) normal vadd wstd draw draw_next unif fuel g m st r' = Some (Ok st1, r1) ->
     s_eps st1 = NaN /\ s_acc st1 = 0%R.
Proof.
  intros w number nonfinite src error ts b exo free k v y simulate lp_isinf step normal vadd wstd draw draw_next unif fuel g pars0 r st r' F N H Kv Z E Fp Hf Hu Ha m I.
  pose proof (fresh_honest w m simulate Fp) as Hh.
  assert (Key : forall p d, measured m p d -> isinf d = false -> d = NaN /\ exists ys z, p_ys p = Some ys /\ dget ys k = Some z /\ number z = Some (Fin y)).
  { intros p d (ys & M1 & M2 & _) Nf. destruct (zero_total w number nonfinite src error ts ys d k v y F N H Kv Z E M2) as (z & s & D1 & D2 & D3).
    destruct (reqb s y) eqn:Q; [|subst d; discriminate Nf]. apply reqb_true in Q. subst s. split; auto. exists ys, z. auto. }
  unfold initialise in I. cbv zeta in I. apply cbind_ok in I. destruct I as (samples & r1 & I1 & I). apply cbind_ok in I. destruct I as (es & r2 & I2 & I3).
  unfold cret in I3. injection I3 as <- <-. cbn [s_pts s_eps s_wts].
  assert (Nz : n_iter g <> 0) by (intros Q; rewrite Q in I2; discriminate I2).
  assert (S : length samples = n_iter g /\ forall i s, nth_error samples i = Some s -> measured m (snd (fst s)) NaN
     /\ exists ys z, p_ys (snd (fst s)) = Some ys /\ dget ys k = Some z /\ number z = Some (Fin y)).
  { destruct pars0 as [ps|].
    - apply cbind_ok in I1. destruct I1 as (ind & r3 & K1 & K). apply cbind_ok in K. destruct K as (p0s & r4 & K2 & K3).
      destruct (cmap_ok _ _ _ _ _ _ _ _ K3) as [L C]. unfold cres in K2. injection K2 as K2 <-. apply ProofSMC.pick_spec in K2. destruct K2 as [L2 _].
      destruct (Nat.eq_dec (length ps) 0) as [Zp|Zp].
      { rewrite Zp in K1. unfold choice_c, ones in K1. simpl in K1. unfold choice in K1. simpl in K1.
        assert (Q : reqb 0 1 = false) by (apply reqb_false; lra). rewrite Q in K1. discriminate K1. }
      rewrite ones_fin in K1 by auto. destruct (choice_c_ok draw draw_next _ _ _ _ _ _ Hf K1) as (_ & L3 & _). split; [congruence|].
      intros i [[d q] n] Hi. destruct (C i _ Hi) as (p0 & s1 & s2 & _ & Q). cbn [fst snd].
      unfold sample_fin_cont in Q. apply cbind_ok in Q. destruct Q as ([[d1 o] kk] & r5 & E1 & E2).
      destruct (seek_measured m _ _ _ _ _ _ _ _ _ _ _ (attempt_from_measured simulate m p0 Hh) E1 eq_refl) as (q0 & -> & M & Nf).
      simpl in E2. unfold cbind, cres, cret in E2. simpl in E2. inversion E2; subst. rewrite through_id.
      destruct (Key _ _ M Nf) as [-> X]. split; auto.
    - destruct (cmap_ok _ _ _ _ _ _ _ _ I1) as [L C]. rewrite seq_length in L. split; auto.
      intros i [[d q] n] Hi. destruct (C i _ Hi) as (p0 & s1 & s2 & _ & Q). cbn [fst snd].
      unfold sample_fin in Q. apply cbind_ok in Q. destruct Q as ([[d1 o] kk] & r5 & E1 & E2).
      destruct (seek_measured m _ _ _ _ _ _ _ _ _ _ _ (attempt_measured simulate m Hh) E1 eq_refl) as (q0 & -> & M & Nf).
      simpl in E2. unfold cbind, cres, cret in E2. simpl in E2. inversion E2; subst. rewrite through_id.
      destruct (Key _ _ M Nf) as [-> X]. split; auto. }
  destruct S as [L S].
  assert (P : forall i p, nth_error (map (fun s => snd (fst s)) samples) i = Some p -> measured m p NaN
     /\ exists ys z, p_ys p = Some ys /\ dget ys k = Some z /\ number z = Some (Fin y)).
  { intros i p K. rewrite nth_error_map in K. destruct (nth_error samples i) as [s|] eqn:Es; inversion K; subst. apply (S i s Es). }
  split; [exact P|].
  intros st1 r3 R. match type of R with a_round _ _ _ _ _ _ _ _ _ _ _ ?st0 ?r0 = _ =>
    destruct (C57_nan_takes_over w simulate lp_isinf step normal vadd wstd draw draw_next unif fuel g m st0 r0 st1 r3 (repeat (1 / INR (n_iter g))%R (n_iter g)) Ha Hf Hu) as (R1 & R2 & _) end;
    cbn [s_eps s_wts s_pts]; auto.
  - apply ones_fin; auto.
  - apply ones_pos; auto.
  - rewrite map_length, repeat_length. auto.
  - intros i p K. exists NaN. split; auto. apply (P i p K).
  - destruct samples as [|s ss]; [simpl in L; congruence|]. exists 0, (snd (fst s)). split; auto. apply (P 0). auto.
Qed.
Print Assumptions C98_zero.

(** ** Models of two networks *)

(** A simulation that samples a second network given the parameters: the particle has these
    parameters, what is simulated contains them unchanged and every variable of the second network;
    a variable that is also a parameter is not simulated. Without a parameter for each of its
    exogenous variables it raises ValueError. *)
Theorem C98_two_step : forall w (b2 : bn w) c r, built b2 ->
  fresh_particles (two_step b2)
  /\ (forall p r', two_step b2 c r = (Ok p, r') ->
        p_pars p = c
        /\ (forall k, In k (dkeys (p_sims p)) <-> node b2 k \/ In k (dkeys (ch_locus c)))
        /\ (forall k v, dget (ch_locus c) k = Some v -> dget (p_sims p) k = Some v)
        /\ (forall n, node b2 n -> ~ In n (dkeys (ch_locus c)) -> produced b2 (dget (p_sims p)) n))
  /\ ((exists n, holds b2 n (LExo n) /\ ~ In n (dkeys (ch_locus c))) -> two_step b2 c r = (Err ValueError, r)).
Proof.
  intros w b2 c r B. splits.
  - intros c0 r0 p r' H. unfold two_step in H. destruct (sample b2 (ch_locus c0) r0) as [[d|e] r1]; [|discriminate H]. injection H as <- <-. reflexivity.
  - intros p r' H. unfold two_step in H. destruct (sample b2 (ch_locus c) r) as [[d|e] r1] eqn:E; [|discriminate H]. injection H as <- <-.
    destruct (C25_complete w b2 _ _ _ _ B E) as (C1 & C2 & C3). cbn [pt_new p_pars p_sims]. auto.
  - intros H. unfold two_step. rewrite C26_missing_exo; auto.
Qed.
Print Assumptions C98_two_step.

(** Every draw of the prior can be simulated if the variables that the second network leaves open are
    variables of the prior or given, and the definitions of both networks can be evaluated on
    values as P says (for example numbers, those of scales positive) and give such values. *)
Theorem C98_prior : forall w (b b2 : bn w) exo (P : name -> V w -> Prop) r c r1 r2, built b -> built b2 ->
  (forall n, holds b2 n (LExo n) -> node b n \/ In n (dkeys exo)) ->
  (forall k v, dget exo k = Some v -> P k v) ->
  (forall n, node b n -> ~ In n (dkeys exo) -> total_node P (fun k => node b k \/ In k (dkeys exo)) b n) ->
  (forall n, node b2 n -> ~ (node b n \/ In n (dkeys exo)) -> total_node P (fun k => node b2 k \/ node b k \/ In k (dkeys exo)) b2 n) ->
  sample_prior b exo r = (Ok c, r1) ->
  exists p r', two_step b2 c r2 = (Ok p, r') /\ forall k v, dget (p_sims p) k = Some v -> P k v.
Proof.
  intros w b b2 exo P r c r1 r2 B B2 Hx He H1 H2 H. unfold sample_prior in H. destruct (sample b exo r) as [[d|e] r0] eqn:E; [|discriminate H].
  destruct (evaluate_nodes b d) as [lp|e]; [|discriminate H]. injection H as <- <-.
  destruct (C25_complete w b _ _ _ _ B E) as (C1 & _ & _).
  destruct (C25_succeeds w b exo r P B) as (d' & r' & S & Pd); auto.
  { intros n Hn. destruct (In_dec_name n (dkeys exo)); auto. exfalso. rewrite C26_missing_exo in E; [discriminate E|auto|eauto]. }
  rewrite E in S. injection S as <- <-.
  destruct (C25_succeeds w b2 d r2 P B2) as (d2 & r3 & S & Pd2); auto.
  - intros n Hn. apply C1. auto.
  - intros n Hn Nn l rho q Hl Hs. apply H2; auto; [intros K; apply Nn, C1; auto|].
    intros k v K. destruct (Hs k v K) as [[Q|Q] Q']; split; auto. right. apply C1. auto.
  - unfold two_step. cbn [ch_locus]. rewrite S. exists (pt_new (mkChrom d lp) d2), r3. auto.
Qed.
Print Assumptions C98_prior.

(** ** Concrete cases *)

(** a point target of value 1 whose standard deviation is 1, and simulated values at the distances
    of C57_example_fit from it *)
Definition toy_num (f : Z -> R) (v : V exw) : option flt := match v with PZ z => Some (Fin (f z)) | _ => None end.
Definition toy_f (z : Z) : R := (1 + sqrt (match tab_a z with Fin x => x | _ => 0 end))%R.
Definition toy_src : dict raw := [("y", RNum 1%R)].
Definition toy_ts (v e : R) : dict single := [("y", mkSingle "y" (TPoint v e))].
Definition toy_nf (_ : fdist) (_ : flt) : flt := NaN.

Lemma toy_same : forall f v e tab, (forall z, ModelTargets.distance (TPoint v e) (f z) = tab z) ->
  data_model (w:=exw) (toy_num f) toy_nf (toy_ts v e) exnet [("a", PZ 1); ("s", PZ 2)] ["x"] = exsmc tab.
Proof.
  intros f v e tab H. unfold data_model, exsmc, toy_ts. cbn [map fst snd]. unfold data_of. cbn [s_name s_def]. do 4 f_equal.
  apply FunctionalExtensionality.functional_extensionality. intros ys. unfold ex_target, dgetE. destruct (dget ys "y") as [[z|s|g| |tp fs]|]; try reflexivity.
  cbn [bind toy_num]. unfold distance_at. rewrite H. reflexivity.
Qed.
Lemma toy_numbers : forall f, finite_numbers (w:=exw) (toy_num f).
Proof. intros f [z|s|g| |tp fs] x H; simpl in H; try discriminate. injection H as <-. eauto. Qed.
Lemma exsim_fresh : fresh_particles exsim.
Proof. intros c r p r' H. unfold exsim in H. injection H as <- <-. reflexivity. Qed.

Example C98_example_fit : exists st r',
  smc_fit exsim (fun _ => false) ex_normal ex_vadd ex_wstd ex_draw (fun r => r) ex_unif 1 1 ex_cfg
    (data_model (w:=exw) (toy_num toy_f) toy_nf (toy_ts 1 z95) exnet [("a", PZ 1); ("s", PZ 2)] ["x"]) None 0 = Some (Ok st, r')
  /\ s_eps st = Fin 7
  /\ read_targets toy_src z95 = Ok (toy_ts 1 z95) /\ NoDup (dkeys toy_src) /\ finite_numbers (w:=exw) (toy_num toy_f) /\ fresh_particles exsim
  /\ (forall k v, dget toy_src k = Some v -> point_entry (fun x => (0 < x)%R) z95 v /\ finite_entry z95 v).
Proof.
  assert (D : forall z, ModelTargets.distance (TPoint 1 z95) (toy_f z) = tab_a z).
  { intros z. pose proof z95_pos as Z. rewrite point_closed by lra.
    assert (T : exists x, tab_a z = Fin x /\ (0 <= x)%R).
    { unfold tab_a. repeat match goal with |- context[match ?x with _ => _ end] => destruct x end; eexists; (split; [reflexivity|lra]). }
    destruct T as (x & T & P). unfold toy_f. rewrite T. f_equal. replace (1 + sqrt x - 1)%R with (sqrt x) by ring.
    replace (sqrt x ^ 2)%R with (sqrt x * sqrt x)%R by ring. rewrite sqrt_sqrt by auto. field. lra. }
  rewrite (toy_same toy_f 1%R z95 tab_a D). destruct C57_example_fit as (st & r' & E1 & E2 & _). exists st, r'.
  splits; auto; [repeat constructor; simpl; tauto|apply toy_numbers|apply exsim_fresh|].
  intros k v H. simpl in H. destruct (String.eqb k "y"); [|discriminate H]. injection H as <-. pose proof z95_pos. split; [simpl; lra|left; simpl; lra].
Qed.

(** a target of value 0, always hit: the fit starts with particles of distance nan only *)
Example C98_example_zero : exists st r',
  initialise exsim ex_draw (fun r => r) 1 ex_cfg (data_model (w:=exw) (toy_num (fun _ => 0%R)) toy_nf (toy_ts 0 (1 / 10)) exnet [("a", PZ 1); ("s", PZ 2)] ["x"]) None 0 = Some (Ok st, r')
  /\ length (s_pts st) = 4 /\ zero_entry (1 / 10) (RNum 0) 0 /\ read_targets [("y", RNum 0%R)] (1 / 10) = Ok (toy_ts 0 (1 / 10)).
Proof.
  assert (D : forall z : Z, ModelTargets.distance (TPoint 0 (1 / 10)) 0 = NaN).
  { intros _. rewrite zero_distance by lra. assert (E : reqb 0 0 = true) by (apply reqb_true; auto). rewrite E. auto. }
  rewrite (toy_same (fun _ => 0%R) 0%R (1 / 10)%R (fun _ => NaN) D).
  assert (E : match initialise exsim ex_draw (fun r => r) 1 ex_cfg (exsmc (fun _ => NaN)) None 0 with Some (Ok st, r') => length (s_pts st) = 4 | _ => False end).
  { unfold initialise. cbv zeta. unfold cbind at 1. cbn [n_iter ex_cfg].
    match goal with |- context[cmap ?f ?l 0] => assert (E : option_map (fun x => (match fst x with Ok ss => Ok (length ss) | Err e => Err e end, snd x)) (cmap f l 0) = Some (Ok 4, 8)) end.
    { vm_compute. reflexivity. }
    match goal with |- context[cmap ?f ?l 0] => destruct (cmap f l 0) as [[[l0|e] r']|] end; [|discriminate E|discriminate E].
    simpl in E. injection E as E1 E2. unfold cbind, cres, ess_of. cbn [ones repeat map]. unfold cret. cbn [s_pts]. rewrite map_length. exact E1. }
  destruct (initialise exsim ex_draw (fun r => r) 1 ex_cfg (exsmc (fun _ => NaN)) None 0) as [[[st|e] r']|]; try destruct E.
  exists st, r'. splits; auto. unfold zero_entry. splits; auto; [simpl; lra|discriminate].
Qed.

(** t = x + k and u ~ norm(x, s), given x, k and s; and y = x, which is a parameter already *)
Definition toy_t : loci exw := LFunc "t" (e_add (EName "x") (EName "k")) ["x"; "k"].
Definition toy_u : loci exw := LDist "u" (e_norm (EName "x") (EName "s")) ["x"; "s"].
Definition toy_y : loci exw := LFunc "y" (EName "x") ["x"].
Definition toy_net : bn exw := mkBn "data"
  [("t", mkAttr toy_t None); ("x", mkAttr (LExo "x") None); ("k", mkAttr (LExo "k") None);
   ("u", mkAttr toy_u None); ("s", mkAttr (LExo "s") None); ("y", mkAttr toy_y None)]
  [("x", "t"); ("k", "t"); ("x", "u"); ("s", "u"); ("x", "y")] false None [].
Lemma toy_defs : defs (bn_new "data") [toy_t; toy_u; toy_y] = toy_net.
Proof. exact (eq_refl toy_net <: defs (bn_new "data") [toy_t; toy_u; toy_y] = toy_net). Qed.
Example C98_example_two_step : built toy_net
  /\ (match sample_prior exnet [("a", PZ 1); ("s", PZ 2)] 3 with
      | (Ok c, r) => option_map (fun p => (dget (p_sims p) "t", dget (p_sims p) "u", dget (p_sims p) "y", dget (ch_locus c) "x", dget (ch_locus c) "y"))
                       (match fst (two_step toy_net c r) with Ok p => Some p | Err _ => None end)
      | _ => None end) = Some (Some (PZ 6), Some (PZ 8), Some (PZ 6), Some (PZ 4), Some (PZ 6))
  /\ fst (two_step toy_net (mkChrom (w:=exw) [("x", PZ 1)] LNan) 0) = Err ValueError.
Proof.
  split; [rewrite <- toy_defs; apply defs_built; [constructor|vm_compute; reflexivity]|]. split; vm_compute; reflexivity.
Qed.

(** the hypotheses of C98_prior, for exnet as prior *)
Definition toy_exo : dict (V exw) := [("a", PZ 1%Z); ("s", PZ 2%Z)].
Example C98_example_prior : (forall n, holds toy_net n (LExo n) -> node exnet n \/ In n (dkeys toy_exo))
  /\ (forall k v, dget toy_exo k = Some v -> ex_safe k v)
  /\ (forall n, node exnet n -> ~ In n (dkeys toy_exo) -> total_node ex_safe (fun k => node exnet k \/ In k (dkeys toy_exo)) exnet n)
  /\ (forall n, node toy_net n -> ~ (node exnet n \/ In n (dkeys toy_exo)) ->
        total_node ex_safe (fun k => node toy_net k \/ node exnet k \/ In k (dkeys toy_exo)) toy_net n).
Proof.
  destruct C25_example_safe as (_ & _ & S). splits.
  - intros n (a & H1 & H2). unfold node. simpl in H1.
    repeat (match type of H1 with context[String.eqb n ?q] => destruct (String.eqb_spec n q) as [->|] end; [injection H1 as <-; simpl in H2; try discriminate H2; simpl; auto 10|]). discriminate.
  - intros k v H. simpl in H. unfold ex_safe.
    repeat (match type of H with context[String.eqb k ?q] => destruct (String.eqb_spec k q) as [->|] end; [injection H as <-; eexists; split; [reflexivity|first [intros _; reflexivity|intros Q; discriminate Q]]|]). discriminate.
  - intros n Hn Nn l rho r Hl Hs. apply S; auto.
    + intros K. unfold node in Hn. simpl in Hn, K, Nn. destruct K as [<-|[<-|[<-|[]]]]; auto. intuition discriminate.
    + intros k v K. destruct (Hs k v K) as [Q Q']. split; auto. simpl in Q |- *. tauto.
  - intros n Hn Nn l rho r (a & H1 & H2) Hs Hp.
    assert (Val : forall p, In p (loci_parents l) -> exists z, rho p = Some (PZ z) /\ (p = "s" -> (0 < z)%Z)).
    { intros p K. specialize (Hp p K). destruct (rho p) as [v|] eqn:E; [|exfalso; apply Hp; reflexivity]. destruct (Hs p v E) as [_ (z & -> & Z)]. exists z. split; [reflexivity|exact Z]. }
    assert (Nnorm : rho "norm" = None).
    { destruct (rho "norm") as [v|] eqn:E; auto. destruct (Hs _ _ E) as [K _]. exfalso. unfold node in K. simpl in K. clear - K. intuition discriminate. }
    simpl in H1. repeat (match type of H1 with context[String.eqb n ?q] => destruct (String.eqb_spec n q) as [->|] end; [injection H1 as <-; simpl in H2; subst l|]);
      try discriminate H1; try (exfalso; apply Nn; left; clear; unfold node; simpl; auto 10; fail).
    + destruct (Val "x") as (za & Ea & _); [left; reflexivity|]. destruct (Val "k") as (zs & Es & _); [right; left; reflexivity|].
      unfold render. simpl. rewrite Ea, Es. simpl. do 2 eexists. split; [reflexivity|]. eexists. split; [reflexivity|discriminate].
    + destruct (Val "x") as (za & Ea & _); [left; reflexivity|]. destruct (Val "s") as (zs & Es & Zs); [right; left; reflexivity|].
      unfold render, get_distribution, parse_distribution. simpl. unfold get_blueprint, complete_def, lookup. simpl. unfold lookup. simpl. rewrite Ea, Es, Nnorm. simpl.
      destruct (Z.leb_spec zs 0); [specialize (Zs eq_refl); lia|]. simpl. do 2 eexists. split; [reflexivity|]. eexists. split; [reflexivity|discriminate].
Qed.
