(** * Properties C91 and C92: step sizes and random walk of ABC-SMC *)

Require Import Coq.Reals.Reals Coq.micromega.Lra Coq.micromega.Lia Coq.ZArith.ZArith.
Require Import Verif.Base Verif.World Verif.ModelGraph Verif.ModelExpr Verif.ModelLoci Verif.ModelBN Verif.ModelSample
        Verif.ModelFitBase Verif.ModelFloat Verif.ModelResample Verif.ModelABC Verif.ModelSMC Verif.ModelSpread
        Verif.SpecBN Verif.SpecSample Verif.ProofBase Verif.ProofBN Verif.ProofBNHist Verif.ProofFloat Verif.PropsResample Verif.PropsABC Verif.ProofSMC
        Verif.PropsSample Verif.PropsSMC Verif.PropsSMCMut Verif.ExWorld Verif.PropsBN.
Local Open Scope R_scope.

(** ** Specification: values with weights *)

(** the sum of [f] over a list *)
Definition over {A} (l : list A) (f : A -> R) : R := rsum (map f l).
(** half the expected squared difference of two members drawn with probabilities proportional to
    the weights (first components) *)
Definition halfdiff (l : list (R * R)) : R :=
  over l (fun p => over l (fun q => fst p * fst q * ((snd p - snd q) * (snd p - snd q))))
  / (2 * (over l fst * over l fst)).
(** two members of positive weight differ *)
Definition differ (l : list (R * R)) : Prop :=
  exists p q, In p l /\ In q l /\ 0 < fst p /\ 0 < fst q /\ snd p <> snd q.
(** weights that can be normalised *)
Definition proper (l : list (R * R)) : Prop := Forall (fun p => 0 <= fst p) l /\ 0 < over l fst.

(** ** Sums *)

Lemma over_cons : forall A (x : A) l f, over (x :: l) f = f x + over l f.
Proof. reflexivity. Qed.
Lemma over_ext : forall A (l : list A) f g, (forall x, In x l -> f x = g x) -> over l f = over l g.
Proof. intros A l f g H. unfold over. f_equal. apply map_ext_in. auto. Qed.
Lemma over_add : forall A (l : list A) f g, over l (fun x => f x + g x) = over l f + over l g.
Proof. induction l as [|x l IH]; intros f g; [unfold over; simpl; lra|]. rewrite !over_cons, IH. lra. Qed.
Lemma over_scale : forall A (l : list A) k f, over l (fun x => k * f x) = k * over l f.
Proof. induction l as [|x l IH]; intros k f; [unfold over; simpl; lra|]. rewrite !over_cons, IH. lra. Qed.
Lemma over_nonneg : forall A (l : list A) f, (forall x, In x l -> 0 <= f x) -> 0 <= over l f.
Proof.
  induction l as [|x l IH]; intros f H; [unfold over; simpl; lra|]. rewrite over_cons.
  pose proof (H x (or_introl eq_refl)). specialize (IH f). assert (0 <= over l f) by (apply IH; intros; apply H; right; auto). lra.
Qed.
Lemma over_zero : forall A (l : list A) f, (forall x, In x l -> 0 <= f x) -> over l f = 0 -> forall x, In x l -> f x = 0.
Proof.
  induction l as [|y l IH]; intros f H E x Hx; [destruct Hx|]. rewrite over_cons in E.
  pose proof (H y (or_introl eq_refl)). assert (P : 0 <= over l f) by (apply over_nonneg; intros; apply H; right; auto).
  destruct Hx as [<-|Hx]; [lra|]. apply IH; auto; [intros; apply H; right; auto|lra].
Qed.

Section Moments.
  Context (l : list (R * R)).
  Notation A := (over l fst).
  Notation B := (over l (fun p => fst p * snd p)).
  Notation C := (over l (fun p => fst p * (snd p * snd p))).

  Lemma around : forall c, over l (fun p => fst p * ((snd p - c) * (snd p - c))) = C - 2 * c * B + c * c * A.
  Proof.
    intros c. transitivity (over l (fun p => fst p * (snd p * snd p) + ((- (2 * c)) * (fst p * snd p) + (c * c) * fst p))).
    - apply over_ext. intros x _. ring.
    - rewrite over_add, over_add, !over_scale. ring.
  Qed.
  Lemma pairs : over l (fun p => over l (fun q => fst p * fst q * ((snd p - snd q) * (snd p - snd q)))) = 2 * A * C - 2 * B * B.
  Proof.
    transitivity (over l (fun p => C * fst p + ((- (2 * B)) * (fst p * snd p) + A * (fst p * (snd p * snd p))))).
    - apply over_ext. intros p _.
      transitivity (fst p * over l (fun q => fst q * ((snd q - snd p) * (snd q - snd p)))).
      + rewrite <- over_scale. apply over_ext. intros q _. ring.
      + rewrite around. ring.
    - rewrite over_add, over_add, !over_scale. ring.
  Qed.
  (** the code's formula and the specification *)
  Lemma halfdiff_moments : A <> 0 -> over l (fun p => fst p * ((snd p - B / A) * (snd p - B / A))) / A = halfdiff l.
  Proof. intros N. unfold halfdiff. rewrite pairs, around. field. auto. Qed.
End Moments.

Lemma halfdiff_pos : forall l, proper l -> (0 < halfdiff l <-> differ l).
Proof.
  intros l [F W]. rewrite Forall_forall in F.
  assert (T : forall p q, In p l -> In q l -> 0 <= fst p * fst q * ((snd p - snd q) * (snd p - snd q))).
  { intros p q Hp Hq. apply Rmult_le_pos; [apply Rmult_le_pos; auto|]. apply Rle_0_sqr. }
  assert (T2 : forall p, In p l -> 0 <= over l (fun q => fst p * fst q * ((snd p - snd q) * (snd p - snd q)))).
  { intros p Hp. apply over_nonneg. auto. }
  set (S := over l (fun p => over l (fun q => fst p * fst q * ((snd p - snd q) * (snd p - snd q))))).
  assert (S0 : 0 <= S) by (apply over_nonneg; auto).
  assert (E : 0 < halfdiff l <-> S <> 0).
  { unfold halfdiff. fold S. assert (0 < 2 * (over l fst * over l fst)) by (assert (0 < over l fst * over l fst) by (apply Rmult_lt_0_compat; auto); lra).
    split; intros K; [intros Z; rewrite Z in K; unfold Rdiv in K; lra|]. apply Rdiv_lt_0_compat; lra. }
  rewrite E. split.
  - intros N. destruct (List.existsb (fun p => List.existsb (fun q => rltb 0 (fst p) && rltb 0 (fst q) && negb (reqb (snd p) (snd q))) l) l) eqn:X.
    + apply existsb_exists in X. destruct X as (p & Hp & X). apply existsb_exists in X. destruct X as (q & Hq & X).
      apply andb_prop in X. destruct X as [X X3]. apply andb_prop in X. destruct X as [X1 X2]. apply rltb_true in X1. apply rltb_true in X2.
      exists p, q. splits; auto. intros Q. apply reqb_true in Q. rewrite Q in X3. discriminate X3.
    + exfalso. apply N. unfold S. transitivity (over l (fun _ => 0 * 0)); [|rewrite over_scale; ring].
      apply over_ext. intros p Hp. transitivity (over l (fun _ => 0 * 0)); [|rewrite over_scale; ring]. apply over_ext. intros q Hq.
      destruct (Rle_lt_or_eq_dec _ _ (F p Hp)) as [P1|P1]; [|rewrite <- P1; ring].
      destruct (Rle_lt_or_eq_dec _ _ (F q Hq)) as [P2|P2]; [|rewrite <- P2; ring].
      destruct (reqb (snd p) (snd q)) eqn:Q; [apply reqb_true in Q; rewrite Q; ring|]. exfalso.
      assert (Y : existsb (fun p => existsb (fun q => rltb 0 (fst p) && rltb 0 (fst q) && negb (reqb (snd p) (snd q))) l) l = true).
      { apply existsb_exists. exists p. split; auto. apply existsb_exists. exists q. split; auto.
        apply rltb_true in P1. apply rltb_true in P2. rewrite P1, P2, Q. reflexivity. }
      rewrite Y in X. discriminate X.
  - intros (p & q & Hp & Hq & Wp & Wq & N) Z. pose proof (over_zero _ l _ T2 Z p Hp) as Z1. cbv beta in Z1.
    assert (Z2 := over_zero _ l _ (fun x Hx => T p x Hp Hx) Z1 q Hq). cbv beta in Z2.
    apply Rmult_integral in Z2. destruct Z2 as [Z2|Z2]; [apply Rmult_integral in Z2; destruct Z2; lra|].
    apply Rmult_integral in Z2. destruct Z2; apply N; lra.
Qed.

(** Popoviciu's inequality *)
Lemma halfdiff_range : forall l a b, proper l -> (forall p, In p l -> 0 < fst p -> a <= snd p <= b) -> halfdiff l <= (b - a) / 2 * ((b - a) / 2).
Proof.
  intros l a b [F W] H. rewrite Forall_forall in F. rewrite <- halfdiff_moments by lra. rewrite around.
  set (A := over l fst) in *. set (B := over l (fun p => fst p * snd p)). set (C := over l (fun p => fst p * (snd p * snd p))).
  assert (K : 0 <= (a + b) * B + (-1) * C + (- (a * b)) * A).
  { unfold A, B, C. rewrite <- !over_scale, <- !over_add. apply over_nonneg. intros p Hp.
    replace ((a + b) * (fst p * snd p) + -1 * (fst p * (snd p * snd p)) + - (a * b) * fst p) with (fst p * ((snd p - a) * (b - snd p))) by ring.
    destruct (Rle_lt_or_eq_dec _ _ (F p Hp)) as [P|P]; [|rewrite <- P; lra]. specialize (H p Hp P).
    apply Rmult_le_pos; [lra|]. apply Rmult_le_pos; lra. }
  set (mu := B / A). assert (EB : B = mu * A) by (unfold mu; field; lra).
  replace ((C - 2 * mu * B + mu * mu * A) / A) with (C / A - mu * mu) by (rewrite EB; field; lra).
  assert (K2 : C / A <= (a + b) * mu - a * b).
  { apply Rmult_le_reg_r with A; auto. replace (C / A * A) with C by (field; lra). rewrite EB in K. lra. }
  pose proof (Rle_0_sqr (mu - (a + b) / 2)) as Sq. unfold Rsqr in Sq. lra.
Qed.

(** ** The average of numpy on finite numbers *)

Lemma average_fin : forall l, over l fst <> 0 ->
  average (map (fun p => Fin (snd p)) l) (map (fun p => Fin (fst p)) l) = Ok (Fin (over l (fun p => fst p * snd p) / over l fst)).
Proof.
  intros l N. unfold average. rewrite !map_length, Nat.eqb_refl. cbv zeta.
  assert (E1 : map (fun p => fmul (fst p) (snd p)) (combine (map (fun p : R * R => Fin (snd p)) l) (map (fun p => Fin (fst p)) l)) = map Fin (map (fun p => fst p * snd p) l)).
  { clear N. induction l as [|x l IH]; [reflexivity|]. cbn [map combine]. rewrite IH. cbn [fst snd fmul]. rewrite (Rmult_comm (snd x)). reflexivity. }
  assert (E2 : map (fun p : R * R => Fin (fst p)) l = map Fin (map fst l)) by (rewrite map_map; reflexivity).
  rewrite E1, E2, !fsum_fin. fold (over l fst) (over l (fun p => fst p * snd p)).
  destruct (reqb (over l fst) 0) eqn:Q; [apply reqb_true in Q; contradiction|].
  cbn [fdivf]. unfold fdiv. rewrite Q. reflexivity.
Qed.
Lemma variance_fin : forall l, over l fst <> 0 -> variance (map (fun p => Fin (snd p)) l) (map (fun p => Fin (fst p)) l) = Ok (Fin (halfdiff l)).
Proof.
  intros l N. unfold variance. rewrite average_fin by auto. cbn [bind]. rewrite map_map.
  set (mu := over l (fun p => fst p * snd p) / over l fst).
  pose (l2 := map (fun p : R * R => (fst p, (snd p - mu) * (snd p - mu))) l).
  assert (E1 : map (fun p : R * R => fdev2 (Fin (snd p)) (Fin mu)) l = map (fun p => Fin (snd p)) l2).
  { unfold l2. rewrite map_map. apply map_ext. intros p. unfold fdev2, fsub. cbn [fmul fadd snd]. f_equal. ring. }
  assert (E2 : map (fun p : R * R => Fin (fst p)) l = map (fun p => Fin (fst p)) l2) by (unfold l2; rewrite map_map; reflexivity).
  assert (E3 : over l2 fst = over l fst) by (unfold over, l2; rewrite map_map; reflexivity).
  rewrite E1, E2, average_fin by (rewrite E3; auto). rewrite E3. do 2 f_equal. rewrite <- halfdiff_moments by auto. fold mu. f_equal.
  unfold over, l2. rewrite map_map. reflexivity.
Qed.

(** ** The dictionary of step sizes *)

Lemma steps_fold : forall A (f : A -> res flt) (key : A -> name) (o : name -> option flt) (doms : list A) s,
  (forall x, In x doms -> exists v, f x = Ok v /\ o (key x) = if fltb (Fin 0) v then Some (fsqrt v) else None) ->
  exists tau, foldM (fun tau x => do var <- f x; Ok (if fltb (Fin 0) var then dset tau (key x) (fsqrt var) else tau)) doms s = Ok tau
    /\ forall k, dget tau k = if mem k (map key doms) then match o k with Some v => Some v | None => dget s k end else dget s k.
Proof.
  intros A f key o doms. induction doms as [|x doms IH]; intros s H; [exists s; split; auto|].
  destruct (H x (or_introl eq_refl)) as (v & E & O). cbn [foldM]. rewrite E. cbn [bind].
  destruct (IH (if fltb (Fin 0) v then dset s (key x) (fsqrt v) else s)) as (tau & T1 & T2); [intros y Hy; apply H; right; auto|].
  exists tau. split; auto. intros k. rewrite T2. cbn [map]. unfold mem at 2. cbn [existsb]. fold (mem k (map key doms)).
  destruct (String.eqb_spec k (key x)) as [->|N]; cbn [orb].
  - rewrite O. destruct (fltb (Fin 0) v); [rewrite dget_dset, String.eqb_refl|]; destruct (mem (key x) (map key doms)); auto.
  - assert (Q : dget (if fltb (Fin 0) v then dset s (key x) (fsqrt v) else s) k = dget s k) by (destruct (fltb (Fin 0) v); auto; rewrite dget_dset; destruct (String.eqb_spec k (key x)); [contradiction|auto]).
    rewrite Q. reflexivity.
Qed.

Section Steps.
  Context {w : world} (num : V w -> flt).
  Implicit Types (m : dmodel w flt) (theta : list (particle w flt)).

  (** [l] are the weights and the values of parameter [x], all finite *)
  Definition weighed theta (wts : list flt) (x : name) (l : list (R * R)) : Prop :=
    wts = map (fun p => Fin (fst p)) l
    /\ Forall2 (fun pt p => exists v, dget (ch_locus (p_pars pt)) x = Some v /\ num v = Fin (snd p)) theta l.

  Lemma column_ok : forall theta x vs, column num theta x = Ok vs <->
    Forall2 (fun pt v => exists u, dget (ch_locus (p_pars pt)) x = Some u /\ num u = v) theta vs.
  Proof.
    intros theta x. unfold column. induction theta as [|p theta IH]; intros vs; cbn [mapM].
    - split; intros H; [inversion H; constructor|inversion H; reflexivity].
    - unfold dgetE at 1. destruct (dget (ch_locus (p_pars p)) x) as [u|] eqn:E; cbn [bind].
      + destruct (mapM _ theta) as [l|e] eqn:El; cbn [bind].
        * split; intros H; [inversion H; subst; constructor; [eauto|apply IH; auto]|].
          inversion H as [|? ? ? ? (u' & H1 & H2) H3]; subst. apply IH in H3. inversion H3; subst. congruence.
        * split; intros H; [discriminate H|]. inversion H as [|? ? ? ? (u' & H1 & H2) H3]; subst. apply IH in H3. discriminate H3.
      + split; intros H; [discriminate H|]. inversion H as [|? ? ? ? (u' & H1 & H2) H3]; subst. congruence.
  Qed.
  Lemma weighed_column : forall theta wts x l, weighed theta wts x l -> column num theta x = Ok (map (fun p => Fin (snd p)) l).
  Proof.
    intros theta wts x l [_ F]. apply column_ok. induction F as [|p q theta l (v & E1 & E2) F IH]; cbn [map]; constructor; eauto.
  Qed.
  Lemma weighed_unique : forall theta wts x l l', weighed theta wts x l -> weighed theta wts x l' -> l' = l.
  Proof.
    intros theta wts x l l' H1 H2. pose proof (weighed_column _ _ _ _ H1) as E1. pose proof (weighed_column _ _ _ _ H2) as E2.
    rewrite E1 in E2. injection E2 as E2. destruct H1 as [W1 _]. destruct H2 as [W2 _]. rewrite W1 in W2. clear - W2 E2.
    revert l' W2 E2. induction l as [|[a b] l IH]; intros [|[c d] l'] W E; try discriminate; auto.
    cbn [map fst snd] in W, E. injection W as <- W. injection E as <- E. f_equal. auto.
  Qed.
  Lemma weighed_variance : forall theta wts x l, weighed theta wts x l -> proper l ->
    (do vs <- column num theta x; variance vs wts) = Ok (Fin (halfdiff l)).
  Proof.
    intros theta wts x l H [_ P]. rewrite (weighed_column _ _ _ _ H). cbn [bind]. destruct H as [-> _]. apply variance_fin. lra.
  Qed.

  Lemma domain_names : forall m r doms r' rv, dm_domain m r = (Ok doms, r') -> RVRoots (dm_bn m) = Ok rv -> map fst doms = rv.
  Proof.
    intros m r doms r' rv H E. unfold dm_domain in H. destruct (sample_prior (dm_bn m) (dm_exo m) r) as [[p|e] r1]; [|discriminate H].
    rewrite E in H. cbn [bind] in H. injection H as H _. revert doms H. clear. induction rv as [|n rv IH]; intros doms H; cbn [mapM] in H.
    - inversion H. reflexivity.
    - destruct (node_distribution (dm_bn m) n (dget (ch_locus p))) as [d|]; cbn [bind] in H; [|discriminate H].
      destruct (mapM _ rv) as [l|]; cbn [bind] in H; [|discriminate H]. inversion H. cbn [map fst]. f_equal. apply IH. reflexivity.
  Qed.
  Lemma calc_unfold : forall m theta wts r doms r', dm_domain m r = (Ok doms, r') -> calc_weighted_std num m theta wts r
    = (foldM (fun tau (nd : name * Dist w) => do var <- (do vs <- column num theta (fst nd); variance vs wts);
                Ok (if fltb (Fin 0) var then dset tau (fst nd) (fsqrt var) else tau)) doms [], r').
  Proof.
    intros m theta wts r doms r' H. unfold calc_weighted_std. rewrite H. f_equal. generalize (@nil (name * flt)).
    clear H. induction doms as [|d doms IH]; intros s; cbn [foldM]; auto.
    destruct (column num theta (fst d)); cbn [bind]; auto. destruct (variance _ wts); cbn [bind]; auto.
  Qed.
  Lemma calc_ext : forall m theta wts theta' wts' r doms r', dm_domain m r = (Ok doms, r') ->
    (forall x, In x (map fst doms) -> (do vs <- column num theta x; variance vs wts) = (do vs <- column num theta' x; variance vs wts')) ->
    calc_weighted_std num m theta wts r = calc_weighted_std num m theta' wts' r.
  Proof.
    intros m theta wts theta' wts' r doms r' H E. rewrite !(calc_unfold _ _ _ _ _ _ H). f_equal. generalize (@nil (name * flt)). clear H.
    induction doms as [|d doms IH]; intros s; cbn [foldM]; auto. rewrite (E (fst d)) by (left; auto).
    match goal with |- (do a <- (do v <- ?X; _); _) = _ => destruct X as [var|]; cbn [bind]; auto end.
    apply IH. intros x Hx. apply E. right. auto.
  Qed.
End Steps.

(** ** C91 *)

(** A random root has a step exactly if two particles of positive weight differ in it; its square is
    half the expected squared difference of two particles. Nothing else has a step. *)
Theorem C91_steps : forall w (num : V w -> flt) (m : dmodel w flt) theta wts r doms r' rv,
  dm_domain m r = (Ok doms, r') -> RVRoots (dm_bn m) = Ok rv ->
  (forall x, In x rv -> exists l, weighed num theta wts x l /\ proper l) ->
  exists tau, calc_weighted_std num m theta wts r = (Ok tau, r')
    /\ (forall x, ~ In x rv -> dget tau x = None)
    /\ forall x l, In x rv -> weighed num theta wts x l ->
         (dget tau x <> None <-> differ l) /\ forall s, dget tau x = Some s -> s = Fin (sqrt (halfdiff l)).
Proof.
  intros w num m theta wts r doms r' rv D Rv H. pose proof (domain_names _ _ _ _ _ D Rv) as Nm.
  rewrite (calc_unfold num _ _ _ _ _ _ D).
  pose (o := fun x => match (do vs <- column num theta x; variance vs wts) with Ok v => if fltb (Fin 0) v then Some (fsqrt v) else None | Err _ => None end).
  destruct (steps_fold _ (fun nd => do vs <- column num theta (fst nd); variance vs wts) fst o doms []) as (tau & T1 & T2).
  { intros x Hx. destruct (H (fst x)) as (l & L1 & L2); [rewrite <- Nm; apply in_map; auto|].
    exists (Fin (halfdiff l)). unfold o. rewrite (weighed_variance num _ _ _ _ L1 L2). auto. }
  exists tau. rewrite T1. splits; auto.
  - intros x N. rewrite T2, Nm. destruct (mem x rv) eqn:E; auto. apply mem_In in E. contradiction.
  - intros x l Hx L. destruct (H x Hx) as (l' & L1 & L2). pose proof (weighed_unique num _ _ _ _ _ L L1) as ->.
    rewrite T2, Nm. assert (E : mem x rv = true) by (apply mem_In; auto). rewrite E. unfold o. rewrite (weighed_variance num _ _ _ _ L1 L2).
    pose proof (halfdiff_pos l L2) as P. destruct (fltb (Fin 0) (Fin (halfdiff l))) eqn:Q.
    + apply fltb_fin in Q. split; [split; intros; [apply P; auto|discriminate]|]. intros s Es. injection Es as <-. cbn [fsqrt].
      destruct (rltb (halfdiff l) 0) eqn:Q2; auto. apply rltb_true in Q2. lra.
    + split; [|intros s Es; discriminate Es]. split; [intros K; exfalso; apply K; auto|]. intros K. apply P in K. apply fltb_fin in K. congruence.
Qed.
Print Assumptions C91_steps.

(** A step is at most half the range of the values that have positive weight. *)
Theorem C91_range : forall w (num : V w -> flt) (m : dmodel w flt) theta wts r doms r' rv tau x l s a b,
  dm_domain m r = (Ok doms, r') -> RVRoots (dm_bn m) = Ok rv ->
  (forall x, In x rv -> exists l, weighed num theta wts x l /\ proper l) ->
  calc_weighted_std num m theta wts r = (Ok tau, r') -> dget tau x = Some s -> weighed num theta wts x l ->
  (forall p, In p l -> 0 < fst p -> a <= snd p <= b) -> exists t, s = Fin t /\ 0 < t <= (b - a) / 2.
Proof.
  intros w num m theta wts r doms r' rv tau x l s a b D Rv H E Es L Ab. destruct (C91_steps _ _ _ _ _ _ _ _ _ D Rv H) as (tau' & E' & T1 & T2).
  rewrite E in E'. injection E' as <-. destruct (In_dec_name x rv) as [I|I]; [|rewrite (T1 x I) in Es; discriminate Es].
  destruct (T2 x l I L) as [T3 T4]. pose proof (T4 s Es) as ->. exists (sqrt (halfdiff l)).
  destruct (H x I) as (l' & L1 & L2). pose proof (weighed_unique num _ _ _ _ _ L L1) as ->.
  assert (P : 0 < halfdiff l) by (apply halfdiff_pos; auto; apply T3; rewrite Es; discriminate). splits; auto; [apply sqrt_lt_R0; auto|].
  assert (N : 0 <= (b - a) / 2).
  { destruct (proj1 (halfdiff_pos l L2) P) as (p & q & Hp & Hq & Wp & Wq & _). pose proof (Ab p Hp Wp). lra. }
  rewrite <- (sqrt_square _ N). apply sqrt_le_1_alt. apply halfdiff_range; auto.
Qed.
Print Assumptions C91_range.

Lemma halfdiff_scale : forall k l, 0 < k -> proper l -> halfdiff (map (fun p => (k * fst p, snd p)) l) = halfdiff l.
Proof.
  intros k l K [_ W]. unfold halfdiff. assert (E : forall f, over (map (fun p : R * R => (k * fst p, snd p)) l) f = over l (fun p => f (k * fst p, snd p))).
  { intros f. unfold over. rewrite map_map. reflexivity. }
  rewrite !pairs, !E.
  assert (E1 : over l (fun p => fst (k * fst p, snd p)) = k * over l fst) by (rewrite <- over_scale; reflexivity).
  assert (E2 : over l (fun p => fst (k * fst p, snd p) * snd (k * fst p, snd p)) = k * over l (fun p => fst p * snd p)) by (rewrite <- over_scale; apply over_ext; intros; cbn [fst snd]; ring).
  assert (E3 : over l (fun p => fst (k * fst p, snd p) * (snd (k * fst p, snd p) * snd (k * fst p, snd p))) = k * over l (fun p => fst p * (snd p * snd p))) by (rewrite <- over_scale; apply over_ext; intros; cbn [fst snd]; ring).
  rewrite E1, E2, E3. field. lra.
Qed.

(** Only the proportions of the weights count. *)
Theorem C91_scale : forall w (num : V w -> flt) (m : dmodel w flt) theta wts r doms r' rv k,
  dm_domain m r = (Ok doms, r') -> RVRoots (dm_bn m) = Ok rv ->
  (forall x, In x rv -> exists l, weighed num theta wts x l /\ proper l) -> 0 < k ->
  calc_weighted_std num m theta (map (fmul (Fin k)) wts) r = calc_weighted_std num m theta wts r.
Proof.
  intros w num m theta wts r doms r' rv k D Rv H K. apply (calc_ext num m _ _ _ _ _ _ _ D). rewrite (domain_names _ _ _ _ _ D Rv). intros x Hx.
  destruct (H x Hx) as (l & L1 & L2). rewrite (weighed_variance num _ _ _ _ L1 L2).
  assert (L3 : weighed num theta (map (fmul (Fin k)) wts) x (map (fun p => (k * fst p, snd p)) l)).
  { destruct L1 as [W F]. split; [rewrite W, !map_map; apply map_ext; auto|]. clear - F.
    induction F as [|p q theta l F1 F IH]; cbn [map]; constructor; auto. }
  rewrite (weighed_variance num _ _ _ _ L3), halfdiff_scale; auto.
  destruct L2 as [P1 P2]. split.
  - apply Forall_forall. intros p Hp. apply in_map_iff in Hp. destruct Hp as (q & <- & Hq). cbn [fst]. rewrite Forall_forall in P1. specialize (P1 q Hq). apply Rmult_le_pos; lra.
  - unfold over in *. rewrite map_map. cbn [fst]. fold (over l (fun p => k * fst p)). rewrite over_scale. apply Rmult_lt_0_compat; auto.
Qed.
Print Assumptions C91_scale.

Lemma app_inj_len : forall A (a b c d : list A), a ++ c = b ++ d -> length a = length b -> a = b /\ c = d.
Proof.
  intros A a. induction a as [|x a IH]; intros [|y b] c d E L; try discriminate L; [auto|].
  cbn [app] in E. injection E as -> E. destruct (IH b c d E) as [-> ->]; [auto|auto].
Qed.
Lemma over_drop : forall A (l1 l2 : list A) p f, f p = 0 -> over (l1 ++ p :: l2) f = over (l1 ++ l2) f.
Proof. intros A l1 l2 p f Z. induction l1 as [|x l1 IH]; cbn [app]; rewrite !over_cons; [rewrite Z; lra|rewrite IH; auto]. Qed.

(** A particle of weight zero does not count. *)
Theorem C91_zero : forall w (num : V w -> flt) (m : dmodel w flt) t1 p t2 w1 w2 r doms r' rv, length w1 = length t1 ->
  dm_domain m r = (Ok doms, r') -> RVRoots (dm_bn m) = Ok rv ->
  (forall x, In x rv -> exists l, weighed num (t1 ++ p :: t2) (w1 ++ Fin 0 :: w2) x l /\ proper l) ->
  calc_weighted_std num m (t1 ++ p :: t2) (w1 ++ Fin 0 :: w2) r = calc_weighted_std num m (t1 ++ t2) (w1 ++ w2) r.
Proof.
  intros w num m t1 p t2 w1 w2 r doms r' rv Len D Rv H. apply (calc_ext num m _ _ _ _ _ _ _ D). rewrite (domain_names _ _ _ _ _ D Rv). intros x Hx.
  destruct (H x Hx) as (l & L1 & L2). rewrite (weighed_variance num _ _ _ _ L1 L2).
  destruct L1 as [W F]. apply Forall2_app_inv_l in F. destruct F as (l1 & l2 & F1 & F2 & ->). inversion F2 as [|? q ? l3 Fq F3]; subst.
  assert (N1 : length l1 = length t1) by (clear - F1; induction F1; simpl; auto).
  rewrite map_app in W. assert (W1 : w1 = map (fun p => Fin (fst p)) l1 /\ Fin 0 :: w2 = map (fun p => Fin (fst p)) (q :: l3)).
  { apply app_inj_len; auto. rewrite map_length. congruence. }
  destruct W1 as [-> W2]. cbn [map] in W2. injection W2 as Z ->.
  assert (Q : halfdiff (l1 ++ q :: l3) = halfdiff (l1 ++ l3)).
  { unfold halfdiff. rewrite (over_drop _ l1 l3 q fst) by auto. rewrite over_drop.
    - f_equal. apply over_ext. intros y _. apply over_drop. rewrite <- Z. ring.
    - transitivity (over (l1 ++ q :: l3) (fun _ => 0 * 0)); [apply over_ext; intros y _; rewrite <- Z; ring|rewrite over_scale; ring]. }
  assert (L3 : weighed num (t1 ++ t2) (map (fun p => Fin (fst p)) l1 ++ map (fun p => Fin (fst p)) l3) x (l1 ++ l3)).
  { split; [rewrite map_app; auto|]. apply Forall2_app; auto. }
  rewrite Q, (weighed_variance num _ _ _ _ L3); auto. destruct L2 as [P1 P2]. split.
  - apply Forall_forall. intros y Hy. rewrite Forall_forall in P1. apply P1. apply in_app_iff in Hy. apply in_app_iff. simpl. tauto.
  - rewrite over_drop in P2; auto.
Qed.
Print Assumptions C91_zero.

(** ** infinite and undefined values *)

Lemma fold_fadd_fin_inv : forall l a x, fold_left fadd l a = Fin x -> (exists y, a = Fin y) /\ forall v, In v l -> exists y, v = Fin y.
Proof.
  induction l as [|u l IH]; intros a x H; cbn [fold_left] in H; [split; [eauto|intros v []]|].
  destruct (IH _ _ H) as [[y E] F]. destruct a, u; try discriminate E. split; [eauto|]. intros v [<-|Hv]; eauto.
Qed.
Lemma fold_fadd_nan : forall l, fold_left fadd l NaN = NaN.
Proof. induction l as [|u l IH]; cbn [fold_left]; auto. Qed.
Lemma fold_fadd_in_nan : forall l a, In NaN l -> fold_left fadd l a = NaN.
Proof.
  induction l as [|u l IH]; intros a H; [destruct H|]. cbn [fold_left]. destruct H as [->|H]; auto.
  replace (fadd a NaN) with NaN by (destruct a; reflexivity). apply fold_fadd_nan.
Qed.
Lemma fold_fadd_pinf : forall l a, fold_left fadd l a = PInf -> (a = PInf \/ exists x, a = Fin x) /\ forall v, In v l -> v = PInf \/ exists x, v = Fin x.
Proof.
  induction l as [|u l IH]; intros a H; cbn [fold_left] in H; [subst; split; auto; intros v []|].
  destruct (IH _ H) as [E F]. assert (K : (a = PInf \/ exists x, a = Fin x) /\ (u = PInf \/ exists x, u = Fin x)).
  { destruct a, u; cbn [fadd] in E; destruct E as [E|[y E]]; try discriminate E; split; eauto. }
  split; [tauto|]. intros v [<-|Hv]; [tauto|auto].
Qed.
Lemma fold_fadd_ninf : forall l a, fold_left fadd l a = NInf -> (a = NInf \/ exists x, a = Fin x) /\ forall v, In v l -> v = NInf \/ exists x, v = Fin x.
Proof.
  induction l as [|u l IH]; intros a H; cbn [fold_left] in H; [subst; split; auto; intros v []|].
  destruct (IH _ H) as [E F]. assert (K : (a = NInf \/ exists x, a = Fin x) /\ (u = NInf \/ exists x, u = Fin x)).
  { destruct a, u; cbn [fadd] in E; destruct E as [E|[y E]]; try discriminate E; split; eauto. }
  split; [tauto|]. intros v [<-|Hv]; [tauto|auto].
Qed.

Lemma finf_cases : forall s, (s = 0 /\ finf s = NaN) \/ (0 < s /\ finf s = PInf) \/ (s < 0 /\ finf s = NInf).
Proof.
  intros s. unfold finf. destruct (reqb s 0) eqn:E; [apply reqb_true in E; auto|].
  destruct (rltb 0 s) eqn:E2; [apply rltb_true in E2; auto|]. apply rltb_false in E2. right. right. split; auto.
  destruct (Rle_lt_or_eq_dec _ _ E2) as [K|K]; auto. apply reqb_true in K. congruence.
Qed.

(** one value that is not finite, whatever its weight, makes the variance nan *)
Lemma variance_nonfinite : forall vs ws v, Forall (fun x => 0 <= x) ws -> 0 < rsum ws -> length vs = length ws -> In v vs -> (forall y, v <> Fin y) ->
  variance vs (map Fin ws) = Ok NaN.
Proof.
  intros vs ws v F P L Hv N. unfold variance, average at 1. rewrite map_length, L, Nat.eqb_refl, fsum_fin. cbv zeta.
  destruct (reqb (rsum ws) 0) eqn:Q; [apply reqb_true in Q; lra|]. cbn [bind].
  set (terms := map (fun p => fmul (fst p) (snd p)) (combine vs (map Fin ws))).
  assert (T : exists x, 0 <= x /\ In (fmul v (Fin x)) terms /\ forall f, In (fmul (f v) (Fin x)) (map (fun p => fmul (fst p) (snd p)) (combine (map f vs) (map Fin ws)))).
  { unfold terms. clear - F L Hv. revert ws F L. induction vs as [|u vs IH]; intros [|x ws] F L; try discriminate L; [destruct Hv|].
    inversion F; subst. destruct Hv as [->|Hv].
    - exists x. splits; auto; [left; auto|intros f; left; auto].
    - destruct (IH Hv ws) as (y & Y1 & Y2 & Y3); auto. exists y. splits; auto; [right; auto|intros f; right; apply Y3]. }
  destruct T as (x & X & T1 & T2).
  assert (Dev : fdev2 v (fdivf (fsum terms) (Fin (rsum ws))) = NaN).
  { unfold fsum. assert (Q2 : rltb (rsum ws) 0 = false) by (apply rltb_false; lra). destruct (fold_left fadd terms (Fin 0)) eqn:E.
    - exfalso. destruct (proj2 (fold_fadd_fin_inv _ _ _ E) _ T1) as [y Y].
      destruct v; cbn [fmul] in Y; [eapply N; reflexivity| | |discriminate Y];
        [destruct (finf_cases x) as [[_ K]|[[_ K]|[_ K]]]|destruct (finf_cases (- x)) as [[_ K]|[[_ K]|[_ K]]]]; rewrite K in Y; discriminate Y.
    - cbn [fdivf]. rewrite Q2. destruct (proj2 (fold_fadd_pinf _ _ E) _ T1) as [Y|[y Y]].
      + destruct v; cbn [fmul] in Y; [discriminate Y| | |discriminate Y].
        * unfold fdev2, fsub. cbn [fmul]. destruct (finf_cases (-1)) as [[K _]|[[K _]|[_ K]]]; try lra. rewrite K. reflexivity.
        * exfalso. destruct (finf_cases (- x)) as [[_ K]|[[K _]|[_ K]]]; [rewrite K in Y; discriminate Y|lra|rewrite K in Y; discriminate Y].
      + exfalso. destruct v; cbn [fmul] in Y; [eapply N; reflexivity| | |discriminate Y];
        [destruct (finf_cases x) as [[_ K]|[[_ K]|[_ K]]]|destruct (finf_cases (- x)) as [[_ K]|[[_ K]|[_ K]]]]; rewrite K in Y; discriminate Y.
    - cbn [fdivf]. rewrite Q2. destruct (proj2 (fold_fadd_ninf _ _ E) _ T1) as [Y|[y Y]].
      + destruct v; cbn [fmul] in Y; [discriminate Y| | |discriminate Y].
        * exfalso. destruct (finf_cases x) as [[_ K]|[[_ K]|[K _]]]; [rewrite K in Y; discriminate Y|rewrite K in Y; discriminate Y|lra].
        * unfold fdev2, fsub. cbn [fmul]. destruct (finf_cases (- (-1))) as [[K _]|[[_ K]|[K _]]]; try lra. rewrite K. reflexivity.
      + exfalso. destruct v; cbn [fmul] in Y; [eapply N; reflexivity| | |discriminate Y];
        [destruct (finf_cases x) as [[_ K]|[[_ K]|[_ K]]]|destruct (finf_cases (- x)) as [[_ K]|[[_ K]|[_ K]]]]; rewrite K in Y; discriminate Y.
    - cbn [fdivf]. unfold fdev2, fsub. destruct v; reflexivity. }
  unfold average. rewrite !map_length, L, Nat.eqb_refl, fsum_fin, Q. cbv zeta. do 2 f_equal.
  assert (I : In NaN (map (fun p => fmul (fst p) (snd p)) (combine (map (fun v => fdev2 v (fdivf (fsum terms) (Fin (rsum ws)))) vs) (map Fin ws)))).
  { specialize (T2 (fun v => fdev2 v (fdivf (fsum terms) (Fin (rsum ws))))). cbv beta in T2. rewrite Dev in T2. exact T2. }
  unfold fsum at 1. rewrite (fold_fadd_in_nan _ _ I). reflexivity.
Qed.

(** One infinite or undefined value, be its weight zero, and the parameter has no step. *)
Theorem C91_infinite : forall w (num : V w -> flt) (m : dmodel w flt) theta ws r tau r' x p u,
  Forall (fun x => 0 <= x) ws -> 0 < rsum ws ->
  calc_weighted_std num m theta (map Fin ws) r = (Ok tau, r') ->
  In p theta -> dget (ch_locus (p_pars p)) x = Some u -> (forall y, num u <> Fin y) -> dget tau x = None.
Proof.
  intros w num m theta ws r tau r' x p u F P H Hp Hu N. destruct (dm_domain m r) as [[doms|e] r1] eqn:D; [|unfold calc_weighted_std in H; rewrite D in H; discriminate H].
  rewrite (calc_unfold num _ _ _ _ _ _ D) in H. injection H as H _.
  assert (C : forall vs, column num theta x = Ok vs -> In (num u) vs).
  { intros vs E. apply column_ok in E. clear - E Hp Hu. induction E as [|q v theta vs (u' & E1 & E2) E IH]; [destruct Hp|].
    destruct Hp as [->|Hp]; [left; congruence|right; auto]. }
  revert H. generalize doms. clear doms D. intros doms. assert (I : dget (@nil (name * flt)) x = None) by reflexivity. revert I. generalize (@nil (name * flt)).
  induction doms as [|d doms IH]; intros s I H; cbn [foldM] in H; [injection H as <-; auto|].
  destruct (column num theta (fst d)) as [vs|] eqn:E1; cbn [bind] in H; [|discriminate H].
  destruct (variance vs (map Fin ws)) as [var|] eqn:E2; cbn [bind] in H; [|discriminate H].
  apply IH in H; auto. destruct (String.eqb_spec x (fst d)) as [Ex|Nx].
  - rewrite <- Ex in E1. assert (L : length vs = length ws).
    { unfold variance in E2. unfold average in E2 at 1. rewrite map_length in E2. destruct (Nat.eqb_spec (length vs) (length ws)); auto. discriminate E2. }
    rewrite (variance_nonfinite vs ws (num u) F P L (C _ E1) N) in E2. injection E2 as <-. exact I.
  - match goal with |- dget (if ?b then _ else _) _ = _ => destruct b; auto end. rewrite dget_dset. destruct (String.eqb_spec x (fst d)); [contradiction|auto].
Qed.
Print Assumptions C91_infinite.

(** ** C92: proposals *)

Section Walk.
  Context {w : world} {step : Type} (normal : step -> RNG w -> V w * RNG w) (vadd : V w -> V w -> res (V w)).
  Notation walk := (mutate normal vadd).

  Lemma mutate_sizes : forall (p0 : dict (V w)) (steps : dict step) r p1 r1, walk p0 steps r = Some (Ok p1, r1) ->
    (forall x, In x (dkeys p1) <-> In x (dkeys steps))
    /\ forall x s, dget steps x = Some s -> exists v z ra rb y, dget p0 x = Some v /\ normal s ra = (z, rb) /\ vadd v z = Ok y /\ dget p1 x = Some y.
  Proof.
    intros p0 steps r p1 r1 H. unfold mutate in H. apply cbind_ok in H. destruct H as (sizes & r2 & H1 & H2).
    unfold cres in H2. injection H2 as H2 _. revert r H1 p1 H2. generalize sizes. clear sizes r1. induction steps as [|[k s] steps IH]; intros sizes r H1 p1 H2; cbn [cmap] in H1.
    - unfold cret in H1. injection H1 as <- <-. cbn [mapM] in H2. injection H2 as <-. split; [intros x; tauto|intros x s E; discriminate E].
    - apply cbind_ok in H1. destruct H1 as ([k' z] & r3 & E1 & H1). apply cbind_ok in H1. destruct H1 as (sizes' & r4 & E2 & H1).
      unfold cret in H1. injection H1 as <- <-. unfold clift in E1. cbn [fst snd] in E1. destruct (normal s r) as [z' r5] eqn:En. injection E1 as <- <- <-.
      cbn [mapM fst snd] in H2. unfold dgetE at 1 in H2. destruct (dget p0 k) as [v|] eqn:Ev; cbn [bind] in H2; [|discriminate H2].
      destruct (vadd v z') as [y|] eqn:Ey; cbn [bind] in H2; [|discriminate H2].
      destruct (mapM _ sizes') as [p2|] eqn:E3; cbn [bind] in H2; [|discriminate H2]. injection H2 as <-.
      destruct (IH _ _ E2 _ E3) as [I1 I2]. split.
      + intros x. cbn [dkeys map fst]. simpl. fold (dkeys p2) (dkeys steps). rewrite I1. tauto.
      + intros x s' E. cbn [dget] in E |- *. destruct (String.eqb x k) eqn:Q.
        * injection E as <-. apply String.eqb_eq in Q. subst x. exists v, z', r, r5, y. auto.
        * apply I2. exact E.
  Qed.

  Lemma mutate_ext : forall (p0 p0' : dict (V w)) (steps : dict step) r, (forall x, In x (dkeys steps) -> dget p0 x = dget p0' x) ->
    walk p0 steps r = walk p0' steps r.
  Proof.
    intros p0 p0' steps r H. unfold mutate, cbind. destruct (cmap _ steps r) as [[[sizes|e] r1]|] eqn:E; auto. unfold cres. do 2 f_equal.
    assert (K : forall x, In x (map fst sizes) -> In x (dkeys steps)).
    { clear H. revert r sizes r1 E. induction steps as [|[k s] steps IH]; intros r sizes r1 E x Hx; cbn [cmap] in E.
      - unfold cret in E. injection E as <- _. exact Hx.
      - apply cbind_ok in E. destruct E as ([k' z] & r3 & E1 & E). apply cbind_ok in E. destruct E as (sizes' & r4 & E2 & E).
        unfold cret in E. injection E as <- _. unfold clift in E1. cbn [fst snd] in E1. destruct (normal s r) as [z' r5]. injection E1 as <- _ _.
        destruct Hx as [<-|Hx]; [left; auto|right; eapply IH; eauto]. }
    clear E. induction sizes as [|[k z] sizes IH]; cbn [mapM fst snd]; auto. unfold dgetE at 1 3. rewrite (H k) by (apply K; left; auto).
    rewrite IH; [|intros x Hx; apply K; right; auto]. reflexivity.
  Qed.
End Walk.

(** A proposal: parameters with a step move by a normal draw, the others do not come from the
    particle but from their definitions. *)
Theorem C92_proposal : forall w (step : Type) normal vadd (m : dmodel w flt) (p0 : dict (V w)) (tau : dict step) r p1 r1 c r2,
  built (dm_bn m) -> NoDup (dkeys (dm_exo m)) -> mutate normal vadd p0 tau r = Some (Ok p1, r1) -> serve m p1 r1 = (Ok c, r2) ->
  (forall x v, dget (dm_exo m) x = Some v -> dget (ch_locus c) x = Some v)
  /\ (forall x s, dget (dm_exo m) x = None -> dget tau x = Some s ->
        exists v z ra rb y, dget p0 x = Some v /\ normal s ra = (z, rb) /\ vadd v z = Ok y /\ dget (ch_locus c) x = Some y)
  /\ forall x, node (dm_bn m) x -> dget (dm_exo m) x = None -> dget tau x = None -> produced (dm_bn m) (dget (ch_locus c)) x.
Proof.
  intros w step normal vadd m p0 tau r p1 r1 c r2 B Nd E1 E2. destruct (mutate_sizes normal vadd _ _ _ _ _ E1) as [K1 K2].
  unfold serve, sample_chromosome in E2. destruct (sample (dm_bn m) (dupdate p1 (dm_exo m)) r1) as [[d|e] r3] eqn:E3; [|discriminate E2].
  destruct (evaluate_nodes (dm_bn m) d) as [lp|]; [|discriminate E2]. injection E2 as <- _. cbn [ch_locus].
  destruct (C25_complete w (dm_bn m) _ _ _ _ B E3) as (_ & S2 & S3). splits.
  - intros x v Hx. apply S2. rewrite dget_dupdate_NoDup, Hx; auto.
  - intros x s Hx Hs. destruct (K2 x s Hs) as (v & z & ra & rb & y & A1 & A2 & A3 & A4). exists v, z, ra, rb, y. splits; auto.
    apply S2. rewrite dget_dupdate_NoDup, Hx; auto.
  - intros x Hn Hx Ht. apply S3; auto. intros I. apply dget_None in Ht. rewrite <- K1 in Ht. apply dget_None in Ht.
    assert (Q : dget (dupdate p1 (dm_exo m)) x = None) by (rewrite dget_dupdate_NoDup, Hx; auto). apply dget_None in Q. contradiction.
Qed.
Print Assumptions C92_proposal.

(** Proposals do not depend on the values of parameters without a step. *)
Theorem C92_forgets : forall w simulate lp_isinf (step : Type) normal vadd (m : dmodel w flt) fuel par (tau : dict step) p p' r,
  par = true \/ (p_distance p = None /\ p_distance p' = None) ->
  (forall x, In x (dkeys tau) -> dget (ch_locus (p_pars p)) x = dget (ch_locus (p_pars p')) x) ->
  sample_mutation simulate lp_isinf normal vadd fuel m par tau p r = sample_mutation simulate lp_isinf normal vadd fuel m par tau p' r.
Proof.
  intros w simulate lp_isinf step normal vadd m fuel par tau p p' r N H.
  assert (K : forall s s' f di n sim r, src_distance s = Err KeyError -> src_distance s' = Err KeyError -> (forall x, In x (dkeys tau) -> dget (src_pars s) x = dget (src_pars s') x) ->
     mut_loop simulate lp_isinf normal vadd f m s tau di n sim r = mut_loop simulate lp_isinf normal vadd f m s' tau di n sim r).
  { clear. intros s s' f. induction f as [|f IH]; intros di n sim r S1 S2 S3; cbn [mut_loop]; [reflexivity|].
    destruct (isinf di); auto. unfold cbind at 1 6. rewrite (mutate_ext normal vadd _ _ tau r S3). destruct (mutate normal vadd (src_pars s') tau r) as [[[p1|e] r1]|]; auto.
    unfold cbind at 1 5. destruct (clift (serve m p1) r1) as [[[c|e] r2]|]; auto. destruct (lp_isinf (ch_lp c)); auto.
    unfold cbind at 1 4. destruct (clift (simulate c) r2) as [[[q|e] r3]|]; auto.
    unfold cbind at 1 3. destruct (distance m q r3) as [[[dp|e] r4]|]; auto. destruct (Nat.ltb 20 (S n)); auto.
    rewrite S1, S2. reflexivity. }
  unfold sample_mutation. cbv zeta. unfold cbind at 1 4. rewrite (K (if par then SJs (pt_to_json p) else SPt p) (if par then SJs (pt_to_json p') else SPt p')).
  - reflexivity.
  - destruct par; [reflexivity|]. destruct N as [N|[N _]]; [discriminate N|]. cbn [src_distance]. rewrite N. reflexivity.
  - destruct par; [reflexivity|]. destruct N as [N|[_ N]]; [discriminate N|]. cbn [src_distance]. rewrite N. reflexivity.
  - intros x Hx. rewrite !src_pars_eq. auto.
Qed.
Print Assumptions C92_forgets.

(** A parameter on which all particles of positive weight agree is forgotten: proposals do not depend
    on its value. *)
Theorem C92_agreed : forall w simulate lp_isinf (num : V w -> flt) normal vadd (m : dmodel w flt) theta wts r doms r' rv tau x l fuel p p' r1,
  dm_domain m r = (Ok doms, r') -> RVRoots (dm_bn m) = Ok rv ->
  (forall x, In x rv -> exists l, weighed num theta wts x l /\ proper l) ->
  calc_weighted_std num m theta wts r = (Ok tau, r') -> weighed num theta wts x l -> ~ differ l ->
  p_distance p = None -> p_distance p' = None -> (forall y, y <> x -> dget (ch_locus (p_pars p)) y = dget (ch_locus (p_pars p')) y) ->
  sample_mutation simulate lp_isinf normal vadd fuel m false tau p r1 = sample_mutation simulate lp_isinf normal vadd fuel m false tau p' r1.
Proof.
  intros w simulate lp_isinf num normal vadd m theta wts r doms r' rv tau x l fuel p p' r1 D Rv H E L N P P' Ag.
  apply C92_forgets; auto. intros y Hy. apply Ag. intros ->. destruct (C91_steps _ _ _ _ _ _ _ _ _ D Rv H) as (tau' & E' & T1 & T2).
  rewrite E in E'. injection E' as <-. assert (Q : dget tau x <> None) by (intros Q; apply dget_None in Q; contradiction).
  destruct (In_dec_name x rv) as [I|I]; [|exact (Q (T1 x I))]. apply N. apply (T2 x l I L). exact Q.
Qed.
Print Assumptions C92_agreed.

(** ** Concrete cases *)

Definition ex_num (v : V exw) : flt := match v with PZ z => Fin (IZR z) | _ => NaN end.
Definition ex_col : list (R * R) := [(1 / 2, 1); (1 / 4, 3); (1 / 4, 5); (0, 7)].
Definition ex_wts : list flt := [Fin (1 / 2); Fin (1 / 4); Fin (1 / 4); Fin 0].
Lemma ex_rv : RVRoots (dm_bn (exsmc tab_a)) = Ok ["x"%string].
Proof. vm_compute. reflexivity. Qed.
Lemma ex_domain : exists doms, dm_domain (exsmc tab_a) 8%nat = (Ok doms, 9%nat).
Proof.
  assert (X : match dm_domain (exsmc tab_a) 8%nat with (Ok _, r') => Nat.eqb r' 9 | _ => false end = true) by (vm_compute; reflexivity).
  destruct (dm_domain (exsmc tab_a) 8%nat) as [[d|e] r']; [apply Nat.eqb_eq in X; subst; eauto|discriminate X].
Qed.
Lemma ex_weighed : weighed ex_num (ex_qs tab_a) ex_wts "x"%string ex_col.
Proof. split; [reflexivity|]. unfold ex_qs, ex_col. repeat constructor; eexists; (split; [vm_compute; reflexivity|reflexivity]). Qed.
Lemma ex_proper : proper ex_col.
Proof. split; [unfold ex_col; repeat constructor; simpl; lra|unfold over, ex_col; simpl; lra]. Qed.
(** Values 1, 3, 5 with weights 1/2, 1/4, 1/4 (and 7 with weight 0): the step is the square root of 11/4. *)
Example C91_example : exists doms r' tau, dm_domain (exsmc tab_a) 8%nat = (Ok doms, r')
  /\ (forall x, In x ["x"%string] -> exists l, weighed ex_num (ex_qs tab_a) ex_wts x l /\ proper l)
  /\ calc_weighted_std ex_num (exsmc tab_a) (ex_qs tab_a) ex_wts 8%nat = (Ok tau, r')
  /\ dget tau "x"%string = Some (Fin (sqrt (11 / 4))).
Proof.
  destruct ex_domain as (doms & D). assert (H : forall x, In x ["x"%string] -> exists l, weighed ex_num (ex_qs tab_a) ex_wts x l /\ proper l).
  { intros x [<-|[]]. exists ex_col. split; [exact ex_weighed|exact ex_proper]. }
  destruct (C91_steps _ ex_num (exsmc tab_a) _ _ _ _ _ _ D ex_rv H) as (tau & E & _ & T). exists doms, 9%nat, tau. splits; auto.
  destruct (T "x"%string ex_col (or_introl eq_refl) ex_weighed) as [T1 T2].
  assert (Df : differ ex_col).
  { exists (1 / 2, 1), (1 / 4, 3). unfold ex_col. splits; [left; auto|right; left; auto|simpl; lra|simpl; lra|simpl; lra]. }
  apply T1 in Df. destruct (dget tau "x"%string) as [s|]; [|contradiction]. rewrite (T2 s eq_refl). do 3 f_equal.
  unfold halfdiff, over, ex_col. simpl. field.
Qed.
(** Hypotheses of C91_infinite: a value that is no number, with weight zero. *)
Example C91_infinite_example : exists tau r', calc_weighted_std (fun v : V exw => match v with PZ 7%Z => PInf | PZ z => Fin (IZR z) | _ => NaN end)
    (exsmc tab_a) (ex_qs tab_a) (map Fin [1 / 2; 1 / 4; 1 / 4; 0]) 8%nat = (Ok tau, r')
  /\ exists p u, In p (ex_qs tab_a) /\ dget (ch_locus (p_pars p)) "x"%string = Some u /\ u = PZ 7.
Proof.
  destruct ex_domain as (doms & D).
  match goal with |- exists tau r', calc_weighted_std ?n _ _ _ _ = _ /\ _ => set (nm := n) end.
  assert (C : column nm (ex_qs tab_a) "x"%string = Ok [Fin 1; Fin 3; Fin 5; PInf]).
  { apply column_ok. unfold ex_qs. repeat constructor; eexists; (split; [vm_compute; reflexivity|reflexivity]). }
  pose proof (domain_names _ _ _ _ _ D ex_rv) as Nm. destruct doms as [|[k d] [|]]; try discriminate Nm. cbn [map fst] in Nm. injection Nm as ->.
  rewrite (calc_unfold nm _ _ _ _ _ _ D). cbn [foldM fst]. rewrite C. cbn [bind].
  rewrite (variance_nonfinite [Fin 1; Fin 3; Fin 5; PInf] [1 / 2; 1 / 4; 1 / 4; 0] PInf); [|repeat constructor; lra|simpl; lra|reflexivity|simpl; auto 6|discriminate].
  cbn [bind]. eexists. eexists. split; [reflexivity|]. exists (ex_q tab_a 6%nat), (PZ 7). split; [unfold ex_qs; simpl; auto 6|split; [vm_compute; reflexivity|reflexivity]].
Qed.

(** Refuted: proposals keep a parameter on which the population agrees. Two copies of one particle
    (the outcome of resampling), and a proposal with another value. *)
Theorem C92_agreed_refuted : exists w num simulate lp_isinf normal vadd (m : dmodel w flt) theta wts r tau r' fuel p x v d q n r2,
  built (dm_bn m) /\ In p theta /\ (forall p, In p theta -> dget (ch_locus (p_pars p)) x = Some v) /\ RVRoots (dm_bn m) = Ok [x]
  /\ calc_weighted_std num m theta wts r = (Ok tau, r')
  /\ sample_mutation simulate lp_isinf normal vadd fuel m false tau p r' = Some (Ok (d, q, n), r2)
  /\ dget (ch_locus (p_pars q)) x <> Some v.
Proof.
  destruct ex_domain as (doms & D). pose (p := pt_copy (ex_q tab_a 0%nat)).
  assert (Px : dget (ch_locus (p_pars p)) "x"%string = Some (PZ 1)) by (vm_compute; reflexivity).
  assert (W : weighed ex_num [p; p] [Fin (1 / 2); Fin (1 / 2)] "x"%string [(1 / 2, 1); (1 / 2, 1)]).
  { split; [reflexivity|]. repeat constructor; exists (PZ 1); split; auto. }
  assert (Pr : proper [(1 / 2, 1); (1 / 2, 1)]).
  { split; [repeat constructor; simpl; lra|unfold over; simpl; lra]. }
  assert (H : forall x, In x ["x"%string] -> exists l, weighed ex_num [p; p] [Fin (1 / 2); Fin (1 / 2)] x l /\ proper l).
  { intros x [<-|[]]. eauto. }
  destruct (C91_steps _ ex_num (exsmc tab_a) _ _ _ _ _ _ D ex_rv H) as (tau & E & T0 & T).
  assert (Et : tau = []).
  { destruct tau as [|[k s] tau]; auto. exfalso. destruct (string_dec k "x") as [->|Nk].
    - destruct (T "x"%string _ (or_introl eq_refl) W) as [T1 _]. destruct (proj1 T1) as (a & b & Ha & Hb & _ & _ & Nab); [simpl; discriminate|].
      apply Nab. destruct Ha as [<-|[<-|[]]], Hb as [<-|[<-|[]]]; reflexivity.
    - assert (Q : dget ((k, s) :: tau) k = None) by (apply T0; intros [Q|[]]; congruence). cbn [dget] in Q. rewrite String.eqb_refl in Q. discriminate Q. }
  subst tau.
  assert (X : match sample_mutation (step:=flt) exsim (fun _ => false) (fun _ r => (PZ 0%Z, r)) ex_vadd 1 (exsmc tab_a) false [] p 9%nat with
     | Some (Ok (d, q, n), r2) => dget (ch_locus (p_pars q)) "x"%string = Some (PZ 10) | _ => False end) by (vm_compute; reflexivity).
  destruct (sample_mutation (step:=flt) exsim (fun _ => false) (fun _ r => (PZ 0%Z, r)) ex_vadd 1 (exsmc tab_a) false [] p 9%nat) as [[[[[d q] n]|e] r2]|] eqn:Es;
    [|destruct X|destruct X].
  exists exw, ex_num, exsim, (fun _ => false), (fun _ r => (PZ 0%Z, r)), ex_vadd, (exsmc tab_a), [p; p], [Fin (1 / 2); Fin (1 / 2)], 8%nat, [], 9%nat, 1%nat, p, "x"%string, (PZ 1), d, q, n, r2.
  splits; [exact exnet_built|left; auto| |exact ex_rv|exact E|exact Es|rewrite X; discriminate].
  intros p1 [<-|[<-|[]]]; exact Px.
Qed.
Print Assumptions C92_agreed_refuted.

(** a draw of the step, and the sum of integers *)
Definition ex_size (_ : flt) (r : RNG exw) : V exw * RNG exw := (PZ 5, r).
Definition ex_add (a b : V exw) : res (V exw) := match a, b with PZ x, PZ y => Ok (PZ (x + y)) | _, _ => Err TypeError end.
(** Hypotheses of C92_agreed and C92_proposal. *)
Example C92_example : exists doms tau p1 r1 c r2,
  let p := pt_copy (ex_q tab_a 0%nat) in
  dm_domain (exsmc tab_a) 8%nat = (Ok doms, 9%nat) /\ weighed ex_num [p; p] [Fin (1 / 2); Fin (1 / 2)] "x"%string [(1 / 2, 1); (1 / 2, 1)]
  /\ proper [(1 / 2, 1); (1 / 2, 1)] /\ ~ differ [(1 / 2, 1); (1 / 2, 1)]
  /\ calc_weighted_std ex_num (exsmc tab_a) [p; p] [Fin (1 / 2); Fin (1 / 2)] 8%nat = (Ok tau, 9%nat) /\ p_distance p = None
  /\ mutate ex_size ex_add (ch_locus (p_pars p)) [("x"%string, Fin 1)] 8%nat = Some (Ok p1, r1)
  /\ serve (exsmc tab_a) p1 r1 = (Ok c, r2) /\ dget (ch_locus c) "x"%string = Some (PZ 6).
Proof.
  destruct ex_domain as (doms & D). set (p := pt_copy (ex_q tab_a 0%nat)).
  assert (W : weighed ex_num [p; p] [Fin (1 / 2); Fin (1 / 2)] "x"%string [(1 / 2, 1); (1 / 2, 1)]).
  { split; [reflexivity|]. repeat constructor; exists (PZ 1); (split; [vm_compute; reflexivity|reflexivity]). }
  assert (Pr : proper [(1 / 2, 1); (1 / 2, 1)]).
  { split; [repeat constructor; simpl; lra|unfold over; simpl; lra]. }
  destruct (C91_steps _ ex_num (exsmc tab_a) [p; p] [Fin (1 / 2); Fin (1 / 2)] _ _ _ _ D ex_rv) as (tau & E & _); [intros x [<-|[]]; eauto|].
  assert (X : match mutate ex_size ex_add (ch_locus (p_pars p)) [("x"%string, Fin 1)] 8%nat with
              | Some (Ok p1, r1) => match serve (exsmc tab_a) p1 r1 with (Ok c, r2) => dget (ch_locus c) "x"%string = Some (PZ 6) | _ => False end
              | _ => False end) by (vm_compute; reflexivity).
  destruct (mutate ex_size ex_add (ch_locus (p_pars p)) [("x"%string, Fin 1)] 8%nat) as [[[p1|e] r1]|] eqn:Em; [|destruct X|destruct X].
  destruct (serve (exsmc tab_a) p1 r1) as [[c|e] r2] eqn:Es; [|destruct X].
  exists doms, tau, p1, r1, c, r2. cbv zeta. fold p. split; [exact D|]. split; [exact W|]. split; [exact Pr|]. split.
  - intros N. destruct N as (a & b & Ha & Hb & _ & _ & Nab). apply Nab. destruct Ha as [<-|[<-|[]]], Hb as [<-|[<-|[]]]; reflexivity.
  - split; [exact E|]. split; [reflexivity|]. split; [exact Em|]. split; [exact Es|exact X].
Qed.
