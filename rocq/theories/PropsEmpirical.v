(** * Properties C87-C89: empirical distributions and baselines *)

Require Import Verif.ModelNum Verif.ModelReg Verif.ModelHazard Verif.ModelEmpirical Verif.ProofBase.
Require Import Coq.Sorting.Sorted.
Open Scope R_scope.

Definition before_fst (p q : R * R) : Prop := fst p <= fst q.

Lemma pins_sorted : forall x l, HdRel before_fst x l -> pins x l = x :: l.
Proof.
  intros x [|y l] H; auto. simpl. inversion H; subst. unfold before_fst in *.
  assert (E : rleb (fst x) (fst y) = true) by (apply rleb_true; auto). rewrite E. auto.
Qed.
Lemma psort_sorted : forall l, Sorted before_fst l -> psort l = l.
Proof. intros l H. induction H; auto. simpl. unfold psort in *. simpl. rewrite IHSorted. apply pins_sorted; auto. Qed.

Lemma pins_In : forall x l y, In y (pins x l) <-> y = x \/ In y l.
Proof.
  intros x l y. induction l as [|z l IH]; simpl; [intuition|]. destruct (rleb (fst x) (fst z)); simpl; [intuition|].
  rewrite IH. intuition.
Qed.
Lemma psort_In : forall l y, In y (psort l) <-> In y l.
Proof.
  intros l y. induction l as [|z l IH]; [simpl; intuition|]. unfold psort in *. simpl. rewrite pins_In, IH. intuition.
Qed.
Lemma pins_Sorted : forall x l, Sorted before_fst l -> Sorted before_fst (pins x l).
Proof.
  intros x l H. induction H as [|y l H IH HR]; simpl; [repeat constructor|]. destruct (rleb (fst x) (fst y)) eqn:E.
  - constructor; [constructor; auto|]. constructor. apply rleb_true; auto.
  - constructor; auto. apply rleb_false in E. destruct l as [|z l]; simpl.
    + constructor. unfold before_fst. lra.
    + destruct (rleb (fst x) (fst z)) eqn:E2; [constructor; unfold before_fst; lra|]. inversion HR; constructor; auto.
Qed.
Lemma psort_Sorted : forall l, Sorted before_fst (psort l).
Proof. induction l; simpl; [constructor|]. apply pins_Sorted; auto. Qed.

(** ** Interpolation *)

Lemma interp_bounds : forall a b l p u, fst p <= u -> Forall (fun q => a <= snd q <= b) (p :: l) -> a <= interp_from p l u <= b.
Proof.
  intros a b l. induction l as [|q l IH]; intros p u H F; inversion F as [|? ? Fp Fl]; subst; simpl; auto.
  destruct (rleb (fst q) u) eqn:E.
  - apply rleb_true in E. apply IH; auto.
  - apply rleb_false in E. destruct (reqb (fst p) u) eqn:E2; auto. inversion Fl as [|? ? Fq _]; subst.
    set (t := (u - fst p) / (fst q - fst p)).
    assert (T : 0 <= t <= 1).
    { unfold t. split; [apply Rmult_le_pos; [lra|left; apply Rinv_0_lt_compat; lra]|].
      apply (Rmult_le_reg_r (fst q - fst p)); [lra|]. unfold Rdiv. rewrite Rmult_assoc, Rinv_l by lra. lra. }
    replace ((snd q - snd p) / (fst q - fst p) * (u - fst p) + snd p) with (t * snd q + (1 - t) * snd p) by (unfold t; field; lra).
    nra.
Qed.

Definition rising (p q : R * R) : Prop := fst p <= fst q /\ snd p <= snd q.
Definition strictly (p q : R * R) : Prop := fst p < fst q /\ snd p < snd q.

Lemma StronglySorted_inv' : forall (A : Type) (Q : A -> A -> Prop) p l, StronglySorted Q (p :: l) -> StronglySorted Q l /\ Forall (Q p) l.
Proof. intros. inversion H; auto. Qed.

Lemma interp_ge : forall l p u, fst p <= u -> StronglySorted rising (p :: l) -> snd p <= interp_from p l u.
Proof.
  intros l p u H S. apply StronglySorted_inv' in S. destruct S as [_ S].
  destruct (interp_bounds (snd p) (fold_left Rmax (map snd l) (snd p)) l p u H) as [B _]; auto.
  assert (M : forall (xs : list R) a, a <= fold_left Rmax xs a /\ Forall (fun x => x <= fold_left Rmax xs a) xs).
  { induction xs as [|x xs IH]; simpl; intros a; [split; [lra|constructor]|]. destruct (IH (Rmax a x)) as [I1 I2].
    pose proof (Rmax_l a x). pose proof (Rmax_r a x). split; [lra|]. constructor; [lra|auto]. }
  destruct (M (map snd l) (snd p)) as [M1 M2]. constructor; [split; [lra|auto]|].
  rewrite Forall_forall in *. intros q Q. split; [apply (S q Q)|]. apply M2. apply in_map; auto.
Qed.

Lemma seg_mono : forall p q u v, fst p <= u -> u <= v -> v < fst q -> snd p <= snd q ->
  (snd q - snd p) / (fst q - fst p) * (u - fst p) + snd p <= (snd q - snd p) / (fst q - fst p) * (v - fst p) + snd p.
Proof.
  intros p q u v H1 H2 H3 H4. apply Rplus_le_compat_r. apply Rmult_le_compat_l; [|lra].
  apply Rmult_le_pos; [lra|]. left. apply Rinv_0_lt_compat. lra.
Qed.
Lemma seg_le : forall p q v, fst p <= v -> v < fst q -> snd p <= snd q ->
  snd p <= (snd q - snd p) / (fst q - fst p) * (v - fst p) + snd p <= snd q.
Proof.
  intros p q v H1 H2 H3. pose proof (interp_bounds (snd p) (snd q) [q] p v H1) as B. simpl in B.
  assert (E : rleb (fst q) v = false) by (apply rleb_false; auto). rewrite E in B.
  destruct (reqb (fst p) v) eqn:E2; [|apply B; constructor; [lra|constructor; [lra|constructor]]].
  apply reqb_true in E2. rewrite <- E2. replace (fst p - fst p) with 0 by ring. rewrite Rmult_0_r. lra.
Qed.
(* the two ways to write the value on a segment agree *)
Lemma seg_at : forall p q u, (if reqb (fst p) u then snd p else (snd q - snd p) / (fst q - fst p) * (u - fst p) + snd p)
  = (snd q - snd p) / (fst q - fst p) * (u - fst p) + snd p.
Proof.
  intros. destruct (reqb (fst p) u) eqn:E; auto. apply reqb_true in E. rewrite <- E.
  replace (fst p - fst p) with 0 by ring. rewrite Rmult_0_r. lra.
Qed.

Lemma interp_mono : forall l p u v, fst p <= u -> u <= v -> StronglySorted rising (p :: l) -> interp_from p l u <= interp_from p l v.
Proof.
  induction l as [|q l IH]; intros p u v H H2 S; simpl; [lra|]. rewrite !seg_at. pose proof S as S0. apply StronglySorted_inv' in S. destruct S as [S F].
  inversion F as [|? ? [Fq1 Fq2] _]; subst.
  destruct (rleb (fst q) u) eqn:E; destruct (rleb (fst q) v) eqn:E2; rewrite ?rleb_true, ?rleb_false in *; try lra.
  - apply IH; auto.
  - pose proof (seg_le p q u H E Fq2). pose proof (interp_ge l q v E2 S). lra.
  - apply seg_mono; lra.
Qed.

Lemma strictly_rising : forall l, StronglySorted strictly l -> StronglySorted rising l.
Proof.
  intros l S. induction S as [|p l S IH F]; constructor; auto. eapply Forall_impl; [|exact F]. intros q [A B]. split; lra.
Qed.
Lemma interp_strict : forall l p u v, fst p <= u -> u < v -> v <= fst (last (p :: l) p) -> StronglySorted strictly (p :: l) ->
  interp_from p l u < interp_from p l v.
Proof.
  induction l as [|q l IH]; intros p u v H H2 H3 S.
  - simpl in H3. lra.
  - pose proof S as S0. apply StronglySorted_inv' in S. destruct S as [S F]. inversion F as [|? ? [Fq1 Fq2] _]; subst.
    assert (L : last (p :: q :: l) p = last (q :: l) q).
    { change (last (p :: q :: l) p) with (last (q :: l) p). clear. revert p q. induction l as [|r l IH]; intros; auto.
      change (last (q :: r :: l) p) with (last (r :: l) p). change (last (q :: r :: l) q) with (last (r :: l) q). rewrite (IH p r), (IH q r). auto. }
    rewrite L in H3. simpl. rewrite !seg_at.
    destruct (rleb (fst q) u) eqn:E; destruct (rleb (fst q) v) eqn:E2; rewrite ?rleb_true, ?rleb_false in *; try lra.
    + apply IH; auto.
    + pose proof (interp_ge l q v E2 (strictly_rising _ S)) as G.
      eapply Rlt_le_trans; [|exact G].
      apply (Rlt_le_trans _ ((snd q - snd p) / (fst q - fst p) * (fst q - fst p) + snd p)); [|right; field; lra].
      apply Rplus_lt_compat_r. apply Rmult_lt_compat_l; [|lra]. apply Rdiv_lt_0_compat; lra.
    + apply Rplus_lt_compat_r. apply Rmult_lt_compat_l; [|lra]. apply Rdiv_lt_0_compat; lra.
Qed.
Lemma interp_knot : forall l p r, StronglySorted strictly (p :: l) -> In r (p :: l) -> fst p <= fst r /\ interp_from p l (fst r) = snd r.
Proof.
  induction l as [|q l IH]; intros p r S [I|I].
  - subst. simpl. split; auto. lra.
  - inversion I.
  - subst r. split; [lra|]. apply StronglySorted_inv' in S. destruct S as [S F]. inversion F as [|? ? [Fq1 Fq2] _]; subst. simpl.
    assert (E : rleb (fst q) (fst p) = false) by (apply rleb_false; auto). rewrite E.
    assert (E2 : reqb (fst p) (fst p) = true) by (apply reqb_true; auto). rewrite E2. auto.
  - apply StronglySorted_inv' in S. destruct S as [S F]. inversion F as [|? ? [Fq1 Fq2] _]; subst.
    destruct (IH q r S I) as [J1 J2]. split; [lra|]. simpl. assert (E : rleb (fst q) (fst r) = true) by (apply rleb_true; auto). rewrite E. auto.
Qed.

(** ** Minimum, maximum, cumulative sums *)

Lemma fold_Rmin : forall l a, fold_left Rmin l a <= a /\ Forall (fun x => fold_left Rmin l a <= x) l /\ In (fold_left Rmin l a) (a :: l).
Proof.
  induction l as [|x l IH]; simpl; intros a; [splits; auto; lra|]. destruct (IH (Rmin a x)) as (I1 & I2 & I3).
  pose proof (Rmin_l a x). pose proof (Rmin_r a x). splits; [lra|constructor; [lra|auto]|].
  destruct I3 as [I3|I3]; auto. rewrite <- I3. unfold Rmin. destruct (Rle_dec a x); auto.
Qed.
Lemma fold_Rmax : forall l a, a <= fold_left Rmax l a /\ Forall (fun x => x <= fold_left Rmax l a) l /\ In (fold_left Rmax l a) (a :: l).
Proof.
  induction l as [|x l IH]; simpl; intros a; [splits; auto; lra|]. destruct (IH (Rmax a x)) as (I1 & I2 & I3).
  pose proof (Rmax_l a x). pose proof (Rmax_r a x). splits; [lra|constructor; [lra|auto]|].
  destruct I3 as [I3|I3]; auto. rewrite <- I3. unfold Rmax. destruct (Rle_dec a x); auto.
Qed.
Lemma rminimum_spec : forall l m, rminimum l = Ok m -> In m l /\ (forall x, In x l -> m <= x).
Proof.
  intros [|a l] m H; [discriminate H|]. simpl in H. injection H as <-. destruct (fold_Rmin l a) as (A & B & C). split; auto.
  rewrite Forall_forall in B. intros x [X|X]; subst; auto.
Qed.
Lemma rmaximum_spec : forall l m, rmaximum l = Ok m -> In m l /\ (forall x, In x l -> x <= m).
Proof.
  intros [|a l] m H; [discriminate H|]. simpl in H. injection H as <-. destruct (fold_Rmax l a) as (A & B & C). split; auto.
  rewrite Forall_forall in B. intros x [X|X]; subst; auto.
Qed.
Lemma rminimum_ok : forall l, l <> [] -> exists m, rminimum l = Ok m.
Proof. intros [|a l] H; [contradiction|]. eexists. reflexivity. Qed.
Lemma rmaximum_ok : forall l, l <> [] -> exists m, rmaximum l = Ok m.
Proof. intros [|a l] H; [contradiction|]. eexists. reflexivity. Qed.

Lemma cumsum_length : forall l a, length (cumsum a l) = length l.
Proof. induction l; simpl; auto. Qed.
Lemma cumsum_nth : forall l a i, (i < length l)%nat -> nth i (cumsum a l) 0 = a + rsum (firstn (S i) l).
Proof.
  induction l as [|x l IH]; intros a i H; simpl in H; [inversion H|]. destruct i; [simpl; ring|].
  change (nth (S i) (cumsum a (x :: l)) 0) with (nth i (cumsum (a + x) l) 0). rewrite IH by (apply Nat.succ_lt_mono; auto).
  change (firstn (S (S i)) (x :: l)) with (x :: firstn (S i) l). cbn [rsum fold_right]. unfold rsum. ring.
Qed.
(* knots of the inverse distribution function, from the i-th on *)
Lemma cumsum_ge : forall l a, Forall (fun y => 0 <= y) l -> Forall (fun c => a <= c) (cumsum a l).
Proof.
  induction l as [|x l IH]; intros a F; simpl; constructor; inversion F; subst; [lra|].
  eapply Forall_impl; [|apply IH; auto]. simpl. intros. lra.
Qed.
Lemma cumsum_gt : forall l a, Forall (fun y => 0 < y) l -> Forall (fun c => a < c) (cumsum a l).
Proof.
  induction l as [|x l IH]; intros a F; simpl; constructor; inversion F; subst; [lra|].
  eapply Forall_impl; [|apply IH; auto]. simpl. intros. lra.
Qed.

(** ** The property *)

(** Spec: the share of the weight of the first values, up to the i-th. *)
Definition share (ys : list R) (i : nat) : R := rsum (firstn (S i) ys) / rsum ys.
Definition increasing (xs : list R) : Prop := StronglySorted Rlt xs.
Definition ascending (xs : list R) : Prop := StronglySorted Rle xs.

Definition knots (xs ys : list R) : list (R * R) := combine (map (fun c => c / rsum ys) (cumsum 0 ys)) xs.

Lemma combine_Forall : forall (A B : Type) (P : A -> Prop) (Q : B -> Prop) (l : list A) (m : list B),
  Forall P l -> Forall Q m -> Forall (fun p => P (fst p) /\ Q (snd p)) (combine l m).
Proof.
  intros A B P Q l. induction l as [|a l IH]; intros [|b m] F G; simpl; constructor; inversion F; inversion G; subst; auto.
Qed.
Lemma combine_sorted : forall (Q P : R -> R -> Prop) (l m : list R), StronglySorted Q l -> StronglySorted P m ->
  StronglySorted (fun p q => Q (fst p) (fst q) /\ P (snd p) (snd q)) (combine l m).
Proof.
  intros Q P l. induction l as [|a l IH]; intros [|b m] S T; simpl; constructor; inversion S; inversion T; subst; auto.
  apply (combine_Forall _ _ (Q a) (P b)); auto.
Qed.
Lemma cumsum_ascending : forall l a, Forall (fun y => 0 <= y) l -> ascending (cumsum a l).
Proof. induction l as [|x l IH]; intros a F; simpl; constructor; inversion F; subst; [apply IH; auto|apply cumsum_ge; auto]. Qed.
Lemma cumsum_increasing : forall l a, Forall (fun y => 0 < y) l -> increasing (cumsum a l).
Proof. induction l as [|x l IH]; intros a F; simpl; constructor; inversion F; subst; [apply IH; auto|apply cumsum_gt; auto]. Qed.
Lemma map_sorted : forall (Q : R -> R -> Prop) (f : R -> R) l, (forall x y, Q x y -> Q (f x) (f y)) -> StronglySorted Q l -> StronglySorted Q (map f l).
Proof.
  intros Q f l H S. induction S as [|x l S IH F]; simpl; constructor; auto. apply Forall_map. eapply Forall_impl; [|exact F]. auto.
Qed.
Lemma div_le : forall t x y, 0 < t -> x <= y -> x / t <= y / t.
Proof. intros. apply Rmult_le_compat_r; auto. left. apply Rinv_0_lt_compat; auto. Qed.
Lemma div_lt : forall t x y, 0 < t -> x < y -> x / t < y / t.
Proof. intros. apply Rmult_lt_compat_r; auto. apply Rinv_0_lt_compat; auto. Qed.

Lemma StronglySorted_weaken : forall (A : Type) (Q P : A -> A -> Prop) l, (forall x y, Q x y -> P x y) -> StronglySorted Q l -> StronglySorted P l.
Proof. intros A Q P l H S. induction S; constructor; auto. eapply Forall_impl; [|eauto]. auto. Qed.
Lemma const_sorted : forall (m : list R), StronglySorted (fun _ _ => True) m.
Proof. induction m; constructor; auto. apply Forall_forall; auto. Qed.

Lemma knots_by_x : forall xs ys, Forall (fun y => 0 <= y) ys -> 0 < rsum ys -> psort (knots xs ys) = knots xs ys.
Proof.
  intros xs ys F T. apply psort_sorted. apply StronglySorted_Sorted.
  eapply StronglySorted_weaken; [|apply (combine_sorted Rle (fun _ _ => True)); [|apply const_sorted]].
  - intros x y [A _]. exact A.
  - apply map_sorted; [intros; apply div_le; auto|]. apply cumsum_ascending; auto.
Qed.

Lemma emp_new_ok : forall xs ys e, emp_new xs ys = Ok e ->
  length xs = length ys /\ xs <> [] /\ rminimum xs = Ok (fst (e_int e)) /\ rmaximum xs = Ok (snd (e_int e))
  /\ e_fn e = {| ip_pts := psort (knots xs ys); ip_lo := fst (e_int e); ip_hi := snd (e_int e); ip_raise := false |}
  /\ e_logpdf e = {| ip_pts := psort (combine xs ys); ip_lo := 0; ip_hi := 0; ip_raise := false |}
  /\ e_x e = xs.
Proof.
  intros xs ys e H. unfold emp_new in H. destruct (rminimum xs) as [lo|] eqn:E1; [|discriminate H]. destruct (rmaximum xs) as [hi|] eqn:E2; [|discriminate H].
  cbn [bind] in H. unfold interp1d in H. rewrite map_length, cumsum_length in H.
  destruct (Nat.eqb (length ys) (length xs)) eqn:L; [|discriminate H]. cbn [bind] in H. rewrite Nat.eqb_sym, L in H. cbn [bind] in H. injection H as <-.
  apply Nat.eqb_eq in L. splits; auto. intros ->. discriminate E1.
Qed.

(** Construction succeeds exactly for equally many values and weights, at least one. *)
Theorem C87_construct : forall xs ys, (exists e, emp_new xs ys = Ok e) <-> length xs = length ys /\ xs <> [].
Proof.
  intros xs ys. split.
  - intros [e H]. apply emp_new_ok in H. tauto.
  - intros [L N]. unfold emp_new. destruct (rminimum_ok xs N) as [lo ->]. destruct (rmaximum_ok xs N) as [hi ->]. cbn [bind].
    unfold interp1d. rewrite map_length, cumsum_length, L, Nat.eqb_refl. cbn [bind]. eexists. reflexivity.
Qed.
Print Assumptions C87_construct.

Lemma snd_bounds : forall xs ys a b, (forall x, In x xs -> a <= x <= b) -> Forall (fun q => a <= snd q <= b) (knots xs ys).
Proof.
  intros xs ys a b H. apply Forall_forall. intros [f x] I. apply H. eapply in_combine_r. exact I.
Qed.
Lemma knots_nonempty : forall xs ys, length xs = length ys -> xs <> [] -> knots xs ys <> [].
Proof.
  intros [|x xs] [|y ys] L N; try discriminate L; [contradiction|]. discriminate.
Qed.

(** Every number the distribution can draw lies in its Interval, and drawing does not fail. *)
Theorem C87_within : forall xs ys e us, emp_new xs ys = Ok e ->
  exists vs, emp_sample e us = Ok vs /\ length vs = length us /\ Forall (fun v => fst (e_int e) <= v <= snd (e_int e)) vs.
Proof.
  intros xs ys e us H. destruct (emp_new_ok _ _ _ H) as (L & N & Lo & Hi & Fn & _ & _).
  destruct (rminimum_spec _ _ Lo) as [Lo1 Lo2]. destruct (rmaximum_spec _ _ Hi) as [Hi1 Hi2].
  assert (One : forall u, exists v, interp_call (e_fn e) u = Ok v /\ fst (e_int e) <= v <= snd (e_int e)).
  { intros u. rewrite Fn. unfold interp_call. cbn [ip_pts ip_lo ip_hi ip_raise].
    assert (B : Forall (fun q => fst (e_int e) <= snd q <= snd (e_int e)) (psort (knots xs ys))).
    { apply Forall_forall. intros q Q. apply (proj1 (psort_In _ _)) in Q. revert q Q. apply Forall_forall. apply snd_bounds. auto. }
    assert (NE : psort (knots xs ys) <> []).
    { pose proof (knots_nonempty xs ys L N) as K. intros Z. destruct (knots xs ys) as [|k ks]; [contradiction|].
      assert (J : In k (psort (k :: ks))) by (apply psort_In; left; auto). rewrite Z in J. inversion J. }
    destruct (psort (knots xs ys)) as [|p l]; [contradiction|]. destruct (rltb u (fst p)) eqn:E1.
    - eexists. split; [reflexivity|]. split; [lra|apply Lo2; auto].
    - destruct (rltb (fst (last (p :: l) p)) u) eqn:E2.
      + eexists. split; [reflexivity|]. split; [apply Lo2; auto|lra].
      + eexists. split; [reflexivity|]. apply interp_bounds; auto. apply rltb_false; auto. }
  unfold emp_sample. clear - One. induction us as [|u us IH]; simpl.
  - exists []. splits; auto.
  - destruct (One u) as (v & V1 & V2). destruct IH as (vs & I1 & I2 & I3). rewrite V1, I1. exists (v :: vs). simpl. splits; auto.
Qed.
Print Assumptions C87_within.

Lemma last_In : forall (A : Type) (l : list A) (d : A), l <> [] -> In (last l d) l.
Proof. intros A l d H. induction l as [|a l IH]; [contradiction|]. destruct l; [left; auto|]. right. apply IH. discriminate. Qed.
Lemma last_ge : forall (A : Type) (Q : A -> A -> Prop) l d, (forall x, Q x x) -> StronglySorted Q l -> forall x, In x l -> Q x (last l d).
Proof.
  intros A Q l d Rf S. induction S as [|a l S IH F]; intros x I; [inversion I|].
  destruct l as [|b l]; [destruct I as [->|[]]; apply Rf|].
  change (last (a :: b :: l) d) with (last (b :: l) d). destruct I as [->|I]; [|apply IH; auto].
  rewrite Forall_forall in F. apply F. apply last_In. discriminate.
Qed.

Lemma fn_value : forall xs ys e u v, emp_new xs ys = Ok e -> Forall (fun y => 0 <= y) ys -> 0 < rsum ys ->
  interp_call (e_fn e) u = Ok v -> exists p l, knots xs ys = p :: l /\
    ((u < fst p /\ v = fst (e_int e)) \/ (fst p <= u /\ fst (last (p :: l) p) < u /\ v = snd (e_int e))
     \/ (fst p <= u <= fst (last (p :: l) p) /\ v = interp_from p l u)).
Proof.
  intros xs ys e u v H F T I. destruct (emp_new_ok _ _ _ H) as (L & N & Lo & Hi & Fn & _ & _). rewrite Fn in I. unfold interp_call in I.
  cbn [ip_pts ip_lo ip_hi ip_raise] in I. rewrite knots_by_x in I by auto. pose proof (knots_nonempty xs ys L N) as NE.
  destruct (knots xs ys) as [|p l]; [contradiction|]. exists p, l. split; auto.
  destruct (rltb u (fst p)) eqn:E1; [injection I as <-; apply rltb_true in E1; auto|]. apply rltb_false in E1.
  destruct (rltb (fst (last (p :: l) p)) u) eqn:E2; injection I as <-; [apply rltb_true in E2; auto|apply rltb_false in E2; auto].
Qed.

(** With values in ascending order a larger uniform draw never gives a smaller value. *)
Theorem C87_monotone : forall xs ys e u1 u2 v1 v2, emp_new xs ys = Ok e -> Forall (fun y => 0 <= y) ys -> 0 < rsum ys -> ascending xs ->
  emp_sample e [u1; u2] = Ok [v1; v2] -> u1 <= u2 -> v1 <= v2.
Proof.
  intros xs ys e u1 u2 v1 v2 H F T A S U.
  pose proof (emp_new_ok _ _ _ H) as (L & N & Lo & Hi & _ & _ & _).
  unfold emp_sample in S. cbn [mapM bind] in S. destruct (interp_call (e_fn e) u1) as [w1|] eqn:I1; [|discriminate S]. cbn [bind] in S.
  destruct (interp_call (e_fn e) u2) as [w2|] eqn:I2; [|discriminate S]. cbn [bind] in S. injection S as -> ->.
  assert (B : forall u v, interp_call (e_fn e) u = Ok v -> fst (e_int e) <= v <= snd (e_int e)).
  { intros u v I. destruct (C87_within xs ys e [u] H) as (vs & V1 & _ & V3). unfold emp_sample in V1. cbn [mapM] in V1. rewrite I in V1.
    cbn [bind] in V1. injection V1 as <-. inversion V3; auto. }
  pose proof (B _ _ I1) as B1. pose proof (B _ _ I2) as B2.
  destruct (fn_value _ _ _ _ _ H F T I1) as (p & l & K & C1). destruct (fn_value _ _ _ _ _ H F T I2) as (p' & l' & K' & C2).
  rewrite K in K'. injection K' as <- <-.
  assert (St : StronglySorted rising (p :: l)).
  { rewrite <- K. apply (combine_sorted Rle Rle); auto. apply map_sorted; [intros; apply div_le; auto|]. apply cumsum_ascending; auto. }
  destruct C1 as [[C1 ->]|[(C1 & C1' & ->)|[C1 ->]]]; [lra| |].
  - destruct C2 as [[C2 ->]|[(C2 & C2' & ->)|[C2 ->]]]; lra.
  - destruct C2 as [[C2 ->]|[(C2 & C2' & ->)|[C2 ->]]]; [lra|lra|]. apply interp_mono; auto; lra.
Qed.
Print Assumptions C87_monotone.

Lemma nth_combine : forall (l m : list R) i, length l = length m -> nth i (combine l m) (0, 0) = (nth i l 0, nth i m 0).
Proof. intros. apply combine_nth; auto. Qed.

(** With increasing values and positive weights, a draw is at most the i-th value exactly when the
    uniform draw is at most the share of the weight up to it: [share ys] is the distribution
    function at the values. *)
Theorem C87_distribution : forall xs ys e u v i, emp_new xs ys = Ok e -> Forall (fun y => 0 < y) ys -> increasing xs ->
  0 <= u <= 1 -> (i < length xs)%nat -> emp_sample e [u] = Ok [v] -> (v <= nth i xs 0 <-> u <= share ys i).
Proof.
  intros xs ys e u v i H F A U Li S.
  pose proof (emp_new_ok _ _ _ H) as (L & N & Lo & Hi & _ & _ & _).
  assert (T : 0 < rsum ys).
  { destruct ys as [|y ys]; [destruct xs; [contradiction|discriminate L]|]. inversion F as [|? ? Fy Fl]; subst. cbn [rsum fold_right].
    assert (P : 0 <= fold_right Rplus 0 ys) by (clear - Fl; induction Fl; simpl; lra). lra. }
  assert (F0 : Forall (fun y => 0 <= y) ys) by (eapply Forall_impl; [|exact F]; simpl; intros; lra).
  unfold emp_sample in S. cbn [mapM bind] in S. destruct (interp_call (e_fn e) u) as [w|] eqn:I; [|discriminate S]. cbn [bind] in S. injection S as ->.
  destruct (fn_value _ _ _ _ _ H F0 T I) as (p & l & K & C).
  assert (St : StronglySorted strictly (p :: l)).
  { rewrite <- K. apply (combine_sorted Rlt Rlt); auto. apply map_sorted; [intros; apply div_lt; auto|]. apply cumsum_increasing; auto. }
  assert (Kl : length (map (fun c => c / rsum ys) (cumsum 0 ys)) = length xs) by (rewrite map_length, cumsum_length; auto).
  assert (Ki : forall j, (j < length xs)%nat -> In (share ys j, nth j xs 0) (p :: l)).
  { intros j Lj. rewrite <- K. assert (E : nth j (knots xs ys) (0, 0) = (share ys j, nth j xs 0)).
    { unfold knots. rewrite nth_combine by auto. f_equal. assert (E : 0 / rsum ys = 0) by (field; lra).
      transitivity (nth j (map (fun c => c / rsum ys) (cumsum 0 ys)) (0 / rsum ys)); [rewrite E; auto|].
      rewrite (map_nth (fun c => c / rsum ys)). rewrite cumsum_nth by (rewrite <- L; auto). unfold share. rewrite Rplus_0_l. auto. }
    rewrite <- E. apply nth_In. unfold knots. rewrite combine_length, Kl, Nat.min_id. auto. }
  pose proof (interp_knot l p _ St (Ki i Li)) as [Q1 Q2]. cbn [fst snd] in Q1, Q2.
  assert (La : forall r, In r (p :: l) -> fst r <= fst (last (p :: l) p)).
  { intros r Ir. apply (last_ge _ (fun a b => fst a <= fst b)); auto; [intros; lra|].
    eapply StronglySorted_weaken; [|exact St]. intros a b [X _]. lra. }
  pose proof (La _ (Ki i Li)) as Q3. cbn [fst] in Q3.
  destruct (rminimum_spec _ _ Lo) as [_ Lo2]. destruct (rmaximum_spec _ _ Hi) as [_ Hi2].
  assert (One : exists j, (j < length xs)%nat /\ share ys j = 1).
  { exists (length xs - 1)%nat. destruct xs as [|x xs]; [contradiction|]. split; [simpl; lia|]. unfold share. rewrite firstn_all2; [field; lra|].
    rewrite <- L. simpl. lia. }
  destruct One as (j & Lj & Ej). pose proof (La _ (Ki j Lj)) as Q4. cbn [fst] in Q4. rewrite Ej in Q4.
  destruct C as [[C ->]|[(C & C' & ->)|[C ->]]].
  - split; intros _; [lra|]. apply Lo2. apply nth_In; auto.
  - lra.
  - split; intros G.
    + destruct (Rle_dec u (share ys i)) as [|NG]; auto. exfalso.
      assert (X : interp_from p l (share ys i) < interp_from p l u) by (apply interp_strict; auto; lra). lra.
    + rewrite <- Q2. apply interp_mono; auto; [lra|]. apply strictly_rising; auto.
Qed.
Print Assumptions C87_distribution.

(** Only the proportions of the weights count for the draws. *)
Theorem C87_scale : forall xs ys k e e' us, 0 < k -> 0 < rsum ys -> emp_new xs ys = Ok e -> emp_new xs (map (Rmult k) ys) = Ok e' ->
  emp_sample e' us = emp_sample e us.
Proof.
  intros xs ys k e e' us K T H H'. destruct (emp_new_ok _ _ _ H) as (_ & _ & Lo & Hi & Fn & _ & _).
  destruct (emp_new_ok _ _ _ H') as (_ & _ & Lo' & Hi' & Fn' & _ & _).
  assert (Es : forall l, rsum (map (Rmult k) l) = k * rsum l) by (induction l; simpl; [ring|unfold rsum in *; rewrite IHl; ring]).
  assert (Ec : forall l a, cumsum (k * a) (map (Rmult k) l) = map (Rmult k) (cumsum a l)).
  { induction l as [|x l IH]; intros a; simpl; auto. rewrite <- Rmult_plus_distr_l. rewrite IH. auto. }
  assert (Ek : knots xs (map (Rmult k) ys) = knots xs ys).
  { unfold knots. f_equal. rewrite <- (Rmult_0_r k) at 1. rewrite Ec, map_map, Es. apply map_ext. intros a. field. lra. }
  assert (E : e_fn e' = e_fn e).
  { rewrite Fn, Fn', Ek. rewrite Lo in Lo'. rewrite Hi in Hi'. injection Lo' as ->. injection Hi' as ->. auto. }
  unfold emp_sample. rewrite E. auto.
Qed.
Print Assumptions C87_scale.

Ltac rcase :=
  repeat match goal with
  | |- context [rleb ?a ?b] => let E := fresh in destruct (rleb a b) eqn:E; rewrite ?rleb_true, ?rleb_false in E; try lra; clear E
  | |- context [rltb ?a ?b] => let E := fresh in destruct (rltb a b) eqn:E; rewrite ?rltb_true, ?rltb_false in E; try lra; clear E
  | |- context [reqb ?a ?b] => let E := fresh in destruct (reqb a b) eqn:E; rewrite ?reqb_true, ?reqb_false in E; try lra; clear E
  end.

(* values 1, 2, 4 with weights 1, 1, 2: shares 1/4, 1/2, 1 *)
Example C87_example : exists e, emp_new [1; 2; 4] [1; 1; 2] = Ok e
  /\ emp_sample e [1/8; 3/8; 3/4] = Ok [1; 3/2; 3]
  /\ increasing [1; 2; 4] /\ Forall (fun y => 0 < y) [1; 1; 2] /\ share [1; 1; 2] 1 = 1/2.
Proof.
  destruct (proj2 (C87_construct [1; 2; 4] [1; 1; 2])) as [e E]; [split; [auto|discriminate]|].
  exists e. split; auto. destruct (emp_new_ok _ _ _ E) as (_ & _ & Lo & _ & Fn & _ & _).
  splits.
  - unfold emp_sample. rewrite Fn.
    rewrite knots_by_x; [|repeat constructor; lra|simpl; lra].
    assert (EL : fst (e_int e) = 1).
    { simpl in Lo. injection Lo as <-. unfold Rmin. destruct (Rle_dec 1 2); [|lra]. destruct (Rle_dec 1 4); lra. }
    unfold knots, interp_call. cbn [mapM bind map cumsum combine ip_pts ip_lo ip_hi ip_raise last fst snd rsum fold_right interp_from].
    rewrite EL. rcase. cbn [bind]. f_equal. f_equal. f_equal; [field|f_equal; field].
  - repeat constructor; lra.
  - repeat constructor; lra.
  - unfold share. simpl. field.
Qed.

(** ** C88 *)

Lemma hd_pts : forall xs ys, length xs = length ys -> forall p l, psort (combine xs ys) = p :: l ->
  forall x, In x xs -> fst p <= x <= fst (last (p :: l) p).
Proof.
  intros xs ys L p l E x I.
  destruct (In_nth xs x 0 I) as (i & Li & <-).
  assert (J : In (nth i xs 0, nth i ys 0) (psort (combine xs ys))).
  { apply psort_In. rewrite <- nth_combine by auto. apply nth_In. rewrite combine_length, <- L, Nat.min_id. auto. }
  pose proof (psort_Sorted (combine xs ys)) as S. apply Sorted_StronglySorted in S; [|intros a b c; unfold before_fst; lra].
  rewrite E in *. split.
  - inversion S as [|? ? _ F]; subst. destruct J as [J|J]; [rewrite J; simpl; lra|]. rewrite Forall_forall in F. apply (F _ J).
  - apply (last_ge _ before_fst _ p) in J; auto. intros. unfold before_fst. lra.
Qed.

(** A value outside the Interval, which is never drawn, has log density 0, like a density of one. *)
Theorem C88_outside : forall xs ys e v, emp_new xs ys = Ok e -> v < fst (e_int e) \/ snd (e_int e) < v -> emp_logpdf e v = Ok 0.
Proof.
  intros xs ys e v H O. destruct (emp_new_ok _ _ _ H) as (L & N & Lo & Hi & _ & Lp & _).
  destruct (rminimum_spec _ _ Lo) as [Lo1 Lo2]. destruct (rmaximum_spec _ _ Hi) as [Hi1 Hi2].
  unfold emp_logpdf, interp_call. rewrite Lp. cbn [ip_pts ip_lo ip_hi ip_raise].
  destruct (psort (combine xs ys)) as [|p l] eqn:E.
  - destruct xs as [|x xs]; [contradiction|]. destruct ys as [|y ys]; [discriminate L|]. exfalso.
    assert (J : In (x, y) (psort (combine (x :: xs) (y :: ys)))) by (apply psort_In; left; auto). rewrite E in J. inversion J.
  - pose proof (hd_pts _ _ L _ _ E) as B.
    assert (P : In p (psort (combine xs ys))) by (rewrite E; left; auto).
    assert (Q : In (last (p :: l) p) (psort (combine xs ys))) by (rewrite E; apply last_In; discriminate).
    apply (proj1 (psort_In _ _)) in P. apply (proj1 (psort_In _ _)) in Q. destruct p as [px py]. apply in_combine_l in P.
    destruct (last ((px, py) :: l) (px, py)) as [qx qy] eqn:EQ. apply in_combine_l in Q. cbn [fst].
    destruct (rltb v px) eqn:E1; auto. destruct (rltb qx v) eqn:E2; auto. rewrite rltb_false in *. exfalso.
    destruct O as [O|O]; [pose proof (Lo2 _ P)|pose proof (Hi2 _ Q)]; lra.
Qed.
Print Assumptions C88_outside.

(** The log density is never negative: what is returned is the weight. *)
Theorem C88_weight : forall xs ys e v d, emp_new xs ys = Ok e -> Forall (fun y => 0 <= y) ys -> emp_logpdf e v = Ok d -> 0 <= d.
Proof.
  intros xs ys e v d H F D. destruct (emp_new_ok _ _ _ H) as (L & N & Lo & Hi & _ & Lp & _).
  unfold emp_logpdf, interp_call in D. rewrite Lp in D. cbn [ip_pts ip_lo ip_hi ip_raise] in D.
  assert (G : forall q, In q (psort (combine xs ys)) -> 0 <= snd q).
  { intros [qx qy] Q. apply (proj1 (psort_In _ _)) in Q. apply in_combine_r in Q. rewrite Forall_forall in F. apply F; auto. }
  destruct (psort (combine xs ys)) as [|p l]; [discriminate D|].
  destruct (rltb v (fst p)) eqn:E1; [injection D as <-; lra|]. destruct (rltb (fst (last (p :: l) p)) v); [injection D as <-; lra|].
  injection D as <-. apply rltb_false in E1.
  destruct (fold_Rmax (map snd l) (snd p)) as (M1 & M2 & _).
  apply (interp_bounds 0 (fold_left Rmax (map snd l) (snd p)) l p v); auto.
  rewrite Forall_forall in M2. constructor; [split; auto; apply G; left; auto|]. apply Forall_forall. intros q Q. split; [apply G; right; auto|].
  apply M2. apply in_map; auto.
Qed.
Print Assumptions C88_weight.

(** The mean can lie above every value. *)
Theorem C88_mean_refuted : exists xs ys e m, emp_new xs ys = Ok e /\ Forall (fun y => 0 < y) ys /\ increasing xs
  /\ emp_mean e = Ok m /\ snd (e_int e) < m.
Proof.
  destruct (proj2 (C87_construct [1; 2] [1; 1])) as [e E]; [split; [auto|discriminate]|].
  exists [1; 2], [1; 1], e, 3. destruct (emp_new_ok _ _ _ E) as (_ & _ & Lo & Hi & Fn & _ & Ex).
  assert (EH : snd (e_int e) = 2) by (simpl in Hi; injection Hi as <-; unfold Rmax; destruct (Rle_dec 1 2); lra).
  splits; auto.
  - repeat constructor; lra.
  - repeat constructor; lra.
  - unfold emp_mean. rewrite Ex, Fn. rewrite knots_by_x; [|repeat constructor; lra|simpl; lra].
    unfold knots, interp_call. cbn [mapM bind map cumsum combine ip_pts ip_lo ip_hi ip_raise last fst snd rsum fold_right interp_from].
    rewrite EH. rcase. cbn [bind combine map fst snd]. f_equal. unfold rmean. simpl. field.
  - lra.
Qed.
Print Assumptions C88_mean_refuted.

(** Scaling the weights, which leaves the draws alone, changes the log density. *)
Theorem C88_scale_refuted : exists xs ys k e e' v d d', 0 < k /\ emp_new xs ys = Ok e /\ emp_new xs (map (Rmult k) ys) = Ok e'
  /\ emp_logpdf e v = Ok d /\ emp_logpdf e' v = Ok d' /\ d <> d' /\ forall us, emp_sample e' us = emp_sample e us.
Proof.
  destruct (proj2 (C87_construct [1] [1])) as [e E]; [split; [auto|discriminate]|].
  destruct (proj2 (C87_construct [1] (map (Rmult 2) [1]))) as [e' E']; [split; [auto|discriminate]|].
  exists [1], [1], 2, e, e', 1, 1, (2 * 1). pose proof (emp_new_ok _ _ _ E) as (_ & _ & _ & _ & _ & Lp & _).
  pose proof (emp_new_ok _ _ _ E') as (_ & _ & _ & _ & _ & Lp' & _).
  splits; auto; try lra.
  - unfold emp_logpdf. rewrite Lp. unfold interp_call. simpl. rcase. auto.
  - unfold emp_logpdf. rewrite Lp'. unfold interp_call. simpl. rcase. auto.
  - intros us. apply (C87_scale [1] [1] 2); auto; simpl; lra.
Qed.
Print Assumptions C88_scale_refuted.

Example C88_example : exists e, emp_new [1; 2; 4] [1; 1; 2] = Ok e /\ fst (e_int e) = 1 /\ emp_logpdf e 0 = Ok 0 /\ emp_logpdf e 3 = Ok (3 / 2).
Proof.
  destruct (proj2 (C87_construct [1; 2; 4] [1; 1; 2])) as [e E]; [split; [auto|discriminate]|].
  exists e. split; auto. pose proof (emp_new_ok _ _ _ E) as (_ & _ & Lo & _ & _ & Lp & _).
  assert (EL : fst (e_int e) = 1).
  { simpl in Lo. injection Lo as <-. unfold Rmin. destruct (Rle_dec 1 2); [|lra]. destruct (Rle_dec 1 4); lra. }
  splits; auto.
  - eapply C88_outside; eauto. left. lra.
  - unfold emp_logpdf. rewrite Lp. rewrite psort_sorted by (repeat constructor; unfold before_fst; simpl; lra).
    unfold interp_call. cbn [combine ip_pts ip_lo ip_hi ip_raise last fst snd interp_from]. rcase. f_equal. field.
Qed.

(** ** C89 *)

(** An EmpiricalHazard cannot be constructed. *)
Theorem C89_never : forall times cum, emphaz_new times cum = Err ValueError.
Proof.
  intros times cum. unfold emphaz_new. destruct times as [|t times]; auto. destruct cum as [|c cum]; auto. cbn [rmaximum bind].
  unfold interp1d. destruct (Nat.eqb _ _); auto.
Qed.
Print Assumptions C89_never.

(** A baseline is found exactly for the types exp and weibull, in upper or lower case, and is the
    hazard with the parameters given. *)
Theorem C89_baseline : forall js b, find_baseline js = Ok b <->
  exists s, dget js "Type"%string = Some (JText s)
  /\ ((lower s = "exp"%string /\ exists r, dget js "Rate"%string = Some (JNum r) /\ b = BHazard (HExp r))
      \/ (lower s = "weibull"%string /\ exists l k, dget js "Lambda"%string = Some (JNum l) /\ dget js "K"%string = Some (JNum k) /\ b = BHazard (HWeibull l k))).
Proof.
  intros js b. unfold find_baseline, jnum, jnums, dgetE. split.
  - destruct (dget js "Type"%string) as [[s|x|l]|]; cbn [bind]; try discriminate. intros H. exists s. split; auto.
    destruct (String.eqb_spec (lower s) "exp") as [E|_].
    { left. split; auto. destruct (dget js "Rate"%string) as [[?|r|?]|]; cbn [bind] in H; try discriminate H. injection H as <-. eauto. }
    destruct (String.eqb_spec (lower s) "weibull") as [E|_].
    { right. split; auto. destruct (dget js "Lambda"%string) as [[?|l|?]|]; cbn [bind] in H; try discriminate H.
      destruct (dget js "K"%string) as [[?|k|?]|]; cbn [bind] in H; try discriminate H. injection H as <-. eauto. }
    destruct (String.eqb_spec (lower s) "empirical") as [E|_]; [|discriminate H].
    destruct (dget js "Time"%string) as [[?|?|ts]|]; cbn [bind] in H; try discriminate H.
    destruct (dget js "CumHaz"%string) as [[?|?|cs]|]; cbn [bind] in H; try discriminate H.
    rewrite C89_never in H. discriminate H.
  - intros (s & E & [(E1 & r & E2 & ->)|(E1 & l & k & E2 & E3 & ->)]); rewrite E; cbn [bind]; rewrite E1; simpl; rewrite ?E2, ?E3; auto.
Qed.
Print Assumptions C89_baseline.

(** Complete empirical baselines raise ValueError, unknown types KeyError. *)
Theorem C89_raises : forall js s, dget js "Type"%string = Some (JText s) ->
  (forall ts cs, lower s = "empirical"%string -> dget js "Time"%string = Some (JNums ts) -> dget js "CumHaz"%string = Some (JNums cs) ->
     find_baseline js = Err ValueError)
  /\ (~ In (lower s) ["exp"; "weibull"; "empirical"]%string -> find_baseline js = Err KeyError).
Proof.
  intros js s E. unfold find_baseline, jnums, jnum, dgetE. rewrite E. cbn [bind]. split.
  - intros ts cs -> E1 E2. simpl. rewrite E1, E2. cbn [bind]. rewrite C89_never. auto.
  - intros N. destruct (String.eqb_spec (lower s) "exp") as [X|_]; [exfalso; apply N; simpl; auto|].
    destruct (String.eqb_spec (lower s) "weibull") as [X|_]; [exfalso; apply N; simpl; auto|].
    destruct (String.eqb_spec (lower s) "empirical") as [X|_]; [exfalso; apply N; simpl; auto|]. auto.
Qed.
Print Assumptions C89_raises.

Example C89_example :
  find_baseline [("Type", JText "EXP"); ("Rate", JNum 2)]%string = Ok (BHazard (HExp 2))
  /\ find_baseline [("Type", JText "Empirical"); ("Time", JNums [0; 1]); ("CumHaz", JNums [0; 3])]%string = Err ValueError
  /\ find_baseline [("Type", JText "gompertz")]%string = Err KeyError.
Proof. splits; auto. Qed.
