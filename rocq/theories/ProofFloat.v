(** * Facts about ModelFloat *)

Require Import Verif.ModelFloat Verif.ModelResample Verif.ProofBase Verif.PropsResample Coq.ZArith.ZArith Lia.
Open Scope R_scope.

Lemma rins_length : forall x l, length (rins x l) = S (length l).
Proof. intros x l. induction l as [|y l IH]; simpl; auto. destruct (rleb x y); simpl; auto. Qed.
Lemma rsort_length : forall l, length (rsort l) = length l.
Proof. induction l as [|x l IH]; simpl; auto. rewrite rins_length. auto. Qed.
Lemma rins_Forall : forall (P : R -> Prop) x l, P x -> Forall P l -> Forall P (rins x l).
Proof.
  intros P x l Hx. induction l as [|y l IH]; intros H; simpl; [repeat constructor; auto|].
  inversion H; subst. destruct (rleb x y); repeat constructor; auto.
Qed.
Lemma rsort_Forall : forall (P : R -> Prop) l, Forall P l -> Forall P (rsort l).
Proof. intros P l. induction l as [|x l IH]; intros H; simpl; auto. inversion H; subst. apply rins_Forall; auto. Qed.

Lemma Int_part_nonneg : forall h, 0 <= h -> (0 <= Int_part h)%Z.
Proof.
  intros h H. destruct (base_Int_part h) as [A B]. destruct (Z_le_gt_dec 0 (Int_part h)) as [L|G]; auto. exfalso.
  assert (K : (Int_part h <= -1)%Z) by lia. apply IZR_le in K. simpl in K. lra.
Qed.
Lemma Int_part_bounds : forall h, 0 <= h -> 0 <= h - INR (Z.to_nat (Int_part h)) < 1.
Proof.
  intros h H. destruct (base_Int_part h) as [A B]. pose proof (Int_part_nonneg h H).
  rewrite INR_IZR_INZ, Z2Nat.id; auto. lra.
Qed.
Lemma Int_part_INR_frac : forall n x, INR n <= x < INR n + 1 -> Z.to_nat (Int_part x) = n.
Proof.
  intros n x H. destruct (base_Int_part x) as [A B]. rewrite INR_IZR_INZ in H.
  assert (Int_part x = Z.of_nat n); [|rewrite H0; apply Nat2Z.id].
  assert (IZR (Int_part x) < IZR (Z.of_nat n + 1)) by (rewrite plus_IZR; lra).
  assert (IZR (Z.of_nat n - 1) < IZR (Int_part x)) by (rewrite minus_IZR; lra).
  apply lt_IZR in H0. apply lt_IZR in H1. lia.
Qed.

(** The quantile of a non-empty list lies between any bounds of the list. *)
Lemma quantile_r_bounds : forall a b l q, l <> [] -> 0 <= q <= 1 -> Forall (fun x => a <= x <= b) l -> a <= quantile_r l q <= b.
Proof.
  intros a b l q N Q F. unfold quantile_r.
  set (h := q * INR (length l - 1)). set (i := Z.to_nat (Int_part h)).
  assert (L1 : (1 <= length l)%nat) by (destruct l; [congruence|simpl; lia]).
  assert (H0 : 0 <= h) by (unfold h; apply Rmult_le_pos; [lra|apply pos_INR]).
  pose proof (Int_part_bounds h H0) as B. fold i in B.
  assert (Hh : h <= INR (length l - 1)).
  { unfold h. rewrite <- (Rmult_1_l (INR (length l - 1))) at 2. apply Rmult_le_compat_r; [apply pos_INR|lra]. }
  assert (Li : (i <= length l - 1)%nat) by (apply INR_le; lra).
  assert (FS : Forall (fun x => a <= x <= b) (rsort l)) by (apply rsort_Forall; auto).
  assert (G : forall j, (j <= length l - 1)%nat -> a <= nth j (rsort l) 0 <= b).
  { intros j Hj. rewrite Forall_forall in FS. apply FS. apply nth_In. rewrite rsort_length. lia. }
  pose proof (G i Li) as G1. assert (Lm : (Nat.min (S i) (length l - 1) <= length l - 1)%nat) by lia.
  pose proof (G _ Lm) as G2. set (lo := nth i (rsort l) 0) in *. set (hi := nth (Nat.min (S i) (length l - 1)) (rsort l) 0) in *.
  set (t := h - INR i) in *. clearbody lo hi t.
  replace (lo + t * (hi - lo)) with ((1 - t) * lo + t * hi) by ring.
  assert (T0 : 0 <= t) by lra. assert (T1 : 0 <= 1 - t) by lra.
  pose proof (Rmult_le_compat_l t _ _ T0 (proj1 G2)). pose proof (Rmult_le_compat_l t _ _ T0 (proj2 G2)).
  pose proof (Rmult_le_compat_l (1 - t) _ _ T1 (proj1 G1)). pose proof (Rmult_le_compat_l (1 - t) _ _ T1 (proj2 G1)). lra.
Qed.
Lemma quantile_r_const : forall x l q, l <> [] -> 0 <= q <= 1 -> Forall (fun y => y = x) l -> quantile_r l q = x.
Proof.
  intros x l q N Q F. assert (x <= quantile_r l q <= x); [|lra]. apply quantile_r_bounds; auto.
  eapply Forall_impl; [|eauto]. simpl. intros. lra.
Qed.

Lemma quantile_nan : forall l q, 0 <= q <= 1 -> In NaN l -> quantile l q = Ok NaN.
Proof.
  intros l q Q H. unfold quantile. assert (E : rleb 0 q && rleb q 1 = true).
  { apply andb_true_intro. split; apply rleb_true; lra. }
  rewrite E. destruct l as [|x l]; [destruct H|].
  assert (K : as_fin (x :: l) = None); [|rewrite K; auto].
  revert H. generalize (x :: l). clear. induction l as [|x l IH]; intros H; [destruct H|].
  destruct H as [->|H]; auto. simpl. destruct x; auto. rewrite (IH H). auto.
Qed.
Lemma as_fin_Some : forall l xs, as_fin l = Some xs -> l = map Fin xs.
Proof.
  induction l as [|x l IH]; intros xs H; simpl in H; [inversion H; auto|].
  destruct x; try discriminate. destruct (as_fin l) as [r|]; inversion H; subst. simpl. f_equal. auto.
Qed.
Lemma as_fin_Fin : forall xs, as_fin (map Fin xs) = Some xs.
Proof. induction xs as [|x xs IH]; simpl; auto. rewrite IH. auto. Qed.
Lemma quantile_fin : forall xs q, xs <> [] -> 0 <= q <= 1 -> quantile (map Fin xs) q = Ok (Fin (quantile_r xs q)).
Proof.
  intros xs q N Q. unfold quantile. assert (E : rleb 0 q && rleb q 1 = true).
  { apply andb_true_intro. split; apply rleb_true; lra. }
  rewrite E, as_fin_Fin. destruct xs; [congruence|auto].
Qed.
Lemma quantile_cases : forall l q e, quantile l q = Ok e ->
  0 <= q <= 1 /\ l <> [] /\ ((exists xs, l = map Fin xs /\ e = Fin (quantile_r xs q)) \/ (as_fin l = None /\ e = NaN)).
Proof.
  intros l q e H. unfold quantile in H. destruct (rleb 0 q) eqn:E1; [|discriminate]. destruct (rleb q 1) eqn:E2; [|discriminate].
  apply rleb_true in E1. apply rleb_true in E2. simpl in H. destruct l as [|x l]; [discriminate|].
  split; [lra|]. split; [discriminate|]. destruct (as_fin (x :: l)) as [xs|] eqn:E; inversion H; subst; auto.
  left. exists xs. split; auto. apply as_fin_Some; auto.
Qed.

(** Comparisons *)
Lemma fltb_fin : forall x y, fltb (Fin x) (Fin y) = true <-> x < y.
Proof. intros. apply rltb_true. Qed.
Lemma fltb_irrefl : forall a, fltb a a = false.
Proof. intros [x| | |]; auto. apply rltb_false. lra. Qed.
Lemma fleb_trans : forall a b c, fleb a b = true -> fleb b c = true -> fleb a c = true.
Proof.
  intros [x| | |] [y| | |] [z| | |] H1 H2; simpl in *; try discriminate; auto.
  apply rleb_true in H1. apply rleb_true in H2. apply rleb_true. lra.
Qed.
Lemma fltb_fleb_trans : forall a b c, fltb a b = true -> fleb b c = true -> fltb a c = true.
Proof.
  intros [x| | |] [y| | |] [z| | |] H1 H2; simpl in *; try discriminate; auto.
  apply rltb_true in H1. apply rleb_true in H2. apply rltb_true. lra.
Qed.
Lemma fleb_total : forall a b, a <> NaN -> b <> NaN -> fleb a b = false -> fltb b a = true.
Proof.
  intros [x| | |] [y| | |] N1 N2 H; simpl in *; try congruence. apply rleb_false in H. apply rltb_true. auto.
Qed.
Lemma fleb_refl : forall a, a <> NaN -> fleb a a = true.
Proof. intros [x| | |] N; simpl; try congruence. apply rleb_true. lra. Qed.
Lemma fltb_fleb : forall a b, fltb a b = true -> fleb a b = true.
Proof. intros [x| | |] [y| | |] H; simpl in *; try discriminate; auto. apply rltb_true in H. apply rleb_true. lra. Qed.

(** Sums *)
Lemma fold_fadd_fin : forall xs a, fold_left fadd (map Fin xs) (Fin a) = Fin (a + rsum xs).
Proof.
  induction xs as [|x xs IH]; intros a; simpl; [f_equal; lra|]. rewrite IH. f_equal. unfold rsum. lra.
Qed.
Lemma fsum_fin : forall xs, fsum (map Fin xs) = Fin (rsum xs).
Proof. intros. unfold fsum. rewrite fold_fadd_fin. f_equal. lra. Qed.
Lemma rsum_nonneg : forall l, Forall (fun x => 0 <= x) l -> 0 <= rsum l.
Proof. induction l as [|x l IH]; intros H; simpl; [lra|]. inversion H; subst. specialize (IH H3). unfold rsum in *. lra. Qed.
Lemma rsum_zero : forall l, Forall (fun x => 0 <= x) l -> rsum l = 0 -> Forall (fun x => x = 0) l.
Proof.
  induction l as [|x l IH]; intros H E; auto. inversion H; subst. simpl in E. pose proof (rsum_nonneg l H3). unfold rsum in *.
  constructor; [lra|]. apply IH; auto. lra.
Qed.
Lemma rsum_div : forall l k, rsum (map (fun x => x / k) l) = rsum l / k.
Proof. intros l k. induction l as [|x l IH]; simpl; [unfold Rdiv; lra|]. unfold rsum in *. rewrite IH. unfold Rdiv. lra. Qed.
Lemma rsum_repeat : forall x n, rsum (repeat x n) = INR n * x.
Proof. intros x n. induction n as [|n IH]; [simpl; lra|]. rewrite S_INR. simpl repeat. unfold rsum in *. simpl. rewrite IH. lra. Qed.
