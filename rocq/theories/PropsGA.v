(** * Property C60: the genetic algorithm *)

Require Import Verif.Base Verif.ModelFloat Verif.ModelResample Verif.ModelABC Verif.ModelGA Verif.ProofBase Verif.ProofFloat Verif.PropsABC.
Require Import Coq.ZArith.ZArith Lia.
Local Open Scope nat_scope.

(** ** Crossover *)

Section Cross.
  Context {G I : Type} (loc : I -> dict flt).
  Context (domain : G -> res (list (name * flt * flt)) * G) (random : G -> R * G).

  Lemma foldM_dset : forall (f : name -> res flt) ns l l', foldM (fun l n => do v <- f n; Ok (dset l n v)) ns l = Ok l' ->
    forall n, (In n ns -> exists v, f n = Ok v /\ dget l' n = Some v) /\ (~ In n ns -> dget l' n = dget l n).
  Proof using.
    intros f ns. induction ns as [|m ns IH]; intros l l' H n; cbn [foldM] in H; [injection H as <-; split; [intros []|auto]|].
    apply bind_ok in H. destruct H as (l1 & H1 & H). apply bind_ok in H1. destruct H1 as (v & H1 & H2). injection H2 as <-.
    destruct (IH _ _ H n) as [I1 I2]. split.
    - intros [->|J]; auto. destruct (in_dec string_dec n ns) as [J|J]; auto. exists v. split; auto. rewrite (I2 J), dget_dset, String.eqb_refl. auto.
    - intros J. rewrite I2 by (intros K; apply J; right; auto). rewrite dget_dset.
      destruct (String.eqb_spec n m) as [->|]; auto. exfalso. apply J. left. auto.
  Qed.

  Lemma shuffle_spec : forall p1 p2 ns l1 l2 r m1 m2 r',
    shuffle_loop loc random p1 p2 ns l1 l2 r = Some (Ok (m1, m2), r') ->
    forall n, (In n ns -> exists a b, dget (loc p1) n = Some a /\ dget (loc p2) n = Some b
                 /\ (dget m1 n = Some a /\ dget m2 n = Some b \/ dget m1 n = Some b /\ dget m2 n = Some a))
           /\ (~ In n ns -> dget m1 n = dget l1 n /\ dget m2 n = dget l2 n).
  Proof using.
    intros p1 p2 ns. induction ns as [|m ns IH]; intros l1 l2 r m1 m2 r' H n; cbn [shuffle_loop] in H.
    - unfold cret in H. injection H as <- <- _. split; [intros []|auto].
    - apply cbind_ok in H. destruct H as (u & r1 & _ & H).
      assert (K : exists a b x y r2, dget (loc p1) m = Some a /\ dget (loc p2) m = Some b /\ (x = a /\ y = b \/ x = b /\ y = a)
                  /\ shuffle_loop loc random p1 p2 ns (dset l1 m x) (dset l2 m y) r2 = Some (Ok (m1, m2), r')).
      { unfold at_, dgetE in H. destruct (rltb u (1/2)); apply cbind_ok in H; destruct H as (a & r2 & A & H); apply cbind_ok in H; destruct H as (b & r3 & B & H);
          unfold cres in A, B; destruct (dget (loc p1) m) as [a'|] eqn:E1; try discriminate A; try discriminate B;
          destruct (dget (loc p2) m) as [b'|] eqn:E2; try discriminate A; try discriminate B;
          injection A as <- _; injection B as <- _; do 5 eexists; (split; [reflexivity|]); (split; [reflexivity|]); (split; [|exact H]); auto. }
      destruct K as (a & b & x & y & r2 & A & B & X & H'). destruct (IH _ _ _ _ _ _ H' n) as [I1 I2]. split.
      + intros [->|J]; auto. destruct (in_dec string_dec n ns) as [J|J]; auto. destruct (I2 J) as [J1 J2].
        rewrite dget_dset, String.eqb_refl in J1, J2. exists a, b. split; auto. split; auto. rewrite J1, J2.
        destruct X as [[-> ->]|[-> ->]]; auto.
      + intros J. destruct I2 as [J1 J2]; [intros K; apply J; right; auto|]. rewrite J1, J2, !dget_dset.
        destruct (String.eqb_spec n m) as [->|]; auto. exfalso. apply J. left. auto.
  Qed.
End Cross.

(** Average: both children are the same dictionary over the domain, each entry the mean of the parents. *)
Theorem C60_average : forall G I (loc : I -> dict flt) (domain : G -> res (list (name * flt * flt)) * G) p1 p2 r l1 l2 r',
  average loc domain p1 p2 r = Some (Ok (l1, l2), r') ->
  exists dom, domain r = (Ok dom, r') /\ l2 = l1
  /\ (forall n, In n (names dom) -> exists a b c, dget (loc p1) n = Some a /\ dget (loc p2) n = Some b /\ dget l1 n = Some c
        /\ forall x y, a = Fin x -> b = Fin y -> c = Fin ((x + y) / 2))
  /\ forall n, ~ In n (names dom) -> dget l1 n = None.
Proof.
  intros G I loc domain p1 p2 r l1 l2 r' H. unfold average in H. apply cbind_ok in H. destruct H as (dom & r1 & H1 & H).
  apply cbind_ok in H. destruct H as (l & r2 & H2 & H). unfold cret in H. injection H as <- <- <-.
  unfold clift in H1. unfold cres in H2. injection H2 as H2 ->. exists dom. split; [destruct (domain r); congruence|]. split; auto.
  assert (E : foldM (fun l n => do v <- (do a <- at_ loc p1 n; do b <- at_ loc p2 n; Ok (fdivf (fadd a b) (Fin 2))); Ok (dset l n v)) (names dom) [] = Ok l).
  { rewrite <- H2. clear. generalize (@nil (name * flt)). induction (names dom) as [|n ns IH]; intros l0; cbn [foldM]; auto.
    destruct (at_ loc p1 n) as [a|e]; cbn [bind]; auto. destruct (at_ loc p2 n) as [b|e]; cbn [bind]; auto. }
  split; intros n J; destruct (foldM_dset _ _ _ _ E n) as [F1 F2].
  - destruct (F1 J) as (v & V1 & V2). unfold at_, dgetE in V1. destruct (dget (loc p1) n) as [a|]; [|discriminate V1].
    destruct (dget (loc p2) n) as [b|]; [|discriminate V1]. cbn [bind] in V1. exists a, b, v. splits; auto.
    intros x y -> ->. cbn [fadd fdivf] in V1. unfold fdiv in V1. destruct (reqb 2 0) eqn:R; [apply reqb_true in R; lra|]. congruence.
  - rewrite (F2 J). auto.
Qed.
Print Assumptions C60_average.

(** Shuffle: entry by entry the children have the parents' values, straight or exchanged. *)
Theorem C60_shuffle : forall G I (loc : I -> dict flt) (domain : G -> res (list (name * flt * flt)) * G) random p1 p2 r l1 l2 r',
  shuffle loc domain random p1 p2 r = Some (Ok (l1, l2), r') ->
  exists dom, fst (domain r) = Ok dom
  /\ (forall n, In n (names dom) -> exists a b, dget (loc p1) n = Some a /\ dget (loc p2) n = Some b
        /\ (dget l1 n = Some a /\ dget l2 n = Some b \/ dget l1 n = Some b /\ dget l2 n = Some a))
  /\ forall n, ~ In n (names dom) -> dget l1 n = None /\ dget l2 n = None.
Proof.
  intros G I loc domain random p1 p2 r l1 l2 r' H. unfold shuffle in H. apply cbind_ok in H. destruct H as (dom & r1 & H1 & H).
  unfold clift in H1. exists dom. split; [destruct (domain r); simpl; congruence|].
  split; intros n J; destruct (shuffle_spec _ _ _ _ _ _ _ _ _ _ _ H n) as [F1 F2]; auto.
Qed.
Print Assumptions C60_shuffle.

(** ** Mutation *)

(** the quantile grows with q *)
Definition ascending (l : list R) : Prop := forall i j, i <= j < length l -> (nth i l 0 <= nth j l 0)%R.
Lemma rins_ascending : forall x l, ascending l -> ascending (rins x l).
Proof.
  intros x l. induction l as [|y l IH]; intros A; simpl.
  - intros i j [H1 H2]. simpl in H2. assert (j = 0) by lia. assert (i = 0) by lia. subst. lra.
  - destruct (rleb x y) eqn:E.
    + apply rleb_true in E. intros i j [H1 H2]. destruct i as [|i], j as [|j]; try lia; cbn [nth]; try lra.
      * assert (nth 0 (y :: l) 0 <= nth j (y :: l) 0)%R by (apply A; simpl in *; lia). simpl in *. lra.
      * apply A. simpl in *. lia.
    + apply rleb_false in E. assert (A' : ascending l) by (intros i j H; apply (A (S i) (S j)); simpl; lia).
      specialize (IH A'). intros i j [H1 H2]. destruct i as [|i], j as [|j]; try lia; cbn [nth]; try lra.
      * assert (M : Forall (fun z => (y <= z)%R) (rins x l)).
        { apply rins_Forall; [lra|]. apply Forall_forall. intros z Hz. destruct (In_nth l z 0%R Hz) as (k & K1 & K2).
          specialize (A 0 (S k)). simpl in A. rewrite K2 in A. apply A. lia. }
        rewrite Forall_forall in M. apply M. apply nth_In. simpl in H2. lia.
      * apply IH. simpl in H2. lia.
Qed.
Lemma rsort_ascending : forall l, ascending (rsort l).
Proof. induction l as [|x l IH]; simpl; [intros i j [H1 H2]; simpl in H2; lia|apply rins_ascending; auto]. Qed.

Lemma quantile_r_mono : forall l p q, l <> [] -> (0 <= p <= q)%R -> (q <= 1)%R -> (quantile_r l p <= quantile_r l q)%R.
Proof.
  intros l p q N P Q. unfold quantile_r. set (s := rsort l). set (n := length l).
  assert (Ln : length s = n) by apply rsort_length.
  assert (n1 : 1 <= n) by (unfold n; destruct l; [congruence|simpl; lia]).
  pose proof (rsort_ascending l) as A. fold s in A.
  pose proof (pos_INR (n - 1)) as Pn.
  assert (H1 : (0 <= p * INR (n - 1))%R) by (apply Rmult_le_pos; lra).
  assert (H2 : (p * INR (n - 1) <= q * INR (n - 1))%R) by (apply Rmult_le_compat_r; lra).
  assert (H3 : (q * INR (n - 1) <= INR (n - 1))%R) by (rewrite <- (Rmult_1_l (INR (n - 1))) at 2; apply Rmult_le_compat_r; lra).
  set (h := (p * INR (n - 1))%R) in *. set (k := (q * INR (n - 1))%R) in *. clearbody h k. clear P Q p q.
  destruct (Int_part_bounds h H1) as [B1 B2]. destruct (Int_part_bounds k) as [B3 B4]; [lra|].
  set (i := Z.to_nat (Int_part h)) in *. set (j := Z.to_nat (Int_part k)) in *. clearbody i j.
  assert (J : j <= n - 1) by (apply INR_le; lra).
  assert (IJ : i <= j) by (apply Nat.lt_succ_r, INR_lt; rewrite S_INR; lra).
  assert (Aj : (nth j s 0 <= nth (Nat.min (S j) (n - 1)) s 0)%R) by (apply A; lia).
  destruct (Nat.eq_dec i j) as [<-|Ne].
  - nra.
  - assert (Ai : (nth i s 0 <= nth (Nat.min (S i) (n - 1)) s 0)%R) by (apply A; lia).
    assert (Am : (nth (Nat.min (S i) (n - 1)) s 0 <= nth j s 0)%R) by (apply A; lia). nra.
Qed.

Lemma fsum_fin : forall xs a, fold_left fadd (map Fin xs) (Fin a) = Fin (a + rsum xs).
Proof.
  induction xs as [|x xs IH]; intros a; simpl; [f_equal; lra|]. rewrite IH. f_equal. unfold rsum. simpl. lra.
Qed.
Lemma mean_fin : forall xs, xs <> [] -> fmean_ (map Fin xs) = Fin (rsum xs / INR (length xs)).
Proof.
  intros xs N. unfold fmean_, fsum. rewrite fsum_fin, map_length, Rplus_0_l. cbn [fdivf]. unfold fdiv.
  destruct (reqb (INR (length xs)) 0) eqn:E; auto. apply reqb_true in E. destruct xs; [congruence|].
  pose proof (pos_INR_nat_of_P 1). assert (0 < INR (length (r :: xs)))%R by (apply lt_0_INR; simpl; lia). lra.
Qed.
Lemma std_fin : forall xs, xs <> [] -> exists s, fstd (map Fin xs) = Fin s /\ (0 <= s)%R.
Proof.
  intros xs N. unfold fstd. rewrite mean_fin; auto. set (mu := (rsum xs / INR (length xs))%R).
  rewrite map_map. rewrite (map_ext _ (fun x => Fin ((x + - mu) * (x + - mu)))) by reflexivity.
  rewrite <- (map_map (fun x => ((x + - mu) * (x + - mu))%R) Fin). rewrite mean_fin by (destruct xs; [congruence|discriminate]).
  eexists. split; [reflexivity|apply sqrt_pos].
Qed.

(** The scale of a parameter, from finite values, is a positive number. *)
Theorem C60_scale : forall xs, xs <> [] -> exists s, scale_of (map Fin xs) = Fin s /\ (0 < s)%R.
Proof.
  intros xs N. destruct (std_fin xs N) as (sd & E & Sd). unfold scale_of. rewrite E.
  assert (Q : exists d, iqr (map Fin xs) = Fin d /\ (0 <= d)%R).
  { unfold iqr. destruct (map Fin xs) eqn:M; [destruct xs; [congruence|discriminate M]|]. rewrite <- M.
    rewrite !quantile_fin by (auto; lra). eexists. split; [reflexivity|].
    pose proof (quantile_r_mono xs (1/4) (3/4) N). lra. }
  destruct Q as (d & -> & D). assert (F : exists x, pymin (Fin d) (fdivf (Fin d) (Fin (134/100))) = Fin x /\ (0 <= x)%R).
  { cbn [fdivf]. unfold fdiv. destruct (reqb (134/100) 0) eqn:R; [apply reqb_true in R; lra|]. unfold pymin.
    destruct (fltb (Fin (d / (134/100))) (Fin d)); eexists; (split; [reflexivity|]); auto. lra. }
  destruct F as (x & -> & X).
  assert (L : exists y, (if fzero (Fin x) then if fzero (Fin sd) then Fin (1/10) else Fin sd else Fin x) = Fin y /\ (0 < y)%R).
  { cbn [fzero]. destruct (reqb x 0) eqn:R1.
    - destruct (reqb sd 0) eqn:R2; eexists; (split; [reflexivity|]); [lra|]. destruct (Req_dec sd 0) as [Z|Z]; [apply reqb_true in Z; congruence|lra].
    - exists x. split; auto. destruct (Req_dec x 0) as [Z|Z]; [apply reqb_true in Z; congruence|lra]. }
  destruct L as (y & -> & Y). destruct (map Fin xs) eqn:M; [destruct xs; [congruence|discriminate M]|]. cbn [fmul].
  eexists. split; [reflexivity|]. apply Rmult_lt_0_compat; [lra|]. unfold Rpower. apply exp_pos.
Qed.
Print Assumptions C60_scale.

(** the clamp max(min(v, b), a) *)
Lemma clamp_inside : forall a b v, v <> NaN -> fleb a b = true ->
  fleb a (pymax (pymin v b) a) = true /\ fleb (pymax (pymin v b) a) b = true.
Proof.
  intros a b v V H. unfold pymax, pymin.
  assert (A : a <> NaN) by (intros ->; discriminate H). assert (B : b <> NaN) by (intros ->; destruct a; discriminate H).
  destruct (fltb b v) eqn:E1.
  - destruct (fltb b a) eqn:E2; split; auto using fleb_refl.
  - destruct (fltb v a) eqn:E2; split; auto using fleb_refl.
    + destruct (fleb a v) eqn:E3; auto. rewrite (fleb_total a v) in E2; auto; discriminate.
    + destruct (fleb v b) eqn:E3; auto. rewrite (fleb_total v b) in E1; auto; discriminate.
Qed.

(** what rounding must respect: order, and the limits themselves *)
Definition rounds (rnd : flt -> flt) (dom : list (name * flt * flt)) : Prop :=
  (forall a b, fleb a b = true -> fleb (rnd a) (rnd b) = true)
  /\ forall n lo up, In (n, lo, up) dom -> rnd lo = lo /\ rnd up = up.
(** every domain is at least 2 eps wide *)
Definition wide (dom : list (name * flt * flt)) : Prop :=
  forall n lo up, In (n, lo, up) dom -> fleb (fadd lo (Fin eps64)) (fadd up (Fin (- eps64))) = true.

Lemma eps64_pos : (0 < eps64)%R.
Proof. unfold eps64. apply Rinv_0_lt_compat, pow_lt. lra. Qed.

Lemma fleb_up : forall a, fleb (fadd a (Fin eps64)) (fadd a (Fin eps64)) = true -> fleb a (fadd a (Fin eps64)) = true.
Proof. pose proof eps64_pos. intros [x| | |] K; simpl in *; auto. apply rleb_true. lra. Qed.
Lemma fleb_down : forall a, fleb (fadd a (Fin (- eps64))) (fadd a (Fin (- eps64))) = true -> fleb (fadd a (Fin (- eps64))) a = true.
Proof. pose proof eps64_pos. intros [x| | |] K; simpl in *; auto. apply rleb_true. lra. Qed.
Lemma fleb_refl_l : forall a b, fleb a b = true -> fleb a a = true.
Proof. intros a b H. apply fleb_refl. intros ->. discriminate H. Qed.
Lemma fleb_refl_r : forall a b, fleb a b = true -> fleb b b = true.
Proof. intros a b H. apply fleb_refl. intros ->. destruct a; discriminate H. Qed.

Lemma mutant_bounds : forall rnd lo up v, (forall a b, fleb a b = true -> fleb (rnd a) (rnd b) = true) -> rnd lo = lo -> rnd up = up ->
  fleb (fadd lo (Fin eps64)) (fadd up (Fin (- eps64))) = true -> v <> NaN ->
  let x := pymax (pymin v (rnd (fadd up (Fin (- eps64))))) (rnd (fadd lo (Fin eps64))) in
  fleb lo x = true /\ fleb x up = true.
Proof.
  intros rnd lo up v M L U W V x. destruct (clamp_inside (rnd (fadd lo (Fin eps64))) (rnd (fadd up (Fin (- eps64)))) v V) as [C1 C2]; [auto|].
  fold x in C1, C2. split.
  - eapply fleb_trans; [|exact C1]. rewrite <- L at 1. apply M. apply fleb_up. eapply fleb_refl_l; eauto.
  - eapply fleb_trans; [exact C2|]. rewrite <- U at 2. apply M. apply fleb_down. eapply fleb_refl_r; eauto.
Qed.

(** A proposal has a value for each parameter of the domain and none else, between the limits.
    Missing: domains narrower than 2 eps (see C60_narrow_domain_refuted); needed besides: the
    draw from the normal distribution is not nan. *)
Theorem C60_mutant_inside_partial : forall G I (loc : I -> dict flt) (domain : G -> res (list (name * flt * flt)) * G) rnd normal p sc r l r' dom r0,
  propose loc domain rnd normal p sc r = Some (Ok l, r') -> domain r = (Ok dom, r0) ->
  rounds rnd dom -> wide dom -> (forall a s r v r', normal a s r = (Ok v, r') -> v <> NaN) ->
  (forall n v, dget l n = Some v -> exists lo up, In (n, lo, up) dom /\ fleb lo v = true /\ fleb v up = true)
  /\ forall n, In n (names dom) <-> exists v, dget l n = Some v.
Proof.
  intros G I loc domain rnd normal p sc r l r' dom r0 H D [M F] W V. unfold propose in H. apply cbind_ok in H. destruct H as (dom' & r1 & H1 & H).
  unfold clift in H1. rewrite D in H1. injection H1 as <- <-.
  assert (K : forall d l0 r l r', incl d dom -> propose_loop loc rnd normal p sc d l0 r = Some (Ok l, r') ->
    (forall n v, dget l n = Some v -> (exists lo up, In (n, lo, up) d /\ fleb lo v = true /\ fleb v up = true) \/ ~ In n (names d) /\ dget l0 n = Some v)
    /\ forall n, (exists v, dget l n = Some v) <-> In n (names d) \/ exists v, dget l0 n = Some v).
  { clear -F M W V. induction d as [|[[m lo] up] d IH]; intros l0 r l r' J H; cbn [propose_loop] in H.
    - unfold cret in H. injection H as <- _. split; [intros n v E; right; split; auto; intros []|]. intros n. simpl. tauto.
    - apply cbind_ok in H. destruct H as (a & r1 & _ & H). apply cbind_ok in H. destruct H as (s & r2 & _ & H). apply cbind_ok in H. destruct H as (v1 & r3 & H3 & H).
      destruct (IH _ _ _ _ (fun x X => J x (or_intror X)) H) as [I1 I2]. split.
      + intros n v E. destruct (I1 n v E) as [(lo' & up' & A & B)|[A B]]; [left; exists lo', up'; split; [right; auto|auto]|].
        rewrite dget_dset in B. destruct (String.eqb_spec n m) as [->|Nm].
        * injection B as <-. left. exists lo, up. split; [left; auto|]. apply mutant_bounds; auto.
          -- apply (F m lo up). apply J. left. auto.
          -- apply (F m lo up). apply J. left. auto.
          -- apply (W m lo up). apply J. left. auto.
          -- unfold clift in H3. destruct (normal a s r2) as [o r5] eqn:N. injection H3 as -> <-. eapply V; eauto.
        * right. split; auto. simpl. intros [K|K]; auto.
      + intros n. rewrite I2. simpl. rewrite dget_dset. destruct (String.eqb_spec n m) as [->|Nm].
        * split; [intros _; left; left; auto|intros _; right; eauto].
        * split; [intros [A|A]; auto|intros [[A|A]|A]; auto]. congruence. }
  destruct (K dom [] _ _ _ (incl_refl _) H) as [K1 K2]. split.
  - intros n v E. destruct (K1 n v E) as [A|[_ A]]; [exact A|discriminate A].
  - intros n. rewrite K2. split; auto. intros [A|(v & A)]; [auto|discriminate A].
Qed.
Print Assumptions C60_mutant_inside_partial.

(** A domain of width eps / 2, from 0: the proposal is eps, above the upper limit. *)
Theorem C60_narrow_domain_refuted : exists G I (loc : I -> dict flt) (domain : G -> res (list (name * flt * flt)) * G) normal p sc r l r' n lo up v,
  propose loc domain (fun x => x) normal p sc r = Some (Ok l, r') /\ fst (domain r) = Ok [(n, lo, up)] /\ fltb lo up = true
  /\ (forall a s r v r', normal a s r = (Ok v, r') -> v <> NaN) /\ dget l n = Some v /\ fltb up v = true.
Proof.
  exists unit, unit, (fun _ => [("x", Fin (eps64 / 4))]), (fun r => (Ok [("x", Fin 0, Fin (eps64 / 2))], r)), (fun _ _ r => (Ok (Fin 0), r)),
    tt, [("x", Fin 1)], tt.
  pose proof eps64_pos as E.
  assert (E1 : pymin (Fin 0) (Fin (eps64 / 2 + - eps64)) = Fin (eps64 / 2 + - eps64)).
  { unfold pymin, fltb. destruct (rltb (eps64 / 2 + - eps64) 0) eqn:T; auto. apply rltb_false in T. lra. }
  assert (E2 : pymax (Fin (eps64 / 2 + - eps64)) (Fin (0 + eps64)) = Fin (0 + eps64)).
  { unfold pymax, fltb. destruct (rltb (eps64 / 2 + - eps64) (0 + eps64)) eqn:T; auto. apply rltb_false in T. lra. }
  exists [("x", Fin (0 + eps64))], tt, "x", (Fin 0), (Fin (eps64 / 2)), (Fin (0 + eps64)). splits; auto.
  - cbn -[eps64 pymin pymax]. rewrite E1, E2. auto.
  - apply rltb_true. lra.
  - intros a s r v r' H. injection H as <- _. discriminate.
  - apply rltb_true. lra.
Qed.
Print Assumptions C60_narrow_domain_refuted.

(** ** Selection *)

Lemma cmap_ok : forall G A B (f : A -> comp G B) l r bs r', cmap f l r = Some (Ok bs, r') ->
  Forall2 (fun a b => exists s s', f a s = Some (Ok b, s')) l bs.
Proof.
  intros G A B f l. induction l as [|a l IH]; intros r bs r' H; cbn [cmap] in H.
  - unfold cret in H. injection H as <- _. constructor.
  - apply cbind_ok in H. destruct H as (b & r1 & H1 & H). apply cbind_ok in H. destruct H as (bs' & r2 & H2 & H).
    unfold cret in H. injection H as <- _. constructor; eauto.
Qed.
Lemma mapM_geti : forall A (el : list A) ix cs, mapM (geti el) ix = Ok cs -> Forall2 (fun i c => nth_error el i = Some c) ix cs.
Proof.
  intros A el ix. induction ix as [|i ix IH]; intros cs H; cbn [mapM] in H; [injection H as <-; constructor|].
  apply bind_ok in H. destruct H as (c & H1 & H). apply bind_ok in H. destruct H as (l & H2 & H). injection H as <-.
  constructor; auto. unfold geti in H1. destruct (nth_error el i); [congruence|discriminate H1].
Qed.
Lemma Forall2_In_r : forall A B (P : A -> B -> Prop) l m b, Forall2 P l m -> In b m -> exists a, In a l /\ P a b.
Proof.
  intros A B P l m b F. induction F as [|x y l m H F IH]; intros K; [destruct K|]. destruct K as [->|K]; [exists x; simpl; auto|].
  destruct (IH K) as (a & A1 & A2). exists a. simpl. auto.
Qed.
Lemma Forall2_length_eq : forall A B (P : A -> B -> Prop) l m, Forall2 P l m -> length l = length m.
Proof. intros A B P l m F. induction F; simpl; auto. Qed.

Lemma argmax_spec : forall A (key : A -> flt) l cur, key cur <> NaN -> (forall x, In x l -> key x <> NaN) ->
  (argmax key cur l = cur \/ In (argmax key cur l) l) /\ fleb (key cur) (key (argmax key cur l)) = true
  /\ forall x, In x l -> fleb (key x) (key (argmax key cur l)) = true.
Proof.
  intros A key l. induction l as [|x l IH]; intros cur C N; cbn [argmax]; [splits; auto using fleb_refl; intros x []|].
  assert (Nx : key x <> NaN) by (apply N; simpl; auto).
  destruct (fltb (key cur) (key x)) eqn:E.
  - destruct (IH x Nx) as (I1 & I2 & I3); [intros y Y; apply N; simpl; auto|]. splits.
    + destruct I1 as [->|I1]; simpl; auto.
    + eapply fleb_trans; [apply fltb_fleb; eauto|auto].
    + intros y [<-|Y]; auto.
  - destruct (IH cur C) as (I1 & I2 & I3); [intros y Y; apply N; simpl; auto|]. splits; auto.
    + destruct I1 as [->|I1]; simpl; auto.
    + intros y [<-|Y]; auto. eapply fleb_trans; [|exact I2]. destruct (fleb (key x) (key cur)) eqn:L; auto.
      rewrite (fleb_total (key x) (key cur)) in E; auto; discriminate.
Qed.
Lemma pymax_key_In : forall A (key : A -> flt) l x, pymax_key key l = Ok x -> In x l.
Proof.
  intros A key l x H. destruct l as [|y l]; [discriminate H|]. cbn [pymax_key] in H. injection H as <-. revert y.
  induction l as [|z l IH]; intros y; cbn [argmax]; [simpl; auto|]. destruct (IH (if fltb (key y) (key z) then z else y)) as [K|K].
  - rewrite <- K. destruct (fltb (key y) (key z)); simpl; auto.
  - simpl. auto.
Qed.

(** a clone of a member with finite likelihood *)
Definition chosen {I : Type} (loglik : I -> flt) (clone : I -> I) (ps : list I) (q : I) : Prop :=
  exists p, In p ps /\ isfinite (loglik p) = true /\ q = clone p.

Lemma eligible_In : forall I (loglik : I -> flt) ps p, In p (eligible loglik ps) <-> In p ps /\ isfinite (loglik p) = true.
Proof. intros I loglik ps p. unfold eligible. rewrite filter_In. tauto. Qed.

(** Tournament: as many as before, each a clone of an eligible member that is the fittest of k
    eligible ones at the positions drawn. *)
Theorem C60_tour : forall G I (loglik logpost : I -> flt) clone (choice : nat -> nat -> G -> res (list nat) * G) choice_p norm_wts k ps map r l r',
  select loglik logpost clone choice choice_p norm_wts (Tour k) ps map r = Some (Ok l, r') ->
  length l = length ps /\ Forall (chosen loglik clone ps) l
  /\ Forall (fun q => exists ix cs p s s', choice (length (eligible loglik ps)) k s = (Ok ix, s')
       /\ Forall2 (fun i c => nth_error (eligible loglik ps) i = Some c) ix cs /\ In p cs /\ q = clone p
       /\ ((forall c, In c cs -> (if map then logpost c else loglik c) <> NaN) ->
           forall c, In c cs -> fleb (if map then logpost c else loglik c) (if map then logpost p else loglik p) = true)) l.
Proof.
  intros G I loglik logpost clone choice choice_p norm_wts k ps map r l r' H. unfold select in H.
  destruct (Nat.ltb k (length (eligible loglik ps))); [|discriminate H]. apply cmap_ok in H.
  assert (L : length l = length ps) by (rewrite <- (Forall2_length_eq _ _ _ _ _ H), seq_length; auto). split; auto.
  assert (K : Forall (fun q => exists ix cs p s s', choice (length (eligible loglik ps)) k s = (Ok ix, s')
       /\ Forall2 (fun i c => nth_error (eligible loglik ps) i = Some c) ix cs /\ In p cs /\ q = clone p
       /\ ((forall c, In c cs -> (if map then logpost c else loglik c) <> NaN) ->
           forall c, In c cs -> fleb (if map then logpost c else loglik c) (if map then logpost p else loglik p) = true)) l).
  { apply Forall_forall. intros q Q. destruct (Forall2_In_r _ _ _ _ _ _ H Q) as (a & _ & s & s' & E). unfold tour_once in E.
    apply cbind_ok in E. destruct E as (ix & r1 & E1 & E). apply cbind_ok in E. destruct E as (cs & r2 & E2 & E).
    apply cbind_ok in E. destruct E as (x & r3 & E3 & E). unfold cret in E. injection E as <- _.
    unfold clift in E1. unfold cres in E2, E3. injection E2 as E2 _. injection E3 as E3 _.
    exists ix, cs, x, s, r1. split; [destruct (choice (length (eligible loglik ps)) k s); congruence|].
    split; [apply mapM_geti; auto|]. split; [eapply pymax_key_In; eauto|]. split; auto.
    intros N c C. destruct cs as [|c0 cs]; [destruct C|]. cbn [pymax_key] in E3. injection E3 as <-.
    destruct (argmax_spec I (fit_of loglik logpost map) cs c0) as (_ & A2 & A3); [apply (N c0); simpl; auto|intros y Y; apply (N y); simpl; auto|].
    destruct C as [<-|C]; [exact A2|apply A3; auto]. }
  split; auto. eapply Forall_impl; [|exact K]. intros q (ix & cs & p & s & s' & _ & F & P & E & _).
  exists p. destruct (Forall2_In_r _ _ _ _ _ _ F P) as (i & _ & N). apply nth_error_In, eligible_In in N. destruct N. auto.
Qed.
Print Assumptions C60_tour.

(** Importance: as many as drawn (numpy: as many as asked for), clones of eligible members. *)
Theorem C60_importance : forall G I (loglik logpost : I -> flt) clone (choice : nat -> nat -> G -> res (list nat) * G) choice_p norm_wts ps map r l r',
  (forall p n s ix s', choice_p p n s = (Ok ix, s') -> length ix = n) ->
  select loglik logpost clone choice choice_p norm_wts Imp ps map r = Some (Ok l, r') ->
  length l = length ps /\ Forall (chosen loglik clone ps) l.
Proof.
  intros G I loglik logpost clone choice choice_p norm_wts ps map r l r' C H. unfold select in H.
  destruct (Nat.ltb 5 (length (eligible loglik ps))); [|discriminate H]. apply cbind_ok in H. destruct H as (ix & r1 & H1 & H).
  apply cbind_ok in H. destruct H as (m & r2 & H2 & H). unfold cret in H. injection H as <- _. unfold cres in H2. injection H2 as H2 _.
  apply mapM_geti in H2. unfold clift in H1.
  assert (L : length ix = length ps) by (destruct (choice_p _ _ r) as [[o|e] s] eqn:E in H1; [|discriminate H1]; injection H1 as <- _; eapply C; eauto).
  split; [rewrite map_length, <- (Forall2_length_eq _ _ _ _ _ H2); auto|].
  apply Forall_forall. intros q Q. apply in_map_iff in Q. destruct Q as (p & <- & P). exists p.
  destruct (Forall2_In_r _ _ _ _ _ _ H2 P) as (i & _ & N). apply nth_error_In, eligible_In in N. destruct N. auto.
Qed.
Print Assumptions C60_importance.

(** With too few eligible members selection raises. *)
Theorem C60_too_few : forall G I (loglik logpost : I -> flt) clone (choice : nat -> nat -> G -> res (list nat) * G) choice_p norm_wts s ps map r,
  length (filter (fun p => isfinite (loglik p)) ps) <= match s with Tour k => k | Imp => 5 end ->
  select loglik logpost clone choice choice_p norm_wts s ps map r = Some (Err AssertionError, r).
Proof.
  intros G I loglik logpost clone choice choice_p norm_wts s ps map r H. unfold select.
  destruct s as [k|]; (match goal with |- context[Nat.ltb ?a ?b] => destruct (Nat.ltb_spec a b) as [L|L] end; [unfold eligible in L; lia|reflexivity]).
Qed.
Print Assumptions C60_too_few.

(** ** Populations *)

Lemma where_spec : forall l i, In i (where_ l) <-> nth_error l i = Some true.
Proof.
  intros l. unfold where_. assert (K : forall l s i, In i (map fst (filter snd (combine (seq s (length l)) l))) <-> s <= i /\ nth_error l (i - s) = Some true).
  { clear. induction l as [|b l IH]; intros s i; cbn [length seq combine filter map]; [simpl; split; [intros []|intros [_ H]; destruct (i - s); discriminate H]|].
    cbn [snd]. assert (R : forall i, s <= i -> nth_error (b :: l) (i - s) = if Nat.eqb i s then Some b else nth_error l (i - S s)).
    { intros j J. destruct (Nat.eqb_spec j s) as [->|]; [rewrite Nat.sub_diag; auto|]. replace (j - s) with (S (j - S s)) by lia. auto. }
    destruct b; cbn [map fst]; [simpl In|]; rewrite IH.
    - split.
      + intros [<-|[A B]]; [split; auto; rewrite R, Nat.eqb_refl; auto|]. split; [lia|]. rewrite R by lia. destruct (Nat.eqb_spec i s); [lia|auto].
      + intros [A B]. rewrite R in B by auto. destruct (Nat.eqb_spec i s); [left; auto|right; split; [lia|auto]].
    - split.
      + intros [A B]. split; [lia|]. rewrite R by lia. destruct (Nat.eqb_spec i s); [lia|auto].
      + intros [A B]. rewrite R in B by auto. destruct (Nat.eqb_spec i s); [discriminate B|split; [lia|auto]]. }
  intros i. rewrite K, Nat.sub_0_r. split; [intros [_ H]; auto|split; [lia|auto]].
Qed.
Lemma where_NoDup : forall l, NoDup (where_ l).
Proof.
  intros l. unfold where_. assert (N : NoDup (map fst (combine (seq 0 (length l)) l))).
  { replace (map fst (combine (seq 0 (length l)) l)) with (seq 0 (length l)); [apply seq_NoDup|]. generalize 0. induction l as [|b l IH]; intros s; simpl; auto. f_equal; auto. }
  revert N. generalize (combine (seq 0 (length l)) l). induction l0 as [|[i b] m IH]; simpl; intros N; auto. inversion N; subst.
  destruct b; simpl; auto. constructor; auto. intros J. apply H1. apply in_map_iff in J. destruct J as (x & E & J). apply filter_In in J. destruct J.
  apply in_map_iff. eauto.
Qed.

Lemma set_nth_length : forall A (l : list A) i x, length (set_nth l i x) = length l.
Proof. intros A l. induction l as [|y l IH]; intros [|i] x; simpl; auto. Qed.
Lemma nth_set_nth : forall A (l : list A) i x j, i < length l -> nth_error (set_nth l i x) j = if Nat.eqb j i then Some x else nth_error l j.
Proof.
  intros A l. induction l as [|y l IH]; intros i x j H; [simpl in H; lia|]. destruct i as [|i], j as [|j]; simpl; auto.
  apply IH. simpl in H. lia.
Qed.
Lemma seti_ok : forall A (l : list A) i x l', seti l i x = Ok l' -> i < length l /\ length l' = length l
  /\ forall j, nth_error l' j = if Nat.eqb j i then Some x else nth_error l j.
Proof.
  intros A l i x l' H. unfold seti in H. destruct (Nat.ltb_spec i (length l)); [|discriminate H]. injection H as <-.
  splits; auto using set_nth_length. intros j. apply nth_set_nth. auto.
Qed.

Section Pop.
  Context {G I : Type}.
  Context (loc : I -> dict flt) (loglik logpost : I -> flt) (clone : I -> I).
  Context (domain : G -> res (list (name * flt * flt)) * G) (rnd : flt -> flt).
  Context (random : G -> R * G) (normal : flt -> flt -> G -> res flt * G).
  Context (binomial : R -> nat -> G -> res (list bool) * G).
  Context (choice : nat -> nat -> G -> res (list nat) * G) (choice_p : list flt -> nat -> G -> res (list nat) * G).
  Context (norm_wts : list flt -> list flt) (serve_and_evaluate : dict flt -> G -> res I * G) (draw : G -> res I * G).

  (** q1, q2 are evaluated children of a, b *)
  Definition children (c : cross) (a b q1 q2 : I) : Prop :=
    exists l1 l2 s s1 s2 s3 s4, crossover loc domain random c a b s = Some (Ok (l1, l2), s1)
      /\ serve_and_evaluate l1 s2 = (Ok q1, s3) /\ serve_and_evaluate l2 s3 = (Ok q2, s4).
  (** q is an evaluated proposal from p *)
  Definition mutant (sc : dict flt) (p q : I) : Prop :=
    exists l s s1 s2 s3, propose loc domain rnd normal p sc s = Some (Ok l, s1) /\ serve_and_evaluate l s2 = (Ok q, s3).

  Lemma cross_pairs_spec : forall c sel ps r ps' r', NoDup sel ->
    cross_pairs loc domain random serve_and_evaluate c sel ps r = Some (Ok ps', r') ->
    length ps' = length ps
    /\ (forall i, In i sel -> exists a b q1 q2, nth_error ps (i * 2) = Some a /\ nth_error ps (i * 2 + 1) = Some b
          /\ nth_error ps' (i * 2) = Some q1 /\ nth_error ps' (i * 2 + 1) = Some q2 /\ children c a b q1 q2)
    /\ forall j, ~ In (Nat.div2 j) sel -> nth_error ps' j = nth_error ps j.
  Proof using.
    clear rnd normal logpost loglik draw clone choice choice_p norm_wts binomial. intros c sel. induction sel as [|i sel IH]; intros ps r ps' r' N H; cbn [cross_pairs] in H.
    - unfold cret in H. injection H as <- _. splits; auto. intros i [].
    - inversion N as [|? ? N1 N2]; subst.
      apply cbind_ok in H. destruct H as (a & r1 & H1 & H). apply cbind_ok in H. destruct H as (b & r2 & H2 & H).
      apply cbind_ok in H. destruct H as ([l1 l2] & r3 & H3 & H). apply cbind_ok in H. destruct H as (q1 & r4 & H4 & H).
      apply cbind_ok in H. destruct H as (ps1 & r5 & H5 & H). apply cbind_ok in H. destruct H as (q2 & r6 & H6 & H).
      apply cbind_ok in H. destruct H as (ps2 & r7 & H7 & H).
      unfold cres in H1, H2, H5, H7. injection H1 as H1 <-. injection H2 as H2 <-. injection H5 as H5 <-. injection H7 as H7 <-.
      unfold geti in H1, H2. destruct (nth_error ps (i * 2)) as [a'|] eqn:A; [|discriminate H1]. injection H1 as ->.
      destruct (nth_error ps (i * 2 + 1)) as [b'|] eqn:B; [|discriminate H2]. injection H2 as ->.
      apply seti_ok in H5. destruct H5 as (L1 & L2 & S1). apply seti_ok in H7. destruct H7 as (L3 & L4 & S2).
      destruct (IH _ _ _ _ N2 H) as (I1 & I2 & I3).
      assert (Sp : forall j, Nat.div2 j <> i -> nth_error ps2 j = nth_error ps j).
      { intros j J. rewrite S2, S1. pose proof (Nat.div2_double i) as D1. pose proof (Nat.div2_succ_double i) as D2.
        destruct (Nat.eqb_spec j (i * 2 + 1)); [exfalso; apply J; rewrite <- D2; f_equal; lia|].
        destruct (Nat.eqb_spec j (i * 2)); [exfalso; apply J; rewrite <- D1; f_equal; lia|auto]. }
      assert (Dk : forall k, Nat.div2 (k * 2) = k /\ Nat.div2 (k * 2 + 1) = k).
      { intros k. pose proof (Nat.div2_double k) as D1. pose proof (Nat.div2_succ_double k) as D2.
        split; [rewrite <- D1 at 2; f_equal; lia|rewrite <- D2 at 2; f_equal; lia]. }
      splits.
      + congruence.
      + intros k [<-|K].
        * exists a, b, q1, q2. splits; auto.
          -- rewrite I3 by (rewrite (proj1 (Dk i)); auto). rewrite S2, S1. destruct (Nat.eqb_spec (i * 2) (i * 2 + 1)); [lia|]. rewrite Nat.eqb_refl. auto.
          -- rewrite I3 by (rewrite (proj2 (Dk i)); auto). rewrite S2, Nat.eqb_refl. auto.
          -- unfold clift in H4, H6. cbn [fst snd] in *. injection H4 as H4. injection H6 as H6. do 7 eexists. split; [exact H3|]. split; [exact H4|exact H6].
        * destruct (I2 k K) as (a0 & b0 & q3 & q4 & A1 & A2 & A3). assert (k <> i) by (intros ->; auto).
          exists a0, b0, q3, q4. destruct (Dk k) as [D1 D2]. rewrite <- (Sp (k * 2)), <- (Sp (k * 2 + 1)) by congruence. auto.
      + intros j J. simpl in J. rewrite I3 by tauto. apply Sp. intros K. apply J. auto.
  Qed.

  Lemma replace_at_spec : forall nxt proposed ps ps', NoDup nxt -> replace_at loglik nxt proposed ps = Ok ps' ->
    length ps' = length ps
    /\ (forall j i p, nth_error nxt j = Some i -> nth_error proposed j = Some p ->
          nth_error ps' i = if isfinite (loglik p) then Some p else nth_error ps i)
    /\ forall i, ~ In i nxt -> nth_error ps' i = nth_error ps i.
  Proof using.
    clear rnd normal logpost draw clone choice choice_p norm_wts binomial loc domain random serve_and_evaluate. intros nxt. induction nxt as [|i nxt IH]; intros proposed ps ps' N H; cbn [replace_at] in H.
    - injection H as <-. splits; auto. intros j i p J. destruct j; discriminate J.
    - destruct proposed as [|p proposed].
      + injection H as <-. splits; auto. intros j k q _ Q. destruct j; discriminate Q.
      + inversion N as [|? ? N1 N2]; subst. apply bind_ok in H. destruct H as (ps1 & H1 & H). destruct (IH _ _ _ N2 H) as (I1 & I2 & I3).
        assert (S : length ps1 = length ps /\ (nth_error ps1 i = if isfinite (loglik p) then Some p else nth_error ps i)
                    /\ forall k, k <> i -> nth_error ps1 k = nth_error ps k).
        { destruct (isfinite (loglik p)).
          - apply seti_ok in H1. destruct H1 as (L1 & L2 & S). splits; auto; [rewrite S, Nat.eqb_refl; auto|].
            intros k K. rewrite S. destruct (Nat.eqb_spec k i); [congruence|auto].
          - injection H1 as <-. auto. }
        destruct S as (S1 & S2 & S3). splits.
        * congruence.
        * intros j k q J Q. destruct j as [|j]; simpl in J, Q.
          -- injection J as <-. injection Q as <-. rewrite I3; auto.
          -- rewrite (I2 j k q J Q). destruct (isfinite (loglik q)); auto. apply S3. intros ->. apply N1. eapply nth_error_In; eauto.
        * intros k K. simpl in K. rewrite I3 by tauto. apply S3. intros ->. apply K. auto.
  Qed.
End Pop.

(** Crossover of a population: same size; drawn pairs become children of that very pair, all
    others (the last one of an odd number too) stay. *)
Theorem C60_crossover : forall G I loc domain random binomial serve g (ps : list I) r ps' r',
  (forall p n s (l : list bool) s', binomial p n s = (Ok l, s') -> length l = n) ->
  ga_cross (G:=G) loc domain random binomial serve g ps r = Some (Ok ps', r') ->
  exists sel, length sel = length ps / 2 /\ length ps' = length ps
  /\ (forall i, nth_error sel i = Some true -> exists a b q1 q2, nth_error ps (i * 2) = Some a /\ nth_error ps (i * 2 + 1) = Some b
          /\ nth_error ps' (i * 2) = Some q1 /\ nth_error ps' (i * 2 + 1) = Some q2 /\ children loc domain random serve (g_cro g) a b q1 q2)
  /\ forall j, nth_error sel (Nat.div2 j) <> Some true -> nth_error ps' j = nth_error ps j.
Proof.
  intros G I loc domain random binomial serve g ps r ps' r' Hb H. unfold ga_cross in H. apply cbind_ok in H. destruct H as (sel & r1 & H1 & H).
  destruct (cross_pairs_spec _ _ _ _ _ _ _ _ _ _ (where_NoDup sel) H) as (A & B & C). exists sel. splits; auto.
  - unfold clift in H1. destruct (binomial (g_pcro g) (length ps / 2) r) as [o s] eqn:E. injection H1 as -> <-. eapply Hb; eauto.
  - intros i K. apply B. apply where_spec. auto.
  - intros j K. apply C. rewrite where_spec. auto.
Qed.
Print Assumptions C60_crossover.

(** Mutation of a population: same size, undrawn members stay, and the member at the j-th drawn
    position gets the mutant of the j-th member of the population (if its likelihood is finite). *)
Theorem C60_mutation : forall G I loc (loglik : I -> flt) domain rnd normal binomial serve g ps sc r ps' sc' r',
  (forall p n s (l : list bool) s', binomial p n s = (Ok l, s') -> length l = n) ->
  ga_mutate (G:=G) loc loglik domain rnd normal binomial serve g ps sc r = Some (Ok (ps', sc'), r') ->
  exists drawn proposed, length drawn = length ps /\ length ps' = length ps
  /\ Forall2 (mutant loc domain rnd normal serve sc') ps proposed
  /\ (forall j i, nth_error (where_ drawn) j = Some i ->
        exists q, nth_error proposed j = Some q /\ nth_error ps' i = if isfinite (loglik q) then Some q else nth_error ps i)
  /\ forall i, nth_error drawn i <> Some true -> nth_error ps' i = nth_error ps i.
Proof.
  intros G I loc loglik domain rnd normal binomial serve g ps sc r ps' sc' r' Hb H. unfold ga_mutate in H.
  apply cbind_ok in H. destruct H as (sc1 & r1 & _ & H). apply cbind_ok in H. destruct H as (drawn & r2 & H2 & H).
  apply cbind_ok in H. destruct H as (locs & r3 & H3 & H). apply cbind_ok in H. destruct H as (proposed & r4 & H4 & H).
  apply cbind_ok in H. destruct H as (ps1 & r5 & H5 & H). unfold cret in H. injection H as <- <- _.
  unfold cres in H5. injection H5 as H5 _. destruct (replace_at_spec _ _ _ _ _ (where_NoDup drawn) H5) as (A & B & C).
  apply cmap_ok in H3. apply cmap_ok in H4.
  assert (M : Forall2 (mutant loc domain rnd normal serve sc1) ps proposed).
  { clear -H3 H4. revert proposed H4. induction H3 as [|p l ps locs (s & s1 & E) F IH]; intros pr H; inversion H; subst; constructor; auto.
    destruct H2 as (s2 & s3 & E2). exists l, s, s1, s2, s3. split; auto. unfold clift in E2. destruct (serve l s2); congruence. }
  assert (L : length drawn = length ps).
  { unfold clift in H2. destruct (binomial (g_pmut g) (length ps) r1) as [o s] eqn:E. injection H2 as -> <-. eapply Hb; eauto. }
  exists drawn, proposed. splits; auto.
  - intros j i J. assert (Lw : length (where_ drawn) <= length drawn).
    { unfold where_. rewrite map_length. assert (K : forall (l : list (nat * bool)), length (filter snd l) <= length l) by (induction l as [|[x []] l IH]; simpl; lia).
      etransitivity; [apply K|]. rewrite combine_length, seq_length. lia. }
    assert (Jl : j < length proposed). { rewrite <- (Forall2_length_eq _ _ _ _ _ M), <- L. assert (j < length (where_ drawn)) by (apply nth_error_Some; congruence). lia. }
    destruct (nth_error proposed j) as [q|] eqn:Q; [|apply nth_error_None in Q; lia]. exists q. split; auto. apply (B j i q); auto.
  - intros i K. apply C. rewrite where_spec. auto.
Qed.
Print Assumptions C60_mutation.

(** ** Termination *)

Section Run.
  Context {G I : Type}.
  Context (loc : I -> dict flt) (loglik logpost : I -> flt) (clone : I -> I).
  Context (domain : G -> res (list (name * flt * flt)) * G) (rnd : flt -> flt).
  Context (random : G -> R * G) (normal : flt -> flt -> G -> res flt * G).
  Context (binomial : R -> nat -> G -> res (list bool) * G).
  Context (choice : nat -> nat -> G -> res (list nat) * G) (choice_p : list flt -> nat -> G -> res (list nat) * G).
  Context (norm_wts : list flt -> list flt) (serve : dict flt -> G -> res I * G).
  Notation gen := (generation loc loglik logpost clone domain rnd random normal binomial choice choice_p norm_wts serve).
  Notation upd := (ga_update loc loglik logpost clone domain rnd random normal binomial choice choice_p norm_wts serve).

  (** consecutive generations with the states they leave *)
  Inductive generations (g : gcfg) : gstate -> G -> list (gstate (I:=I)) -> G -> Prop :=
  | gens_nil : forall st r, generations g st r [] r
  | gens_cons : forall st r st1 r1 l r', gen g st r = Some (Ok st1, r1) -> generations g st1 r1 l r' -> generations g st r (st1 :: l) r'.

  Lemma cbind_some : forall A B (x : comp G A) (f : A -> comp G B) r, x r <> None -> (forall a r, f a r <> None) -> cbind x f r <> None.
  Proof using. intros A B x f r H K. unfold cbind. destruct (x r) as [[[a|e] r1]|]; [apply K|discriminate|congruence]. Qed.
  Lemma cmap_some : forall A B (f : A -> comp G B) l r, (forall a r, f a r <> None) -> cmap f l r <> None.
  Proof using.
    intros A B f l. induction l as [|a l IH]; intros r H; cbn [cmap]; [discriminate|]. apply cbind_some; auto.
    intros b r0. apply cbind_some; auto. discriminate.
  Qed.
  Lemma shuffle_some : forall p1 p2 ns l1 l2 r, shuffle_loop loc random p1 p2 ns l1 l2 r <> None.
  Proof using.
    intros p1 p2 ns. induction ns as [|n ns IH]; intros l1 l2 r; cbn [shuffle_loop]; [discriminate|].
    apply cbind_some; [discriminate|]. intros u r1. destruct (rltb u (1/2)); repeat (apply cbind_some; [discriminate|intros]); apply IH.
  Qed.
  Lemma propose_some : forall p sc dom l r, propose_loop loc rnd normal p sc dom l r <> None.
  Proof using.
    intros p sc dom. induction dom as [|[[n lo] up] dom IH]; intros l r; cbn [propose_loop]; [discriminate|].
    repeat (apply cbind_some; [discriminate|intros]). apply IH.
  Qed.
  Lemma cross_some : forall c sel ps r, cross_pairs loc domain random serve c sel ps r <> None.
  Proof using.
    intros c sel. induction sel as [|i sel IH]; intros ps r; cbn [cross_pairs]; [discriminate|].
    apply cbind_some; [discriminate|intros]. apply cbind_some; [discriminate|intros]. apply cbind_some.
    - destruct c; cbn [crossover]; [unfold average; repeat (apply cbind_some; [discriminate|intros]); discriminate|].
      unfold shuffle. apply cbind_some; [discriminate|]. intros. apply shuffle_some.
    - intros ll r2. repeat (apply cbind_some; [discriminate|intros]). apply IH.
  Qed.
  Lemma generation_some : forall g st r, gen g st r <> None.
  Proof using.
    intros g st r. unfold generation. apply cbind_some; [unfold ga_cross; apply cbind_some; [discriminate|intros; apply cross_some]|].
    intros ps1 r1. apply cbind_some.
    - unfold ga_mutate. apply cbind_some; [unfold set_scales; apply cbind_some; discriminate|]. intros sc r2. apply cbind_some; [discriminate|]. intros nxt r3.
      apply cbind_some; [apply cmap_some; intros p r4; unfold propose; apply cbind_some; [discriminate|intros; apply propose_some]|].
      intros locs r4. apply cbind_some; [apply cmap_some; discriminate|]. intros pr r5. apply cbind_some; discriminate.
    - intros pm r2. apply cbind_some; [|discriminate]. unfold select. destruct (g_sel g) as [k|].
      + destruct (Nat.ltb k _); [|discriminate]. apply cmap_some. intros a r3. unfold tour_once. repeat (apply cbind_some; [discriminate|intros]). discriminate.
      + destruct (Nat.ltb 5 _); [|discriminate]. repeat (apply cbind_some; [discriminate|intros]). discriminate.
  Qed.
  Lemma generation_count : forall g st r st' r', gen g st r = Some (Ok st', r') -> ga_gen st' = S (ga_gen st).
  Proof using.
    intros g st r st' r' H. unfold generation in H. apply cbind_ok in H. destruct H as (ps1 & r1 & _ & H). apply cbind_ok in H. destruct H as (pm & r2 & _ & H).
    apply cbind_ok in H. destruct H as (ps3 & r3 & _ & H). unfold cres in H. injection H as H _. unfold elitism in H.
    apply bind_ok in H. destruct H as (b & _ & H). cbv zeta in H. injection H as <-. reflexivity.
  Qed.
End Run.
Arguments generations {G I} loc loglik logpost clone domain rnd random normal binomial choice choice_p norm_wts serve g st r l r'.

(** update always ends, within max(1, max_round + 1 - Generation) generations, and whatever it
    returns is the state after that many or fewer; all states before the last are unfinished. *)
Theorem C60_ends : forall G I loc loglik logpost clone domain rnd random normal binomial choice choice_p norm_wts serve fuel g (st : gstate (I:=I)) (r : G),
  (Z.max 1 (g_round g + 1 - Z.of_nat (ga_gen st)) <= Z.of_nat fuel)%Z ->
  ga_update loc loglik logpost clone domain rnd random normal binomial choice choice_p norm_wts serve fuel g st r <> None.
Proof.
  intros G I loc loglik logpost clone domain rnd random normal binomial choice choice_p norm_wts serve fuel.
  induction fuel as [|f IH]; intros g st r L; [lia|]. cbn [ga_update]. unfold cbind.
  destruct (generation loc loglik logpost clone domain rnd random normal binomial choice choice_p norm_wts serve g st r) as [[[st1|e] r1]|] eqn:E;
    [|discriminate|exfalso; eapply generation_some; eauto].
  pose proof (generation_count _ _ _ _ _ _ _ _ _ _ _ _ _ _ _ _ _ _ E) as Wv.
  unfold finished. destruct (Z.ltb_spec (g_mstay g) (Z.of_nat (ga_stay st1))) as [C|C]; [discriminate|]. cbn [orb].
  destruct (Z.ltb_spec (g_round g) (Z.of_nat (ga_gen st1))) as [D|D]; [discriminate|]. apply IH. lia.
Qed.
Print Assumptions C60_ends.

Theorem C60_generations : forall G I loc loglik logpost clone domain rnd random normal binomial choice choice_p norm_wts serve fuel g (st st' : gstate (I:=I)) (r r' : G),
  ga_update loc loglik logpost clone domain rnd random normal binomial choice choice_p norm_wts serve fuel g st r = Some (Ok st', r') ->
  exists l, generations loc loglik logpost clone domain rnd random normal binomial choice choice_p norm_wts serve g st r (l ++ [st']) r'
  /\ (Z.of_nat (S (length l)) <= Z.max 1 (g_round g + 1 - Z.of_nat (ga_gen st)))%Z
  /\ ga_gen st' = ga_gen st + S (length l)
  /\ (Forall (fun s => Z.of_nat (ga_stay s) <= g_mstay g /\ Z.of_nat (ga_gen s) <= g_round g) l)%Z
  /\ (g_mstay g < Z.of_nat (ga_stay st') \/ g_round g < Z.of_nat (ga_gen st'))%Z.
Proof.
  intros G I loc loglik logpost clone domain rnd random normal binomial choice choice_p norm_wts serve fuel g.
  induction fuel as [|f IH]; intros st st' r r' H; cbn [ga_update] in H; [discriminate H|].
  apply cbind_ok in H. destruct H as (st1 & r1 & H1 & H2). pose proof (generation_count _ _ _ _ _ _ _ _ _ _ _ _ _ _ _ _ _ _ H1) as Wv.
  unfold finished in H2. destruct (Z.ltb_spec (g_mstay g) (Z.of_nat (ga_stay st1))) as [C|C]; cbn [orb] in H2.
  - unfold cret in H2. injection H2 as <- <-. exists []. splits; [econstructor; eauto; constructor|simpl; lia|simpl; lia|constructor|auto].
  - destruct (Z.ltb_spec (g_round g) (Z.of_nat (ga_gen st1))) as [D|D].
    + unfold cret in H2. injection H2 as <- <-. exists []. splits; [econstructor; eauto; constructor|simpl; lia|simpl; lia|constructor|auto].
    + destruct (IH _ _ _ _ H2) as (l & W & E & K & F & T). exists (st1 :: l). split; [simpl; econstructor; eauto|].
      simpl length. split; [lia|]. split; [lia|]. split; [|exact T]. constructor; [lia|exact F].
Qed.
Print Assumptions C60_generations.

(** ** The index mismatch *)

(** a population of dictionaries with one number as likelihood and posterior *)
Definition ind := (dict flt * flt)%type.
Definition exg_dom (r : nat) : res (list (name * flt * flt)) * nat := (Ok [("x", Fin 0, Fin 10)], r).
Definition exg_rnd (x : flt) : flt := x.
Definition exg_random (r : nat) : R * nat := ((1/4)%R, r).
Definition exg_normal (a s : flt) (r : nat) : res flt * nat := (Ok a, r).
(** every second one is drawn *)
Definition exg_bin (p : R) (n : nat) (r : nat) : res (list bool) * nat := (Ok (map Nat.odd (seq 0 n)), r).
Definition exg_choice (n k : nat) (r : nat) : res (list nat) * nat := (Ok (seq 0 k), r).
Definition exg_choice_p (p : list flt) (n : nat) (r : nat) : res (list nat) * nat := (Ok (repeat 5 n), r).
Definition exg_serve (l : dict flt) (r : nat) : res ind * nat := (Ok (l, Fin 0), r).
Definition exg_cfg : gcfg := mkGcfg 2 3 5 (1/10) (8/10) Shuffle (Tour 1) true.
Definition one : ind := ([("x", Fin 1)], Fin 3).
Definition two : ind := ([("x", Fin 2)], Fin 4).

Lemma exg_bin_len : forall p n s (l : list bool) s', exg_bin p n s = (Ok l, s') -> length l = n.
Proof. intros p n s l s' H. injection H as <- _. rewrite map_length, seq_length. auto. Qed.
Lemma exg_clamp : forall x, (eps64 <= x <= 10 - eps64)%R -> pymax (pymin (Fin x) (exg_rnd (fadd (Fin 10) (Fin (- eps64))))) (exg_rnd (fadd (Fin 0) (Fin eps64))) = Fin x.
Proof.
  intros x H. unfold exg_rnd, pymin, pymax. cbn [fadd fltb]. destruct (rltb (10 + - eps64) x) eqn:E; [apply rltb_true in E; lra|]. cbn [fltb].
  destruct (rltb x (0 + eps64)) eqn:E2; auto. apply rltb_true in E2. lra.
Qed.
Lemma eps64_small : (eps64 <= 1/4)%R.
Proof.
  unfold eps64. assert (K : (4 <= 2 ^ 52)%R). { replace 4%R with (2 ^ 2)%R by lra. apply Rle_pow; [lra|lia]. }
  replace (1/4)%R with (/ 4)%R by lra. apply Rinv_le_contravar; lra.
Qed.
Lemma exg_propose : forall p sc r x s, dget (fst p) "x" = Some (Fin x) -> dget sc "x" = Some s -> (1 <= x <= 9)%R ->
  propose fst exg_dom exg_rnd exg_normal (p : ind) sc r = Some (Ok [("x", Fin x)], r).
Proof.
  intros p sc r x s H1 H2 H3. unfold propose, cbind at 1, clift at 1, exg_dom. cbn [propose_loop].
  unfold cbind at 1, cres at 1, at_, dgetE at 1. rewrite H1. unfold cbind at 1, cres at 1, dgetE at 1. rewrite H2.
  unfold cbind at 1, clift at 1. unfold exg_normal. pose proof eps64_small. rewrite exg_clamp by lra. reflexivity.
Qed.

Lemma exg_mutate : forall g sc r, exists s, ga_mutate fst snd exg_dom exg_rnd exg_normal exg_bin exg_serve g [one; two] sc r
  = Some (Ok ([one; ([("x", Fin 1)], Fin 0)], dset sc "x" s), r).
Proof.
  intros g sc r. unfold ga_mutate. eexists.
  unfold cbind at 1, set_scales, cbind at 1, clift at 1, exg_dom at 1, cres at 1. cbn [names map fst foldM mapM].
  unfold at_, dgetE. cbn [one two fst dget String.eqb Ascii.eqb Bool.eqb bind].
  unfold cbind at 1, clift at 1, exg_bin at 1. cbn [length seq map Nat.odd Nat.even negb]. unfold cbind at 1. cbn [cmap].
  set (s := scale_of _). set (sc' := dset sc "x" s).
  assert (D : dget sc' "x" = Some s) by (unfold sc'; rewrite dget_dset; auto).
  unfold cbind at 1. rewrite (exg_propose _ sc' r 1 s); [|reflexivity|exact D|lra].
  unfold cbind at 1. unfold cbind at 1. rewrite (exg_propose _ sc' r 2 s); [|reflexivity|exact D|lra]. reflexivity.
Qed.

(** The member drawn for mutation is replaced, but not by a mutant of itself. *)
Theorem C60_own_mutant_refuted : exists (G I : Type) loc (loglik : I -> flt) domain rnd normal binomial serve g ps sc (r : G) ps' sc' r' i p q drawn,
  (forall p n s (l : list bool) s', binomial p n s = (Ok l, s') -> length l = n)
  /\ ga_mutate loc loglik domain rnd normal binomial serve g ps sc r = Some (Ok (ps', sc'), r')
  /\ fst (binomial (g_pmut g) (length ps) r) = Ok drawn /\ nth_error drawn i = Some true
  /\ nth_error ps i = Some p /\ nth_error ps' i = Some q /\ q <> p
  /\ ~ mutant loc domain rnd normal serve sc' p q
  /\ exists p0, In p0 ps /\ mutant loc domain rnd normal serve sc' p0 q.
Proof.
  destruct (exg_mutate exg_cfg [] 0) as (s & E).
  exists nat, ind, fst, snd, exg_dom, exg_rnd, exg_normal, exg_bin, exg_serve, exg_cfg, [one; two], [], 0. do 3 eexists.
  exists 1, two, ([("x", Fin 1)], Fin 0), [false; true].
  split; [apply exg_bin_len|]. split; [exact E|]. split; [reflexivity|]. split; [reflexivity|]. split; [reflexivity|]. split; [reflexivity|].
  assert (D : dget (dset [] "x" s) "x" = Some s) by reflexivity.
  split; [intros K; injection K as K _; lra|]. split.
  - intros (l & s0 & s1 & s2 & s3 & P & Q). rewrite (exg_propose two _ s0 2 s) in P; [|reflexivity|exact D|lra].
    injection P as <- _. unfold exg_serve in Q. injection Q as Q _. lra.
  - exists one. split; [simpl; auto|]. exists [("x", Fin 1)], 0, 0, 0, 0. split; [|reflexivity].
    apply (exg_propose one _ 0 1 s); [reflexivity|exact D|lra].
Qed.
Print Assumptions C60_own_mutant_refuted.

(** ** Concrete cases *)

Example C60_example_cross :
  shuffle fst exg_dom exg_random one two 0 = Some (Ok ([("x", Fin 2)], [("x", Fin 1)]), 0)
  /\ (exists l, average fst exg_dom one two 0 = Some (Ok (l, l), 0) /\ dget l "x" = Some (Fin ((1 + 2) / 2)))
  /\ exists ps r, ga_cross fst exg_dom exg_random (fun _ n r => (Ok (repeat true n), r)) exg_serve exg_cfg [one; two; one] 0 = Some (Ok ps, r)
     /\ ps = [([("x", Fin 2)], Fin 0); ([("x", Fin 1)], Fin 0); one].
Proof.
  assert (U : rltb (1/4) (1/2) = true) by (apply rltb_true; lra).
  assert (S : forall r, shuffle fst exg_dom exg_random one two r = Some (Ok ([("x", Fin 2)], [("x", Fin 1)]), r)).
  { intros r. unfold shuffle, cbind at 1, clift at 1, exg_dom. cbn [names map fst shuffle_loop]. unfold cbind at 1, clift at 1, exg_random. rewrite U. reflexivity. }
  splits.
  - apply S.
  - eexists. split; [reflexivity|]. cbn. unfold fdiv. destruct (reqb 2 0) eqn:R; [apply reqb_true in R; lra|]. reflexivity.
  - do 2 eexists. split; [|reflexivity]. unfold ga_cross, cbind at 1, clift at 1. cbn [length Nat.div Nat.divmod fst repeat where_ seq combine filter snd map].
    cbn [cross_pairs]. unfold cbind at 1, cres at 1, geti at 1. cbn [Nat.mul Nat.add nth_error].
    unfold cbind at 1, cres at 1, geti at 1. cbn [nth_error]. unfold cbind at 1. cbn [crossover g_cro exg_cfg]. rewrite S. reflexivity.
Qed.

Example C60_example_mutation : exists ps' sc', ga_mutate fst snd exg_dom exg_rnd exg_normal exg_bin exg_serve exg_cfg [one; two] [] 0 = Some (Ok (ps', sc'), 0)
  /\ length ps' = 2 /\ nth_error ps' 0 = Some one /\ nth_error ps' 1 <> Some two
  /\ exists dom, exg_dom 0 = (Ok dom, 0) /\ rounds exg_rnd dom /\ wide dom
  /\ exists l, propose fst exg_dom exg_rnd exg_normal one sc' 0 = Some (Ok l, 0) /\ dget l "x" = Some (Fin 1).
Proof.
  destruct (exg_mutate exg_cfg [] 0) as (s & E). do 2 eexists. split; [exact E|]. split; [reflexivity|]. split; [reflexivity|].
  split; [intros K; injection K as K _; lra|]. eexists. split; [reflexivity|]. split; [split; auto|].
  split. { intros n lo up [K|[]]. injection K as <- <- <-. pose proof eps64_small. cbn. apply rleb_true. lra. }
  exists [("x", Fin 1)]. split; [|reflexivity]. eapply exg_propose; [reflexivity|reflexivity|lra].
Qed.

Example C60_example_scale : exists s, scale_of (map Fin [1; 2; 4]%R) = Fin s /\ (0 < s)%R.
Proof. apply C60_scale. discriminate. Qed.

Notation exg_select := (select snd snd (fun x : ind => x) exg_choice exg_choice_p (fun l => l)).
Example C60_example_select :
  exg_select (Tour 2) [one; two; one] true 0 = Some (Ok [two; two; two], 0)
  /\ exg_select Imp [one; two; one; one; one; two] true 0 = Some (Ok [two; two; two; two; two; two], 0)
  /\ exg_select Imp [one; two; one; one; one] true 0 = Some (Err AssertionError, 0)
  /\ (forall p n s ix s', exg_choice_p p n s = (Ok ix, s') -> length ix = n).
Proof.
  splits.
  - unfold select. cbn [eligible one two filter snd isfinite length Nat.ltb Nat.leb seq cmap].
    assert (T : forall r, tour_once snd snd (fun x : ind => x) exg_choice [one; two; one] 2 true r = Some (Ok two, r)).
    { intros r. unfold tour_once, cbind at 1, clift at 1, exg_choice. cbn [seq]. unfold cbind at 1, cres at 1. cbn [mapM geti nth_error bind].
      unfold cbind at 1, cres at 1. cbn [pymax_key argmax fit_of one two snd fltb]. destruct (rltb 3 4) eqn:E; [reflexivity|apply rltb_false in E; lra]. }
    unfold one, two in T. unfold cbind. rewrite !T. reflexivity.
  - reflexivity.
  - apply C60_too_few. simpl. lia.
  - intros p n s ix s' H. injection H as <- _. apply repeat_length.
Qed.

Definition exg_cfg0 : gcfg := mkGcfg 2 0 5 (1/10) (8/10) Shuffle (Tour 1) true.
Definition exg_st : gstate (I:=ind) := mkGa [one; two] [] 0 0 (Fin 4) (Some two).
Notation exg_gen := (generation fst snd snd (fun x : ind => x) exg_dom exg_rnd exg_random exg_normal exg_bin exg_choice exg_choice_p (fun l => l) exg_serve).
Notation exg_update := (ga_update fst snd snd (fun x : ind => x) exg_dom exg_rnd exg_random exg_normal exg_bin exg_choice exg_choice_p (fun l => l) exg_serve).
Lemma cbind_then : forall G A B (x : comp G A) (f : A -> comp G B) r a r1 o, x r = Some (Ok a, r1) -> f a r1 = o -> cbind x f r = o.
Proof. intros G A B x f r a r1 o H K. unfold cbind. rewrite H. auto. Qed.
Lemma exg_generation : exists s, exg_gen exg_cfg0 exg_st 0 = Some (Ok (mkGa [one; one] s 1 1 (Fin 3) (Some one)), 0).
Proof.
  destruct (exg_mutate exg_cfg0 [] 0) as (s & E). eexists. unfold generation.
  assert (C : ga_cross fst exg_dom exg_random exg_bin exg_serve exg_cfg0 (ga_ps exg_st) 0 = Some (Ok [one; two], 0)) by reflexivity.
  eapply cbind_then; [exact C|]. eapply cbind_then; [exact E|]. eapply cbind_then; [reflexivity|].
  unfold cres, elitism. cbn [ga_ps pymax_key argmax fit_of g_map exg_cfg0 one snd bind ga_scales ga_gen ga_stay ga_max fltb fleb].
  assert (T1 : rltb 3 3 = false) by (apply rltb_false; lra). rewrite T1. cbn [snd fleb fst].
  assert (T2 : rleb 3 4 = true) by (apply rleb_true; lra). change (fleb (snd one) (ga_max exg_st)) with (rleb 3 4). rewrite T2. reflexivity.
Qed.
Example C60_example_run : exists st, exg_update 1 exg_cfg0 exg_st 0 = Some (Ok st, 0) /\ ga_gen st = 1.
Proof.
  destruct exg_generation as (s & E). eexists. split; [|shelve]. cbn [ga_update]. unfold cbind. rewrite E. reflexivity.
  Unshelve. reflexivity.
Qed.

(** ** C72: the best individual *)

Definition fitness_of {I : Type} (loglik logpost : I -> flt) (g : gcfg) (p : I) : flt := if g_map g then logpost p else loglik p.

(** After a generation without nan: Best is a fittest member of the population just selected,
    MaxFitness its fitness, and Stay is 0 exactly if that is more than after the previous generation. *)
Theorem C72_best_of_generation : forall G I loc loglik logpost clone domain rnd random normal binomial choice choice_p norm_wts serve g (st st' : gstate (I:=I)) (r r' : G),
  generation loc loglik logpost clone domain rnd random normal binomial choice choice_p norm_wts serve g st r = Some (Ok st', r') ->
  (forall p, In p (ga_ps st') -> fitness_of loglik logpost g p <> NaN) -> ga_max st <> NaN ->
  exists b, ga_best st' = Some b /\ In b (ga_ps st') /\ ga_max st' = fitness_of loglik logpost g b
  /\ (forall p, In p (ga_ps st') -> fleb (fitness_of loglik logpost g p) (ga_max st') = true)
  /\ (fltb (ga_max st) (ga_max st') = true -> ga_stay st' = 0) /\ (fltb (ga_max st) (ga_max st') = false -> ga_stay st' = S (ga_stay st)).
Proof.
  intros G I loc loglik logpost clone domain rnd random normal binomial choice choice_p norm_wts serve g st st' r r' H N M.
  unfold generation in H. apply cbind_ok in H. destruct H as (ps1 & r1 & _ & H). apply cbind_ok in H. destruct H as (pm & r2 & _ & H).
  apply cbind_ok in H. destruct H as (ps3 & r3 & _ & H). unfold cres in H. injection H as H _. unfold elitism in H. cbn [ga_ps ga_gen ga_stay ga_max ga_scales] in H.
  apply bind_ok in H. destruct H as (b & B & H). cbv zeta in H. remember (fleb (fit_of loglik logpost (g_map g) b) (ga_max st)) as t eqn:T. injection H as <-.
  cbn [ga_ps ga_best ga_max ga_stay] in *. exists b. pose proof (pymax_key_In _ _ _ _ B) as J.
  assert (Nb : fitness_of loglik logpost g b <> NaN) by (apply N; auto).
  splits; auto.
  - intros p P. destruct ps3 as [|x l]; [destruct P|]. cbn [pymax_key] in B. injection B as B.
    destruct (argmax_spec I (fit_of loglik logpost (g_map g)) l x) as (_ & A2 & A3); [apply (N x); simpl; auto|intros y Y; apply (N y); simpl; auto|].
    rewrite B in A2, A3. destruct P as [<-|P]; [exact A2|apply A3; auto].
  - intros L. destruct t; auto. exfalso. assert (K : fltb (ga_max st) (ga_max st) = true) by (eapply fltb_fleb_trans; [exact L|symmetry; exact T]).
    rewrite fltb_irrefl in K. discriminate K.
  - intros L. destruct t; auto. exfalso. rewrite (fleb_total (fit_of loglik logpost (g_map g) b) (ga_max st)) in L; auto. discriminate L.
Qed.
Print Assumptions C72_best_of_generation.

(** Nothing better than the Best of earlier generations is kept: fitness 4 is followed by fitness 3. *)
Theorem C72_best_kept_refuted : exists (G I : Type) loc loglik logpost clone domain rnd random normal binomial choice choice_p norm_wts serve g (st st' : gstate (I:=I)) (r r' : G) b b',
  generation loc loglik logpost clone domain rnd random normal binomial choice choice_p norm_wts serve g st r = Some (Ok st', r')
  /\ ga_best st = Some b /\ In b (ga_ps st) /\ ga_best st' = Some b'
  /\ fltb (fitness_of loglik logpost g b') (fitness_of loglik logpost g b) = true /\ fltb (ga_max st') (ga_max st) = true.
Proof.
  destruct exg_generation as (s & E).
  exists nat, ind, fst, snd, snd, (fun x => x), exg_dom, exg_rnd, exg_random, exg_normal, exg_bin, exg_choice, exg_choice_p, (fun l => l), exg_serve, exg_cfg0, exg_st.
  do 3 eexists. exists two, one. split; [exact E|]. splits; try reflexivity; [simpl; auto|apply rltb_true; lra|apply rltb_true; lra].
Qed.
Print Assumptions C72_best_kept_refuted.

Example C72_example : exists st, exg_gen exg_cfg0 exg_st 0 = Some (Ok st, 0)
  /\ (forall p, In p (ga_ps st) -> fitness_of snd snd exg_cfg0 p <> NaN) /\ ga_max exg_st <> NaN /\ ga_stay st = 1.
Proof.
  destruct exg_generation as (s & E). eexists. split; [exact E|]. splits; try discriminate; auto.
  intros p [<-|[<-|[]]]; discriminate.
Qed.

(** The setting target is not used for selection: it always goes by the posterior. *)
Theorem C72_target_not_selected : forall G I loc loglik logpost clone domain rnd random normal binomial choice choice_p norm_wts serve g g' (st st1 st2 : gstate (I:=I)) (r r1 r2 : G),
  g_n g' = g_n g -> g_round g' = g_round g -> g_mstay g' = g_mstay g -> g_pmut g' = g_pmut g -> g_pcro g' = g_pcro g -> g_cro g' = g_cro g -> g_sel g' = g_sel g ->
  generation loc loglik logpost clone domain rnd random normal binomial choice choice_p norm_wts serve g st r = Some (Ok st1, r1) ->
  generation loc loglik logpost clone domain rnd random normal binomial choice choice_p norm_wts serve g' st r = Some (Ok st2, r2) ->
  ga_ps st1 = ga_ps st2 /\ r1 = r2.
Proof.
  intros G I loc loglik logpost clone domain rnd random normal binomial choice choice_p norm_wts serve g g' st st1 st2 r r1 r2 E1 E2 E3 E4 E5 E6 E7 H K.
  unfold generation in H, K.
  assert (C : ga_cross loc domain random binomial serve g' (ga_ps st) r = ga_cross loc domain random binomial serve g (ga_ps st) r).
  { unfold ga_cross. rewrite E5, E6. auto. }
  apply cbind_ok in H. destruct H as (p1 & s1 & A1 & H). apply cbind_ok in K. destruct K as (q1 & t1 & B1 & K). rewrite C, A1 in B1. injection B1 as <- <-.
  assert (M : forall s, ga_mutate loc loglik domain rnd normal binomial serve g' p1 (ga_scales st) s = ga_mutate loc loglik domain rnd normal binomial serve g p1 (ga_scales st) s).
  { intros s. unfold ga_mutate. rewrite E4. auto. }
  apply cbind_ok in H. destruct H as (p2 & s2 & A2 & H). apply cbind_ok in K. destruct K as (q2 & t2 & B2 & K). rewrite M, A2 in B2. injection B2 as <- <-.
  apply cbind_ok in H. destruct H as (p3 & s3 & A3 & H). apply cbind_ok in K. destruct K as (q3 & t3 & B3 & K). rewrite E7, A3 in B3. injection B3 as <- <-.
  unfold cres in H, K. injection H as H <-. injection K as K <-. split; auto. unfold elitism in H, K.
  apply bind_ok in H. destruct H as (b & _ & H). apply bind_ok in K. destruct K as (b' & _ & K). cbv zeta in H, K. injection H as <-. injection K as <-. reflexivity.
Qed.
Print Assumptions C72_target_not_selected.
Example C72_example_target : exists st1 st2,
  exg_gen exg_cfg0 exg_st 0 = Some (Ok st1, 0) /\ exg_gen (mkGcfg 2 0 5 (1/10) (8/10) Shuffle (Tour 1) false) exg_st 0 = Some (Ok st2, 0) /\ ga_ps st1 = [one; one].
Proof.
  destruct exg_generation as (s & E). eexists. exists (mkGa [one; one] s 1 1 (Fin 3) (Some one)). split; [exact E|]. split; [|reflexivity]. exact E.
Qed.
