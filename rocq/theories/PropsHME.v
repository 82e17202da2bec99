(** * Property C59: history matching *)

Require Import Verif.Base Verif.World Verif.ModelGraph Verif.ModelExpr Verif.ModelLoci Verif.ModelBN Verif.ModelSample
        Verif.ModelFitBase Verif.ModelFloat Verif.ModelTargets Verif.ModelConverter Verif.ModelABC Verif.ModelHME
        Verif.Spec Verif.SpecBN Verif.ProofBase Verif.ProofFloat Verif.PropsABC Verif.ProofSMC Verif.ExWorld Verif.PropsBN.
Require Import Coq.ZArith.ZArith Lia.
Local Open Scope nat_scope.

(** n rows of k numbers in [0, 1) *)
Definition unit_rows (k n : nat) (rows : list (list R)) : Prop :=
  length rows = n /\ Forall (fun x => length x = k /\ Forall (fun u => (0 <= u < 1)%R) x) rows.
(** the box from lo' to up' is not empty and lies in the box from lo to up *)
Definition nested (lo up lo' up' : list R) : Prop := Forall2 Rle lo lo' /\ Forall2 Rle lo' up' /\ Forall2 Rle up' up.

Section Specs.
  Context {w : world}.
  Notation pt := (particle w flt).
  Notation G := (RNG w).
  Context (simulate : dict (V w) -> G -> res pt * G) (dom_of : Dist w -> domain) (vflt : flt -> V w).
  Context (lhs : nat -> nat -> G -> res (list (list R)) * G) (rand : nat -> nat -> G -> list (list R) * G).
  Context {emu : Type} (emu_new : name -> emu).
  Context (train : emu -> list (list (V w)) -> list (dict (V w)) -> G -> res emu * G).
  Context (predict : emu -> list (list R) -> res (list flt * list flt)) (obs : dict tdef).
  Implicit Types (m : dmodel w flt) (st : hstate w emu).

  (** consecutive waves, with the states they leave *)
  Inductive waves (g : hcfg) m : hstate w emu -> G -> list (hstate w emu) -> G -> Prop :=
  | waves_nil : forall st r, waves g m st r [] r
  | waves_cons : forall st r st1 r1 l r', a_wave simulate vflt lhs rand train predict obs g m st r = Some (Ok st1, r1) ->
      waves g m st1 r1 l r' -> waves g m st r (st1 :: l) r'.

  (** what holds of the state after a wave *)
  Definition matched (g : hcfg) st : Prop :=
    hs_pts st <> [] /\ fleb (Fin (c_cutoff g)) (hs_cutoff st) = true /\ (0 < hs_acc st <= 1)%R
    /\ forall p, In p (hs_pts st) -> fltb (h_imp p) (hs_cutoff st) = true
                 /\ eval_implausibility obs (c_var g) (h_sims p) (h_vs p) = Ok (h_imp p)
                 /\ Forall2 Rle (hs_lo st) (h_xs p) /\ Forall2 Rle (h_xs p) (hs_up st).

  Lemma scale_inside : forall lo up x, Forall2 Rle lo up -> length x = length lo -> Forall (fun u => (0 <= u < 1)%R) x ->
    Forall2 Rle lo (scale lo up x) /\ Forall2 Rle (scale lo up x) up.
  Proof using.
    intros lo up x F. revert x. induction F as [|a b lo up H F IH]; intros x L U; destruct x as [|u x]; try discriminate L; simpl; auto.
    inversion U; subst. injection L as L. destruct (IH x L H3) as [I1 I2]. split; constructor; auto; nra.
  Qed.

  Lemma Forall2_le_trans : forall a b c, Forall2 Rle a b -> Forall2 Rle b c -> Forall2 Rle a c.
  Proof using.
    intros a b c F. revert c. induction F as [|x y a b H F IH]; intros c K; inversion K; subst; constructor; eauto using Rle_trans.
  Qed.
  Lemma Forall2_le_refl : forall a, Forall2 Rle a a.
  Proof using. induction a; constructor; auto. apply Rle_refl. Qed.
  Lemma Forall2_len : forall (a b : list R), Forall2 Rle a b -> length a = length b.
  Proof using. intros a b F. induction F; simpl; auto. Qed.

  Lemma zip2_min : forall a b, length a = length b -> Forall2 Rle (zip2 Rmin a b) a /\ Forall2 Rle (zip2 Rmin a b) b.
  Proof using.
    induction a as [|x a IH]; intros [|y b] L; try discriminate L; simpl; auto. injection L as L. destruct (IH b L).
    split; constructor; auto; [apply Rmin_l|apply Rmin_r].
  Qed.
  Lemma zip2_max : forall a b, length a = length b -> Forall2 Rle a (zip2 Rmax a b) /\ Forall2 Rle b (zip2 Rmax a b).
  Proof using.
    induction a as [|x a IH]; intros [|y b] L; try discriminate L; simpl; auto. injection L as L. destruct (IH b L).
    split; constructor; auto; [apply Rmax_l|apply Rmax_r].
  Qed.
  Lemma zip2_lower : forall lo a b, Forall2 Rle lo a -> Forall2 Rle lo b -> Forall2 Rle lo (zip2 Rmin a b).
  Proof using.
    intros lo a b F. revert b. induction F as [|x y lo a H F IH]; intros b K; inversion K; subst; simpl; constructor; auto.
    apply Rmin_glb; auto.
  Qed.
  Lemma zip2_upper : forall up a b, Forall2 Rle a up -> Forall2 Rle b up -> Forall2 Rle (zip2 Rmax a b) up.
  Proof using.
    intros up a b F. revert b. induction F as [|x y a up H F IH]; intros b K; inversion K; subst; simpl; constructor; auto.
    apply Rmax_lub; auto.
  Qed.
  Lemma fold_min : forall lo l x, Forall2 Rle lo x -> Forall (Forall2 Rle lo) l ->
    let v := fold_left (zip2 Rmin) l x in Forall2 Rle lo v /\ Forall2 Rle v x /\ Forall (Forall2 Rle v) l.
  Proof using.
    intros lo l. induction l as [|y l IH]; intros x F K; simpl; [splits; auto; apply Forall2_le_refl|].
    inversion K; subst. assert (L : length x = length y) by (rewrite <- (Forall2_len _ _ F), <- (Forall2_len _ _ H1); auto).
    destruct (zip2_min _ _ L) as [Z1 Z2]. destruct (IH (zip2 Rmin x y)) as (I1 & I2 & I3); auto; [apply zip2_lower; auto|].
    splits; auto; [|constructor; auto]; eapply Forall2_le_trans; eauto.
  Qed.
  Lemma fold_max : forall up l x, Forall2 Rle x up -> Forall (fun y => Forall2 Rle y up) l ->
    let v := fold_left (zip2 Rmax) l x in Forall2 Rle v up /\ Forall2 Rle x v /\ Forall (fun y => Forall2 Rle y v) l.
  Proof using.
    intros up l. induction l as [|y l IH]; intros x F K; simpl; [splits; auto; apply Forall2_le_refl|].
    inversion K; subst. assert (L : length x = length y) by (rewrite (Forall2_len _ _ F), (Forall2_len _ _ H1); auto).
    destruct (zip2_max _ _ L) as [Z1 Z2]. destruct (IH (zip2 Rmax x y)) as (I1 & I2 & I3); auto; [apply zip2_upper; auto|].
    splits; auto; [|constructor; auto]; eapply Forall2_le_trans; eauto.
  Qed.
  Lemma extent_spec : forall lo up rows a b, Forall (fun x => Forall2 Rle lo x /\ Forall2 Rle x up) rows ->
    extent Rmin rows = Ok a -> extent Rmax rows = Ok b ->
    nested lo up a b /\ Forall (fun x => Forall2 Rle a x /\ Forall2 Rle x b) rows.
  Proof using.
    intros lo up rows a b F A B. destruct rows as [|x l]; [discriminate A|]. simpl in A, B. injection A as <-. injection B as <-.
    inversion F as [|? ? [F1 F2] F3]; subst.
    destruct (fold_min lo l x F1) as (A1 & A2 & A3); [eapply Forall_impl; [|exact F3]; intros y [K _]; exact K|].
    destruct (fold_max up l x F2) as (B1 & B2 & B3); [eapply Forall_impl; [|exact F3]; intros y [_ K]; exact K|].
    split; [split; [auto|split; [eapply Forall2_le_trans; eauto|auto]]|].
    constructor; auto. clear -A3 B3. rewrite Forall_forall in *. intros y I. auto.
  Qed.

  Lemma emulate_all_spec : forall g m cvs yss xss i r ps r', h_emulate_all vflt obs g m cvs yss i xss r = Some (Ok ps, r') ->
    map h_xs ps = xss /\ Forall (fun p : hpt w => eval_implausibility obs (c_var g) (h_sims p) (h_vs p) = Ok (h_imp p)) ps.
  Proof using.
    intros g m cvs yss xss. induction xss as [|x xss IH]; intros i r ps r' H; cbn [h_emulate_all] in H.
    - unfold cret in H. injection H as <- <-. auto.
    - apply cbind_ok in H. destruct H as (p & r1 & H1 & H). apply cbind_ok in H. destruct H as (ps' & r2 & H2 & H).
      unfold cret in H. injection H as <- <-. destruct (IH _ _ _ _ H2) as [I1 I2]. unfold h_emulated in H1.
      apply cbind_ok in H1. destruct H1 as (dom & r3 & _ & H1). apply cbind_ok in H1. destruct H1 as (sims & r4 & _ & H1).
      apply cbind_ok in H1. destruct H1 as (vs & r5 & _ & H1). apply cbind_ok in H1. destruct H1 as (imp & r6 & H3 & H1).
      unfold cret in H1. injection H1 as <- <-. unfold cres in H3. injection H3 as H3 _.
      split; [simpl; congruence|constructor; auto].
  Qed.

  Lemma wave_spec : forall g m st r st' r', (forall n d r, unit_rows d n (fst (rand n d r))) ->
    length (hs_lo st) = c_pars g -> Forall2 Rle (hs_lo st) (hs_up st) ->
    a_wave simulate vflt lhs rand train predict obs g m st r = Some (Ok st', r') ->
    nested (hs_lo st) (hs_up st) (hs_lo st') (hs_up st') /\ hs_wave st' = S (hs_wave st) /\ hs_cons st' = hs_cons st /\ matched g st'.
  Proof using.
    intros g m st r st' r' Hr Hl Hb H. unfold a_wave in H. apply cbind_ok in H. destruct H as (pts & r1 & _ & H).
    apply cbind_ok in H. destruct H as ([emus ps] & r2 & H1 & H). apply cbind_ok in H. destruct H as ([[kept co] acc] & r3 & H2 & H).
    apply cbind_ok in H. destruct H as (mse & r4 & _ & H). apply cbind_ok in H. destruct H as (lo & r5 & H3 & H).
    apply cbind_ok in H. destruct H as (up & r6 & H4 & H). unfold cret in H. injection H as <- <-.
    unfold cres in H2, H3, H4. injection H2 as H2 _. injection H3 as H3 _. injection H4 as H4 _.
    unfold h_emulate in H1. apply cbind_ok in H1. destruct H1 as (xy & r7 & _ & H1). apply cbind_ok in H1. destruct H1 as (em & r8 & _ & H1).
    apply cbind_ok in H1. destruct H1 as (xss & r9 & H5 & H1). cbv zeta in H1. apply cbind_ok in H1. destruct H1 as (yss & r10 & _ & H1).
    apply cbind_ok in H1. destruct H1 as (ps' & r11 & H6 & H1). unfold cret in H1. injection H1 as <- <- <-.
    apply emulate_all_spec in H6. destruct H6 as [E1 E2]. unfold clift in H5.
    pose proof (Hr (Z.to_nat (c_ems g)) (c_pars g) r8) as U. destruct (rand (Z.to_nat (c_ems g)) (c_pars g) r8) as [rows r12].
    injection H5 as <- <-. destruct U as [U1 U2]. cbn [fst] in *.
    assert (In0 : Forall (fun x => Forall2 Rle (hs_lo st) x /\ Forall2 Rle x (hs_up st)) (map h_xs ps')).
    { rewrite E1. apply Forall_forall. intros x I. apply in_map_iff in I. destruct I as (y & <- & I).
      rewrite Forall_forall in U2. destruct (U2 y I) as [L V]. apply scale_inside; auto. congruence. }
    cbn [snd] in H2. unfold keep_plausible in H2. apply bind_ok in H2. destruct H2 as (q & Q & H2). apply bind_ok in H2. destruct H2 as (a & A & H2).
    remember (if fltb (Fin (c_cutoff g)) q then q else Fin (c_cutoff g)) as co1 eqn:Eco in A, H2.
    remember (filter (fun p => fltb (h_imp p) co1) ps') as kept1 eqn:Ekept in A, H2.
    injection H2 as <- <- <-.
    assert (Sub : forall p, In p kept1 -> In p ps' /\ fltb (h_imp p) co1 = true) by (intros p I; rewrite Ekept in I; apply filter_In in I; auto).
    assert (Nk : kept1 <> []) by (intros K; rewrite K in H3; discriminate H3).
    destruct (extent_spec (hs_lo st) (hs_up st) (map h_xs kept1) lo up) as [N X]; auto.
    { apply Forall_forall. intros x I. apply in_map_iff in I. destruct I as (p & <- & I). rewrite Forall_forall in In0. apply In0.
      apply in_map. apply Sub; auto. }
    cbn [hs_lo hs_up hs_wave hs_cons]. split; [exact N|]. split; [reflexivity|]. split; [reflexivity|]. split; [exact Nk|]. cbn [hs_pts hs_cutoff hs_acc hs_lo hs_up]. split; [|split].
    - rewrite Eco. destruct (fltb (Fin (c_cutoff g)) q) eqn:T; [apply fltb_fleb; auto|apply fleb_refl; discriminate].
    - unfold idiv in A. destruct (Nat.eqb_spec (length ps') 0) as [|Nz]; [discriminate A|]. injection A as <-.
      assert (P1 : (0 < INR (length kept1))%R) by (apply lt_0_INR; destruct kept1; [congruence|simpl; lia]).
      assert (P2 : (0 < INR (length ps'))%R) by (apply lt_0_INR; lia).
      assert (P3 : (INR (length kept1) <= INR (length ps'))%R).
      { apply le_INR. rewrite Ekept. clear. induction ps' as [|p l IH]; simpl; auto. destruct (fltb (h_imp p) co1); simpl; lia. }
      split; [apply Rdiv_lt_0_compat; auto|]. apply Rmult_le_reg_r with (INR (length ps')); auto. unfold Rdiv. rewrite Rmult_assoc, Rinv_l; lra.
    - intros p I. destruct (Sub p I) as [S1 S2]. rewrite Forall_forall in E2, X. split; [auto|]. split; [auto|]. apply X. apply in_map; auto.
  Qed.
End Specs.
Arguments waves {w} simulate vflt lhs rand {emu} train predict obs g m st r l r'.
Arguments matched {w} {emu} obs g st.

(** One wave: the box shrinks and stays non-empty, the kept particles lie in it and are the ones
    with implausibility below the cut-off, which is not below the configured one. *)
Theorem C59_wave : forall w simulate vflt lhs rand (emu : Type) train predict obs g (m : dmodel w flt) (st st' : hstate w emu) r r',
  (forall n d r, unit_rows d n (fst (rand n d r))) -> length (hs_lo st) = c_pars g -> Forall2 Rle (hs_lo st) (hs_up st) ->
  a_wave simulate vflt lhs rand train predict obs g m st r = Some (Ok st', r') ->
  nested (hs_lo st) (hs_up st) (hs_lo st') (hs_up st') /\ hs_wave st' = S (hs_wave st) /\ matched obs g st'.
Proof.
  intros w simulate vflt lhs rand emu train predict obs g m st st' r r' H1 H2 H3 H4.
  destruct (wave_spec simulate vflt lhs rand train predict obs g m st r st' r' H1 H2 H3 H4) as (A & B & _ & C). auto.
Qed.
Print Assumptions C59_wave.

Lemma init_state : forall w dom_of (emu : Type) emu_new g (m : dmodel w flt) r g' (st : hstate w emu) r',
  h_initialise dom_of emu_new g m r = Some (Ok (g', st), r') ->
  hs_wave st = 0 /\ hs_lo st = repeat 0%R (c_pars g') /\ hs_up st = repeat 1%R (c_pars g')
  /\ c_wave g' = c_wave g /\ c_cutoff g' = c_cutoff g /\ c_var g' = c_var g /\ c_acc g' = c_acc g.
Proof.
  intros w dom_of emu emu_new g m r g' st r' H. unfold h_initialise in H.
  apply cbind_ok in H. destruct H as (dom & r1 & _ & H). cbv zeta in H.
  apply cbind_ok in H. destruct H as (ems & r2 & _ & H). apply cbind_ok in H. destruct H as (dom2 & r3 & _ & H).
  apply cbind_ok in H. destruct H as (cvs & r4 & _ & H). unfold cret in H. injection H as <- <- <-. splits; reflexivity.
Qed.

Lemma nested_trans : forall a b c d e f, nested a b c d -> nested c d e f -> nested a b e f.
Proof. intros a b c d e f (H1 & H2 & H3) (K1 & K2 & K3). split; [|split]; eauto using Forall2_le_trans. Qed.

(** Any number of waves: each later box lies in each earlier one. *)
Theorem C59_waves : forall w simulate vflt lhs rand (emu : Type) train predict obs g (m : dmodel w flt) (st : hstate w emu) r l r',
  (forall n d r, unit_rows d n (fst (rand n d r))) -> length (hs_lo st) = c_pars g -> Forall2 Rle (hs_lo st) (hs_up st) ->
  waves simulate vflt lhs rand train predict obs g m st r l r' ->
  ForallOrdPairs (fun a b => nested (hs_lo a) (hs_up a) (hs_lo b) (hs_up b)) (st :: l) /\ Forall (matched obs g) l.
Proof.
  intros w simulate vflt lhs rand emu train predict obs g m st r l r' Hr Hl Hb W.
  induction W as [st r|st r st1 r1 l r' E W IH]; [split; repeat constructor|].
  destruct (wave_spec _ _ _ _ _ _ _ _ _ _ _ _ _ Hr Hl Hb E) as (N & _ & _ & M). destruct N as (N1 & N2 & N3).
  destruct IH as [I1 I2]; auto.
  { rewrite <- (Forall2_len _ _ N1). auto. }
  split; [|constructor; auto]. inversion I1 as [|? ? J1 J2]; subst. constructor; auto. constructor; [repeat split; auto|].
  eapply Forall_impl; [|exact J1]. intros b K. eapply nested_trans; [|exact K]. repeat split; auto.
Qed.
Print Assumptions C59_waves.

Lemma wave_count : forall w simulate vflt lhs rand (emu : Type) train predict obs g (m : dmodel w flt) (st st' : hstate w emu) r r',
  a_wave simulate vflt lhs rand train predict obs g m st r = Some (Ok st', r') -> hs_wave st' = S (hs_wave st).
Proof.
  intros w simulate vflt lhs rand emu train predict obs g m st st' r r' H. unfold a_wave in H.
  apply cbind_ok in H. destruct H as (pts & r1 & _ & H). apply cbind_ok in H. destruct H as (ep & r2 & _ & H).
  apply cbind_ok in H. destruct H as ([[k c] a] & r3 & _ & H). apply cbind_ok in H. destruct H as (mse & r4 & _ & H).
  apply cbind_ok in H. destruct H as (lo & r5 & _ & H). apply cbind_ok in H. destruct H as (up & r6 & _ & H).
  unfold cret in H. injection H as <- _. reflexivity.
Qed.

(** update runs exactly max(1, max_wave - Wave) waves. *)
Theorem C59_count : forall w simulate vflt lhs rand (emu : Type) train predict obs fuel g (m : dmodel w flt) (st st' : hstate w emu) r r',
  h_update simulate vflt lhs rand train predict obs fuel g m st r = Some (Ok st', r') ->
  exists l, waves simulate vflt lhs rand train predict obs g m st r (l ++ [st']) r'
    /\ Z.of_nat (S (length l)) = Z.max 1 (c_wave g - Z.of_nat (hs_wave st)).
Proof.
  intros w simulate vflt lhs rand emu train predict obs fuel g m. induction fuel as [|f IH]; intros st st' r r' H; cbn [h_update] in H; [discriminate H|].
  apply cbind_ok in H. destruct H as (st1 & r1 & H1 & H2).
  pose proof (wave_count _ _ _ _ _ _ _ _ _ _ _ _ _ _ _ H1) as Wv.
  destruct (Z.leb_spec (c_wave g) (Z.of_nat (hs_wave st1))) as [L|L].
  - unfold cret in H2. injection H2 as <- <-. exists []. split; [econstructor; eauto; constructor|]. simpl length. lia.
  - destruct (IH _ _ _ _ H2) as (l & W & E). exists (st1 :: l). split; [simpl; econstructor; eauto|]. simpl length in *. lia.
Qed.
Print Assumptions C59_count.

(** ... and it always ends, given that many. *)
Theorem C59_ends : forall w simulate vflt lhs rand (emu : Type) train predict obs fuel g (m : dmodel w flt) (st : hstate w emu) r,
  (Z.max 1 (c_wave g - Z.of_nat (hs_wave st)) <= Z.of_nat fuel)%Z ->
  h_update simulate vflt lhs rand train predict obs fuel g m st r <> None.
Proof.
  intros w simulate vflt lhs rand emu train predict obs fuel g m.
  assert (B : forall G A B (x : comp G A) (f : A -> comp G B) r, x r <> None -> (forall a r, f a r <> None) -> cbind x f r <> None).
  { intros G A B x f r H K. unfold cbind. destruct (x r) as [[[a|e] r1]|]; [apply K|discriminate|congruence]. }
  assert (M : forall G A B (f : A -> comp G B) l r, (forall a r, f a r <> None) -> cmap f l r <> None).
  { intros G A B0 f l. induction l as [|a l IH]; intros r H; cbn [cmap]; [discriminate|]. apply B; auto. intros b r0. apply B; auto. discriminate. }
  assert (E : forall cvs yss xss i r, h_emulate_all vflt obs g m cvs yss i xss r <> None).
  { intros cvs yss xss. induction xss as [|x xss IH]; intros i r; cbn [h_emulate_all]; [discriminate|]. apply B.
    - unfold h_emulated. repeat (apply B; [discriminate|intros]). discriminate.
    - intros p r0. apply B; [apply IH|discriminate]. }
  assert (W : forall st r, a_wave simulate vflt lhs rand train predict obs g m st r <> None).
  { intros st r. unfold a_wave. apply B.
    - unfold h_simulate. apply B; [discriminate|]. intros a r0. apply M. intros xs r1. unfold h_run.
      repeat (apply B; [discriminate|intros]). unfold flatten_c. destruct (flatten m a1 r3) as [[[u|e] p] r4]; discriminate.
    - intros pts r0. apply B.
      + unfold h_emulate. apply B; [discriminate|]. intros xy r1. apply B.
        * apply M. intros ke r2. apply B; discriminate.
        * intros em r2. apply B; [discriminate|]. intros xss r3. cbv zeta. apply B; [discriminate|]. intros yss r4. apply B; [apply E|discriminate].
      + intros ep r1. apply B; [discriminate|]. intros [[k c] a] r2. repeat (apply B; [discriminate|intros]). discriminate. }
  induction fuel as [|f IH]; intros st r L; [lia|]. cbn [h_update]. unfold cbind.
  destruct (a_wave simulate vflt lhs rand train predict obs g m st r) as [[[st1|e] r1]|] eqn:H1; [|discriminate|destruct (W _ _ H1)].
  pose proof (wave_count _ _ _ _ _ _ _ _ _ _ _ _ _ _ _ H1) as Wv.
  destruct (Z.leb_spec (c_wave g) (Z.of_nat (hs_wave st1))) as [C|C]; [discriminate|]. apply IH. lia.
Qed.
Print Assumptions C59_ends.

(** The whole fit: max(1, max_wave) waves, boxes nested from the unit cube on. *)
Theorem C59_fit : forall w simulate dom_of vflt lhs rand (emu : Type) emu_new train predict obs fuel g (m : dmodel w flt) r g' (st : hstate w emu) r',
  (forall n d r, unit_rows d n (fst (rand n d r))) ->
  h_fit simulate dom_of vflt lhs rand emu_new train predict obs fuel g m r = Some (Ok (g', st), r') ->
  exists st0 l r0, h_initialise dom_of emu_new g m r = Some (Ok (g', st0), r0)
    /\ waves simulate vflt lhs rand train predict obs g' m st0 r0 (l ++ [st]) r'
    /\ Z.of_nat (S (length l)) = Z.max 1 (c_wave g) /\ Z.of_nat (hs_wave st) = Z.max 1 (c_wave g)
    /\ ForallOrdPairs (fun a b => nested (hs_lo a) (hs_up a) (hs_lo b) (hs_up b)) (st0 :: l ++ [st])
    /\ hs_lo st0 = repeat 0%R (c_pars g') /\ hs_up st0 = repeat 1%R (c_pars g')
    /\ Forall (matched obs g') (l ++ [st]) /\ c_cutoff g' = c_cutoff g
    /\ Forall (fun x => (0 <= x <= 1)%R) (hs_lo st) /\ Forall (fun x => (0 <= x <= 1)%R) (hs_up st).
Proof.
  intros w simulate dom_of vflt lhs rand emu emu_new train predict obs fuel g m r g' st r' Hr H. unfold h_fit in H.
  apply cbind_ok in H. destruct H as ([g1 st0] & r0 & H1 & H). apply cbind_ok in H. destruct H as (st1 & r1 & H2 & H).
  unfold cret in H. cbn [fst snd] in *. injection H as <- <- <-.
  destruct (init_state _ _ _ _ _ _ _ _ _ _ H1) as (I1 & I2 & I3 & I4 & I5 & I6 & I7).
  destruct (C59_count _ _ _ _ _ _ _ _ _ _ _ _ _ _ _ _ H2) as (l & W & C). exists st0, l, r0.
  assert (B0 : Forall2 Rle (hs_lo st0) (hs_up st0)).
  { rewrite I2, I3. clear. induction (c_pars g1); simpl; constructor; auto. lra. }
  destruct (C59_waves _ _ _ _ _ _ _ _ _ _ _ _ _ _ _ Hr (eq_trans (f_equal _ I2) (repeat_length _ _)) B0 W) as [P M].
  assert (Cn : forall s r l r', waves simulate vflt lhs rand train predict obs g1 m s r l r' -> forall x l0, l = l0 ++ [x] -> hs_wave x = hs_wave s + length l).
  { clear -Hr. intros s r l r' W. induction W as [s r|s r s1 r1 l r' E W IH]; intros x l0 K; [destruct l0; discriminate|].
    pose proof (wave_count _ _ _ _ _ _ _ _ _ _ _ _ _ _ _ E) as Wv.
    destruct l0 as [|y l0]; simpl in K; injection K as -> K; [subst l; simpl; lia|]. rewrite (IH x l0 K). simpl. lia. }
  assert (N : nested (hs_lo st0) (hs_up st0) (hs_lo st1) (hs_up st1)).
  { inversion P as [|? ? P1 P2]; subst. rewrite Forall_forall in P1. apply P1. apply in_or_app. right. left. auto. }
  split; [exact H1|]. split; [exact W|]. split; [rewrite C, I1, I4; lia|]. split.
  { rewrite (Cn _ _ _ _ W _ _ eq_refl). rewrite I1, app_length. simpl length. rewrite I4, I1 in C. lia. }
  split; [exact P|]. split; [exact I2|]. split; [exact I3|]. split; [exact M|]. split; [exact I5|].
  destruct N as (N1 & N2 & N3). rewrite I2 in N1. rewrite I3 in N3. pose proof (Forall2_le_trans _ _ _ N1 N2) as N4. pose proof (Forall2_le_trans _ _ _ N2 N3) as N5.
  assert (L0 : forall n x, Forall2 Rle (repeat 0%R n) x -> Forall (fun y => (0 <= y)%R) x).
  { clear. intros n x F. remember (repeat 0%R n) as z. revert n Heqz. induction F; intros n K; constructor; destruct n; inversion K; subst; eauto. }
  assert (L1 : forall n x, Forall2 Rle x (repeat 1%R n) -> Forall (fun y => (y <= 1)%R) x).
  { clear. intros n x F. remember (repeat 1%R n) as z. revert n Heqz. induction F; intros n K; constructor; destruct n; inversion K; subst; eauto. }
  apply L0 in N1, N4. apply L1 in N3, N5. rewrite Forall_forall in N1, N3, N4, N5. split; apply Forall_forall; intros x I; split; auto.
Qed.
Print Assumptions C59_fit.

(** ** Where a wave or the initialisation raises *)

(** n_sims given, n_ems left at its default 0: the local variable n_sims is read but not bound. *)
Theorem C59_unbound : forall w dom_of (emu : Type) (emu_new : name -> emu) g (m : dmodel w flt) r dom r',
  (0 < c_sims g)%Z -> (c_ems g <= 0)%Z -> dm_domain m r = (Ok dom, r') ->
  h_initialise dom_of emu_new g m r = Some (Err UnboundLocalError, r').
Proof.
  intros w dom_of emu emu_new g m r dom r' H1 H2 H3. unfold h_initialise, cbind at 1, clift at 1. rewrite H3. cbv zeta.
  destruct (Z.leb_spec (c_sims g) 0); [lia|]. destruct (Z.leb_spec (c_ems g) 0); [|lia]. reflexivity.
Qed.
Print Assumptions C59_unbound.

(** Equal implausibilities not below the configured cut-off: none is strictly below the quantile,
    and the extent of no particles raises. *)
Theorem C59_none_left : forall w simulate vflt lhs rand (emu : Type) train predict obs g (m : dmodel w flt) (st : hstate w emu) r pts r1 emus ps r2 x,
  (0 <= c_acc g <= 1)%R -> (c_cutoff g <= x)%R ->
  h_simulate simulate vflt lhs g m st r = Some (Ok pts, r1) ->
  h_emulate vflt rand train predict obs g m st pts r1 = Some (Ok (emus, ps), r2) ->
  ps <> [] -> Forall (fun p => h_imp p = Fin x) ps ->
  a_wave simulate vflt lhs rand train predict obs g m st r = Some (Err ValueError, r2).
Proof.
  intros w simulate vflt lhs rand emu train predict obs g m st r pts r1 emus ps r2 x Ha Hc H1 H2 N F.
  unfold a_wave, cbind at 1. rewrite H1. unfold cbind at 1. rewrite H2. cbn [snd fst].
  assert (E : map h_imp ps = map Fin (repeat x (length ps))).
  { clear -F. induction F as [|p ps H F IH]; simpl; congruence. }
  assert (K : keep_plausible g ps = Ok ([], if fltb (Fin (c_cutoff g)) (Fin x) then Fin x else Fin (c_cutoff g), (INR 0 / INR (length ps))%R)).
  { unfold keep_plausible. rewrite E, quantile_fin; auto; [|destruct ps; [congruence|discriminate]].
    rewrite (quantile_r_const x); auto; [|destruct ps; [congruence|discriminate]|clear; induction (length ps); simpl; auto].
    unfold bind at 1. cbv zeta. set (co := if fltb (Fin (c_cutoff g)) (Fin x) then Fin x else Fin (c_cutoff g)).
    assert (L : fltb (Fin x) co = false).
    { unfold co. destruct (fltb (Fin (c_cutoff g)) (Fin x)); [apply fltb_irrefl|]. simpl. apply rltb_false. lra. }
    assert (Fl : filter (fun p => fltb (h_imp p) co) ps = []).
    { clear -F L. induction F as [|p ps H F IH]; simpl; auto. rewrite H, L. auto. }
    rewrite Fl. unfold idiv. destruct (Nat.eqb_spec (length ps) 0) as [Z|]; [destruct ps; [congruence|discriminate Z]|]. reflexivity. }
  unfold cbind at 1, cres at 1. rewrite K. reflexivity.
Qed.
Print Assumptions C59_none_left.

(** ** Parameter values *)

(** A number of the unit interval without 1 becomes a value between the limits of the domain. *)
Theorem C59_values : forall d c u, get_converter d = Ok c -> (0 <= u < 1)%R -> (0 < d_scale d)%R ->
  fltb (d_lower d) (d_upper d) = true ->
  fleb (d_lower d) (uniform2value c u) = true /\ fleb (uniform2value c u) (d_upper d) = true.
Proof.
  intros [[l| | |] [h| | |] loc s] c u H U S L; simpl in *; try discriminate H; try discriminate L; injection H as <-; simpl.
  - apply rltb_true in L. split; apply rleb_true; nra.
  - assert (E : rleb 1 u = false) by (apply rleb_false; lra). rewrite E. split; auto. apply rleb_true.
    assert (ln (1 - u) <= 0)%R. { rewrite <- ln_1. destruct (Req_dec u 0) as [->|]; [rewrite Rminus_0_r; lra|]. left. apply ln_increasing; lra. }
    nra.
  - destruct (rleb u 0) eqn:E; [simpl; split; auto|]. apply rleb_false in E. split; auto. apply rleb_true.
    assert (ln u < 0)%R. { rewrite <- ln_1. apply ln_increasing; lra. } nra.
  - assert (E : rleb 1 u = false) by (apply rleb_false; lra). rewrite E. destruct (rleb u 0); auto.
Qed.
Print Assumptions C59_values.

(** ** A concrete case: one parameter, an emulator that predicts the parameter itself, target 0;
    two emulated points per wave, at a quarter and three quarters of the box *)

Definition exh_sim (d : dict (V exw)) (r : RNG exw) : res (particle exw flt) * RNG exw :=
  (Ok (pt_new (mkChrom (w:=exw) d LNan) [("y", PZ 7)]), r).
Definition exh_dom (_ : Dist exw) : domain := mkDom (Fin 2) (Fin 10) 0 1.
Definition exh_v (x : flt) : V exw := PZ (match x with Fin a => Int_part a | _ => 0%Z end).
Definition exh_lhs (d n : nat) (r : RNG exw) : res (list (list R)) * RNG exw := (Ok (repeat (repeat (1/2)%R d) n), r).
Definition exh_row (d i : nat) : list R := repeat (if Nat.even i then 1/4 else 3/4)%R d.
Definition exh_rand (n d : nat) (r : RNG exw) : list (list R) * RNG exw := (map (exh_row d) (seq 0 n), r).
Definition exh_train (e : unit) (xs : list (list (V exw))) (ys : list (dict (V exw))) (r : RNG exw) : res unit * RNG exw := (Ok e, r).
Definition exh_predict (e : unit) (xss : list (list R)) : res (list flt * list flt) :=
  Ok (map (fun x => Fin (hd 0%R x)) xss, map (fun _ => Fin 0) xss).
Definition exh_obs : dict tdef := [("y", TPoint 0 0)].
Definition exh_cfg (sims ems : Z) : hcfg := mkHcfg sims ems 1 2 1 (1/2) (1/5).
Notation exh_wave := (a_wave exh_sim exh_v exh_lhs exh_rand exh_train exh_predict exh_obs (exh_cfg 1 2) exabc).

Lemma exh_unit : forall n d r, unit_rows d n (fst (exh_rand n d r)).
Proof.
  intros n d r. split; [simpl; rewrite map_length, seq_length; auto|]. simpl. apply Forall_forall. intros x I.
  apply in_map_iff in I. destruct I as (i & <- & _). unfold exh_row. split; [apply repeat_length|].
  apply Forall_forall. intros u J. apply repeat_spec in J. subst u. destruct (Nat.even i); lra.
Qed.

Lemma exh_imp : forall x, (0 <= x)%R -> eval_implausibility exh_obs 1 [("y", Fin x)] [("y", Fin 0)] = Ok (Fin x).
Proof.
  intros x H. unfold eval_implausibility, exh_obs, dgetE. cbn [mapM fst snd dget String.eqb Ascii.eqb Bool.eqb bind t_value var_obs fsub fadd fopp fabs fsqrt].
  unfold p_std. match goal with |- context[sqrt ?a] => replace a with 1%R by lra end. rewrite sqrt_1.
  destruct (rltb 1 0) eqn:E; [apply rltb_true in E; lra|]. unfold fdivf, fdiv.
  destruct (reqb 1 0) eqn:E'; [apply reqb_true in E'; lra|]. cbn [fmaximum fold_left]. do 2 f_equal.
  rewrite Rplus_0_l, Rabs_Ropp, Rabs_pos_eq; lra.
Qed.

Lemma exh_domain : forall r, dm_domain exabc r = (Ok [("x", (1, 2)%Z)], S r).
Proof. intros r. vm_cast_no_check (eq_refl (dm_domain exabc r)). Qed.

Lemma exh_run : forall c x r, exists p, h_run exh_sim exh_v exabc [c] [x] r = Some (Ok p, S (S r))
  /\ notes_of p = Ok ([exh_v (uniform2value c x)], [("y", PZ 7)]).
Proof.
  intros c x r. unfold h_run, cbind, clift. rewrite exh_domain. unfold exh_sim at 1. unfold flatten_c, flatten. rewrite exh_domain.
  eexists. split; reflexivity.
Qed.

(** one wave, up to the choice of the plausible particles *)
Definition exh_c : conv := CFF 2 10.
Definition exh_pt (x : R) : hpt exw := mkHpt (w:=exw) [("x", exh_v (uniform2value exh_c x))] [("y", Fin x)] [("y", Fin 0)] [x] (Fin x).
Lemma exh_emulated : forall ys vs i x r, nth_error ys i = Some (Fin x) -> nth_error vs i = Some (Fin 0) -> (0 <= x)%R ->
  h_emulated exh_v exh_obs (exh_cfg 1 2) exabc [exh_c] [("y", (ys, vs))] i [x] r = Some (Ok (exh_pt x), S r).
Proof.
  intros ys vs i x r H1 H2 H3. unfold h_emulated, cbind, clift, cres. rewrite exh_domain. cbn [mapM fst snd]. rewrite H1, H2.
  cbn [bind c_var exh_cfg]. rewrite exh_imp; auto.
Qed.
Lemma cbind_step : forall G A B (x : comp G A) (f : A -> comp G B) r a r1 o, x r = Some (Ok a, r1) -> f a r1 = o -> cbind x f r = o.
Proof. intros G A B x f r a r1 o H K. unfold cbind. rewrite H. auto. Qed.
Lemma exh_emulate : forall a b pts wave mse co acc r, (0 <= a <= b)%R ->
  let st := mkH (w:=exw) [("y", tt)] [exh_c] pts [a] [b] wave mse co acc in
  exists q, h_simulate exh_sim exh_v exh_lhs (exh_cfg 1 2) exabc st r = Some (Ok [q], S (S r))
  /\ notes_of q = Ok ([exh_v (uniform2value exh_c (a + 1/2 * (b - a)))], [("y", PZ 7)])
  /\ h_emulate exh_v exh_rand exh_train exh_predict exh_obs (exh_cfg 1 2) exabc st [q] (S (S r))
     = Some (Ok ([("y", tt)], [exh_pt (a + 1/4 * (b - a)); exh_pt (a + 3/4 * (b - a))]), S (S (S (S r)))).
Proof.
  intros a b pts wave mse co acc r H st. destruct (exh_run exh_c (a + 1/2 * (b - a))%R r) as (q & Q1 & Q2). exists q. split; [|split; [exact Q2|]].
  - unfold h_simulate. eapply cbind_step; [reflexivity|]. change (Z.to_nat (c_sims (exh_cfg 1 2))) with 1.
    cbn [repeat cmap scale exh_cfg c_pars st hs_cons hs_lo hs_up]. eapply cbind_step; [exact Q1|]. reflexivity.
  - unfold h_emulate. eapply cbind_step; [unfold cres; cbn [mapM]; rewrite Q2; reflexivity|].
    eapply cbind_step; [reflexivity|]. eapply cbind_step; [reflexivity|].
    change (Z.to_nat (c_ems (exh_cfg 1 2))) with 2. cbv zeta.
    eapply cbind_step; [reflexivity|]. cbn [seq map exh_row repeat exh_cfg c_pars Nat.even scale st hs_lo hs_up hs_cons hd snd fst h_emulate_all].
    eapply cbind_step; [eapply cbind_step; [apply exh_emulated; [reflexivity|reflexivity|lra]|]|].
    + eapply cbind_step; [eapply cbind_step; [apply exh_emulated; [reflexivity|reflexivity|lra]|]|]; reflexivity.
    + reflexivity.
Qed.

Lemma exh_wave_of : forall a b pts wave mse co acc r l k ac, (0 <= a <= b)%R ->
  keep_plausible (exh_cfg 1 2) [exh_pt (a + 1/4 * (b - a)); exh_pt (a + 3/4 * (b - a))] = Ok (l, k, ac) ->
  l = [exh_pt (a + 1/4 * (b - a))] \/ l = [exh_pt (a + 1/4 * (b - a)); exh_pt (a + 3/4 * (b - a))] /\ a = b ->
  exists st', exh_wave (mkH (w:=exw) [("y", tt)] [exh_c] pts [a] [b] wave mse co acc) r = Some (Ok st', S (S (S (S r))))
  /\ hs_emus st' = [("y", tt)] /\ hs_cons st' = [exh_c] /\ hs_lo st' = [a + 1/4 * (b - a)]%R /\ hs_up st' = [a + 1/4 * (b - a)]%R
  /\ hs_wave st' = S wave /\ hs_pts st' = l /\ hs_cutoff st' = k.
Proof.
  intros a b pts wave mse co acc r l k ac H K L. destruct (exh_emulate a b pts wave mse co acc r H) as (q & E1 & _ & E2).
  assert (X : extent Rmin (map h_xs l) = Ok [a + 1/4 * (b - a)]%R /\ extent Rmax (map h_xs l) = Ok [a + 1/4 * (b - a)]%R
          /\ exists m, eval_mse exh_obs l = Ok m).
  { destruct L as [-> | [-> <-]]; (split; [|split]); cbn; eauto;
      do 2 f_equal; match goal with |- context[Rmin ?u ?v] => replace v with u by lra | |- context[Rmax ?u ?v] => replace v with u by lra end; [apply Rmin_left|apply Rmax_left]; lra. }
  destruct X as (X1 & X2 & m & X3).
  eexists. split; [unfold a_wave; eapply cbind_step; [exact E1|]; eapply cbind_step; [exact E2|];
    eapply cbind_step; [unfold cres; cbn [snd]; rewrite K; reflexivity|];
    eapply cbind_step; [unfold cres; rewrite X3; reflexivity|]; eapply cbind_step; [unfold cres; rewrite X1; reflexivity|];
    eapply cbind_step; [unfold cres; rewrite X2; reflexivity|]; reflexivity|].
  repeat split.
Qed.

(** The first wave keeps one of two points, the second, in a box that is a point, both. *)
Example C59_example : exists g st r,
  h_fit exh_sim exh_dom exh_v exh_lhs exh_rand (fun _ => tt) exh_train exh_predict exh_obs 2 (exh_cfg 1 2) exabc 0 = Some (Ok (g, st), r)
  /\ hs_wave st = 2 /\ (forall x, hs_lo st = [x] -> x = 1/4)%R /\ hs_up st = hs_lo st /\ length (hs_pts st) = 2
  /\ hs_cutoff st = Fin (1/2) /\ hs_cons st = [exh_c] /\ g = exh_cfg 1 2 /\ r = 10
  /\ (forall n d r, unit_rows d n (fst (exh_rand n d r))).
Proof.
  assert (Q : forall x y, (x <= y)%R -> exists q, quantile (map Fin [x; y]) (1/5) = Ok (Fin q) /\ (x <= q <= y)%R).
  { intros x y L. exists (quantile_r [x; y] (1/5)). split; [apply quantile_fin; [discriminate|lra]|].
    apply quantile_r_bounds; [discriminate|lra|]. constructor; [lra|constructor; [lra|apply Forall_nil]]. }
  assert (K1 : exists k ac, keep_plausible (exh_cfg 1 2) [exh_pt (0 + 1/4 * (1 - 0)); exh_pt (0 + 3/4 * (1 - 0))] = Ok ([exh_pt (0 + 1/4 * (1 - 0))], k, ac)).
  { destruct (Q (0 + 1/4 * (1 - 0)) (0 + 3/4 * (1 - 0)))%R as (q & Q1 & Q2); [lra|]. unfold keep_plausible.
    change (map h_imp [exh_pt (0 + 1/4 * (1 - 0)); exh_pt (0 + 3/4 * (1 - 0))]) with (map Fin [(0 + 1/4 * (1 - 0)); (0 + 3/4 * (1 - 0))]%R).
    cbn [c_acc c_cutoff exh_cfg]. rewrite Q1. cbn [bind filter h_imp exh_pt].
    destruct (fltb (Fin (1/2)) (Fin q)) eqn:T; cbn [fltb] in *; [apply rltb_true in T|apply rltb_false in T].
    - rewrite (proj2 (rltb_true (0 + 1/4 * (1 - 0)) q)), (proj2 (rltb_false (0 + 3/4 * (1 - 0)) q)) by lra. do 2 eexists. reflexivity.
    - rewrite (proj2 (rltb_true (0 + 1/4 * (1 - 0)) (1/2))), (proj2 (rltb_false (0 + 3/4 * (1 - 0)) (1/2))) by lra. do 2 eexists. reflexivity. }
  destruct K1 as (k1 & ac1 & K1). set (x := (0 + 1/4 * (1 - 0))%R) in *.
  assert (X : x = (1/4)%R) by (unfold x; lra).
  assert (K2 : exists ac, keep_plausible (exh_cfg 1 2) [exh_pt (x + 1/4 * (x - x)); exh_pt (x + 3/4 * (x - x))] = Ok ([exh_pt (x + 1/4 * (x - x)); exh_pt (x + 3/4 * (x - x))], Fin (1/2), ac)).
  { destruct (Q (x + 1/4 * (x - x)) (x + 3/4 * (x - x)))%R as (q & Q1 & Q2); [lra|]. unfold keep_plausible.
    change (map h_imp [exh_pt (x + 1/4 * (x - x)); exh_pt (x + 3/4 * (x - x))]) with (map Fin [(x + 1/4 * (x - x)); (x + 3/4 * (x - x))]%R).
    cbn [c_acc c_cutoff exh_cfg]. rewrite Q1. cbn [bind filter h_imp exh_pt].
    assert (Z : fltb (Fin (1/2)) (Fin q) = false) by (cbn [fltb]; apply rltb_false; lra). rewrite Z. cbn [fltb].
    rewrite (proj2 (rltb_true (x + 1/4 * (x - x)) (1/2))), (proj2 (rltb_true (x + 3/4 * (x - x)) (1/2))) by lra. eexists. reflexivity. }
  destruct K2 as (ac2 & K2).
  destruct (exh_wave_of 0 1 [] 0 PInf PInf 1 2 _ _ _ ltac:(lra) K1 (or_introl eq_refl)) as (st1 & W1 & A1 & A2 & A3 & A4 & A5 & A6 & _).
  destruct st1 as [em cv ps lo up wv mse co acc]. cbn [hs_emus hs_cons hs_lo hs_up hs_wave hs_pts] in *. subst em cv lo up wv.
  fold x in W1.
  destruct (exh_wave_of x x ps 1 mse co acc 6 _ _ _ ltac:(lra) K2 (or_intror (conj eq_refl eq_refl))) as (st2 & W2 & B1 & B2 & B3 & B4 & B5 & B6 & B7).
  exists (exh_cfg 1 2), st2, 10. split.
  { unfold h_fit. eapply cbind_step.
    - unfold h_initialise. eapply cbind_step; [unfold clift; rewrite exh_domain; reflexivity|]. cbv zeta.
      eapply cbind_step; [reflexivity|]. eapply cbind_step; [unfold clift; rewrite exh_domain; reflexivity|].
      eapply cbind_step; [reflexivity|]. reflexivity.
    - eapply cbind_step; [|reflexivity]. cbn [fst snd].
      change (h_update exh_sim exh_v exh_lhs exh_rand exh_train exh_predict exh_obs 2 (exh_cfg 1 2) exabc (mkH (w:=exw) [("y", tt)] [exh_c] [] [0%R] [1%R] 0 PInf PInf 1) 2 = Some (Ok st2, 10)).
      cbn [h_update]. eapply cbind_step; [exact W1|]. cbn [hs_wave]. cbn [exh_cfg c_wave Z.leb Z.compare Pos.compare Pos.compare_cont Z.of_nat Pos.of_succ_nat].
      eapply cbind_step; [exact W2|]. rewrite B5. reflexivity. }
  rewrite B2, B3, B4, B5, B6, B7. repeat split; [|apply exh_unit|apply exh_unit]. intros y E. injection E as <-. lra.
Qed.

Example C59_example_unbound :
  h_initialise exh_dom (fun _ => tt) (exh_cfg 1 0) exabc 0 = Some (Err UnboundLocalError, 1).
Proof. eapply C59_unbound; [reflexivity|simpl; lia|apply exh_domain]. Qed.

(** both emulated points have implausibility 1, the cut-off is 1/2 *)
Example C59_example_none_left :
  exh_wave (mkH (w:=exw) [("y", tt)] [exh_c] [] [1%R] [1%R] 0 PInf PInf 1) 2 = Some (Err ValueError, 6).
Proof.
  destruct (exh_emulate 1 1 [] 0 PInf PInf 1 2 ltac:(lra)) as (q & E1 & _ & E2).
  eapply C59_none_left with (x := 1%R); [| |exact E1|exact E2| |].
  - cbn. lra.
  - cbn. lra.
  - discriminate.
  - constructor; [|constructor; [|constructor]]; cbn; f_equal; lra.
Qed.

Example C59_example_values : get_converter (exh_dom (1, 2)%Z) = Ok exh_c
  /\ fleb (Fin 2) (uniform2value exh_c (1/2)) = true /\ fleb (uniform2value exh_c (1/2)) (Fin 10) = true.
Proof.
  split; [reflexivity|]. apply (C59_values (exh_dom (1, 2)%Z)); [reflexivity|lra|cbn; lra|cbn; apply rltb_true; lra].
Qed.

(** ** C71: the inputs of the emulators *)

(** pars of a simulated particle extend what was asked for *)
Definition keeps_pars {w : world} (simulate : dict (V w) -> RNG w -> res (particle w flt) * RNG w) : Prop :=
  forall d r p r', simulate d r = (Ok p, r') -> forall k v, dget d k = Some v -> dget (ch_locus (p_pars p)) k = Some v.

Lemma domain_names : forall w (m : dmodel w flt) r dom r', dm_domain m r = (Ok dom, r') -> RVRoots (dm_bn m) = Ok (map fst dom).
Proof.
  intros w m r dom r' H. unfold dm_domain in H. destruct (sample_prior (dm_bn m) (dm_exo m) r) as [[c|e] r1]; [|discriminate H].
  injection H as H _. apply bind_ok in H. destruct H as (rv & -> & H). f_equal. revert dom H.
  induction rv as [|n rv IH]; intros dom H; cbn [mapM] in H; [injection H as <-; auto|].
  apply bind_ok in H. destruct H as (nd & H1 & H). apply bind_ok in H. destruct H as (l & H2 & H). injection H as <-.
  apply bind_ok in H1. destruct H1 as (d & _ & H1). injection H1 as <-. simpl. f_equal. auto.
Qed.

Lemma dget_combine : forall A ns (vs : list A) i n v, NoDup ns -> nth_error ns i = Some n -> nth_error vs i = Some v ->
  dget (combine ns vs) n = Some v.
Proof.
  intros A ns. induction ns as [|a ns IH]; intros vs i n v N H1 H2; [destruct i; discriminate|]. inversion N; subst.
  destruct vs as [|u vs]; [destruct i; discriminate|]. destruct i as [|i]; simpl in *.
  - injection H1 as ->. injection H2 as ->. rewrite String.eqb_refl. auto.
  - destruct (String.eqb_spec n a) as [->|]; [exfalso; apply H3; eapply nth_error_In; eauto|]. eauto.
Qed.

Lemma fst_combine : forall A B (a : list A) (b : list B), length b = length a -> map fst (combine a b) = a.
Proof. intros A B a. induction a as [|x a IH]; intros [|y b] H; simpl in *; try discriminate H; auto. f_equal. auto. Qed.

(** What is noted for training are parameter values: the point mapped through the converters. *)
Theorem C71_training : forall w simulate vflt (m : dmodel w flt) cvs xs r p r',
  coherent (dm_bn m) -> fresh (dm_bn m) -> keeps_pars simulate ->
  h_run simulate vflt m cvs xs r = Some (Ok p, r') ->
  (exists rv, RVRoots (dm_bn m) = Ok rv /\ length cvs = length rv /\ length xs = length rv) ->
  p_xs p = Some (map (fun cx => vflt (uniform2value (fst cx) (snd cx))) (combine cvs xs)).
Proof.
  intros w simulate vflt m cvs xs r p r' C F K H (rv & E & L1 & L2).
  destruct (C17_rv_roots w (dm_bn m) C F) as (rv' & E' & ((N & _) & _)). rewrite E in E'. injection E' as <-.
  unfold h_run in H. apply cbind_ok in H. destruct H as (dom & r1 & H1 & H). apply cbind_ok in H. destruct H as (q & r2 & H2 & H).
  unfold clift in H1, H2.
  assert (D1 : dm_domain m r = (Ok dom, r1)) by (destruct (dm_domain m r); congruence).
  assert (D2 : simulate (to_pars vflt (map fst dom) cvs xs) r1 = (Ok q, r2)) by (destruct (simulate _ r1); congruence).
  apply domain_names in D1. rewrite E in D1. injection D1 as D1. rewrite <- D1 in D2. clear H1 H2.
  unfold flatten_c in H. destruct (flatten m q r2) as [[[u|e] p'] r3] eqn:Fl; [|discriminate H]. injection H as <- <-.
  unfold flatten in Fl. destruct (dm_domain m r2) as [[dom'|e] r4] eqn:D3; [|discriminate Fl].
  apply domain_names in D3. rewrite E in D3. injection D3 as D3.
  destruct (mapM (fun nd => dgetE (ch_locus (p_pars q)) (fst nd)) dom') as [ys|e] eqn:M; [|discriminate Fl].
  destruct (pick (p_sims q) (dkeys (dm_data m))) as [y|e] eqn:P; [|discriminate Fl]. injection Fl as _ <- _. simpl. f_equal.
  set (vs := map (fun cx => vflt (uniform2value (fst cx) (snd cx))) (combine cvs xs)) in *.
  assert (Lv : length vs = length rv) by (unfold vs; rewrite map_length, combine_length; lia).
  assert (G : forall i n v, nth_error rv i = Some n -> nth_error vs i = Some v -> dget (ch_locus (p_pars q)) n = Some v).
  { intros i n v I1 I2. eapply K; [exact D2|]. unfold to_pars. fold vs. rewrite dget_dupdate_NoDup.
    - erewrite dget_combine; eauto.
    - unfold dkeys. rewrite fst_combine; auto. }
  clearbody vs. clear -M D3 Lv G. subst rv. revert ys vs Lv G M. induction dom' as [|nd dom IH]; intros ys vs Lv G M; destruct vs as [|v vs]; try discriminate Lv.
  - cbn [mapM] in M. congruence.
  - cbn [mapM] in M. apply bind_ok in M. destruct M as (y & M1 & M). apply bind_ok in M. destruct M as (l & M2 & M). injection M as <-.
    unfold dgetE in M1. rewrite (G 0 (fst nd) v eq_refl eq_refl) in M1. injection M1 as <-. f_equal.
    apply IH; auto. intros i n u I1 I2. apply (G (S i)); auto.
Qed.
Print Assumptions C71_training.

(** ... while the predictions asked for are at the points of the box themselves: the particle i
    of a wave carries the i-th prediction at its own Xs, which lies in [0, 1]. *)
Theorem C71_prediction : forall w vflt rand (emu : Type) train predict obs g (m : dmodel w flt) (st : hstate w emu) pts r emus ps r',
  (forall n d r, unit_rows d n (fst (rand n d r))) -> length (hs_lo st) = c_pars g -> Forall2 Rle (hs_lo st) (hs_up st) ->
  Forall (fun x => (0 <= x <= 1)%R) (hs_lo st) -> Forall (fun x => (0 <= x <= 1)%R) (hs_up st) ->
  h_emulate vflt rand train predict obs g m st pts r = Some (Ok (emus, ps), r') ->
  Forall (fun p => Forall (fun x => (0 <= x <= 1)%R) (h_xs p)) ps
  /\ exists yss, mapM (fun ke => do y <- predict (snd ke) (map h_xs ps); Ok (fst ke, y)) emus = Ok yss
     /\ forall i p k, nth_error ps i = Some p -> dget (h_sims p) k = match dget yss k with Some y => nth_error (fst y) i | None => None end.
Proof.
  intros w vflt rand emu train predict obs g m st pts r emus ps r' Hr Hl Hb H0 H1 H.
  unfold h_emulate in H. apply cbind_ok in H. destruct H as (xy & r1 & _ & H). apply cbind_ok in H. destruct H as (em & r2 & _ & H).
  apply cbind_ok in H. destruct H as (xss & r3 & H2 & H). cbv zeta in H. apply cbind_ok in H. destruct H as (yss & r4 & H3 & H).
  apply cbind_ok in H. destruct H as (ps' & r5 & H4 & H). unfold cret in H. injection H as <- <- <-.
  pose proof (emulate_all_spec _ _ _ _ _ _ _ _ _ _ _ H4) as [E _].
  unfold clift in H2. pose proof (Hr (Z.to_nat (c_ems g)) (c_pars g) r2) as U.
  destruct (rand (Z.to_nat (c_ems g)) (c_pars g) r2) as [rows r12]. injection H2 as <- <-. destruct U as [_ U]. cbn [fst] in U.
  split.
  - apply Forall_forall. intros p I. assert (J : In (h_xs p) (map (scale (hs_lo st) (hs_up st)) rows)) by (rewrite <- E; apply in_map; auto).
    apply in_map_iff in J. destruct J as (x & J1 & J2). rewrite Forall_forall in U. destruct (U x J2) as [L V].
    destruct (scale_inside (hs_lo st) (hs_up st) x Hb) as [S1 S2]; [congruence|auto|]. rewrite J1 in S1, S2.
    clear -S1 S2 H0 H1. revert H0 H1. generalize (hs_up st) (hs_lo st) S1 S2. clear. generalize (h_xs p). clear.
    intros x up lo S1. revert up. induction S1 as [|a b lo x L S1 IH]; intros up S2 H0 H1; auto.
    inversion S2; subst. inversion H0; subst. inversion H1; subst. constructor; [lra|]. eapply IH; eauto.
  - exists yss. split; [rewrite E; unfold cres in H3; congruence|]. clear -H4. revert H4. generalize (map (scale (hs_lo st) (hs_up st)) rows).
    intros xss. assert (G : forall xss i r p', h_emulate_all vflt obs g m (hs_cons st) yss i xss r = Some (Ok p', r5) ->
      forall j p k, nth_error p' j = Some p -> dget (h_sims p) k = match dget yss k with Some y => nth_error (fst y) (i + j) | None => None end).
    { clear. induction xss as [|x xss IH]; intros i r p' H j p k J; cbn [h_emulate_all] in H.
      - unfold cret in H. injection H as <- _. destruct j; discriminate J.
      - apply cbind_ok in H. destruct H as (q & r1 & H1 & H). apply cbind_ok in H. destruct H as (qs & r2 & H2 & H).
        unfold cret in H. injection H as <- <-. destruct j as [|j]; simpl in J.
        + injection J as ->. unfold h_emulated in H1. apply cbind_ok in H1. destruct H1 as (dom & r3 & _ & H1). apply cbind_ok in H1. destruct H1 as (sims & r4 & H3 & H1).
          apply cbind_ok in H1. destruct H1 as (vs & r5' & _ & H1). apply cbind_ok in H1. destruct H1 as (imp & r6 & _ & H1).
          unfold cret in H1. injection H1 as <- _. cbn [h_sims]. unfold cres in H3. injection H3 as H3 _. rewrite Nat.add_0_r.
          clear -H3. revert sims H3. induction yss as [|[a y] yss IH]; intros sims H; cbn [mapM] in H; [injection H as <-; auto|].
          apply bind_ok in H. destruct H as (ky & H1 & H). apply bind_ok in H. destruct H as (l & H2 & H). injection H as <-.
          cbn [fst snd] in H1. destruct (nth_error (fst y) i) as [v|] eqn:N; [|discriminate H1]. injection H1 as <-. simpl.
          destruct (String.eqb k a); auto.
        + rewrite (IH _ _ _ H2 j p k J). rewrite Nat.add_succ_r. auto. }
    intros H i p k I. apply (G _ _ _ _ H i p k I).
Qed.
Print Assumptions C71_prediction.

(** The two scales: domain from 2 to 10, trained at the value 6, asked at points of [0, 1]; no point
    of [0, 1] is the training input. *)
Theorem C71_same_scale_refuted : exists (w : world) simulate vflt lhs rand (emu : Type) train predict obs g (m : dmodel w flt) (st : hstate w emu) r pts r1 emus ps r2,
  (forall n d r, unit_rows d n (fst (rand n d r))) /\ keeps_pars simulate /\ coherent (dm_bn m) /\ fresh (dm_bn m)
  /\ hs_lo st = repeat 0%R (c_pars g) /\ hs_up st = repeat 1%R (c_pars g)
  /\ h_simulate simulate vflt lhs g m st r = Some (Ok pts, r1)
  /\ h_emulate vflt rand train predict obs g m st pts r1 = Some (Ok (emus, ps), r2) /\ pts <> [] /\ ps <> []
  /\ (forall q, In q ps -> Forall (fun x => (0 <= x <= 1)%R) (h_xs q))
  /\ (forall p, In p pts -> exists v, p_xs p = Some [v] /\ forall u, (0 <= u <= 1)%R -> v <> vflt (Fin u)).
Proof.
  destruct (exh_emulate 0 1 [] 0 PInf PInf 1 2 ltac:(lra)) as (q & E1 & E2 & E3).
  exists exw, exh_sim, exh_v, exh_lhs, exh_rand, unit, exh_train, exh_predict, exh_obs, (exh_cfg 1 2), exabc.
  do 7 eexists. split; [apply exh_unit|]. split; [|split; [apply exnet_coherent|split; [apply exnet_fresh|split; [|split; [|split; [exact E1|split; [exact E3|]]]]]]].
  - intros d r p r' H k v K. unfold exh_sim in H. injection H as <- <-. exact K.
  - reflexivity.
  - reflexivity.
  - split; [discriminate|]. split; [discriminate|]. split.
    + intros p [<-|[<-|[]]]; repeat constructor; lra.
    + intros p [<-|[]]. unfold notes_of in E2. destruct (p_xs q) as [v|]; [|discriminate E2]. destruct (p_ys q); [|discriminate E2].
      injection E2 as -> _. eexists. split; [reflexivity|]. intros u U K. unfold exh_v in K. injection K as K. cbn [uniform2value exh_c] in K.
      assert (I6 : IZR (Int_part (((0 + 1/2 * (1 - 0)) * (10 - 2) + 2))) = 6%R).
      { replace ((0 + 1/2 * (1 - 0)) * (10 - 2) + 2)%R with (IZR 6) by lra.
        destruct (base_Int_part (IZR 6)) as [B1 B2]. f_equal. apply le_IZR in B1. assert (B3 : (IZR 5 < IZR (Int_part (IZR 6)))%R) by (simpl; lra).
        apply lt_IZR in B3. lia. }
      rewrite K in I6. destruct (base_Int_part u) as [B1 _]. lra.
Qed.
Print Assumptions C71_same_scale_refuted.

(** the training input of the run above, by the theorem *)
Example C71_example : exists p r, h_run exh_sim exh_v exabc [exh_c] [1/2]%R 0 = Some (Ok p, r)
  /\ p_xs p = Some [exh_v (uniform2value exh_c (1/2))].
Proof.
  destruct (exh_run exh_c (1/2) 0) as (p & E & _). exists p, 2. split; [exact E|].
  apply (C71_training exw exh_sim exh_v exabc [exh_c] [1/2]%R 0 p 2); [apply exnet_coherent|apply exnet_fresh| |exact E|].
  - intros d r q r' H k v K. unfold exh_sim in H. injection H as <- <-. exact K.
  - exists ["x"]. split; [vm_compute; reflexivity|auto].
Qed.
Example C71_example_prediction : exists ps r, h_emulate exh_v exh_rand exh_train exh_predict exh_obs (exh_cfg 1 2) exabc
    (mkH (w:=exw) [("y", tt)] [exh_c] [] [0%R] [1%R] 0 PInf PInf 1) [] 0 = Some (Ok ([("y", tt)], ps), r)
  /\ Forall (fun p => Forall (fun x => (0 <= x <= 1)%R) (h_xs p)) ps /\ ps <> [].
Proof.
  set (st := mkH _ _ _ _ _ _ _ _ _).
  assert (E : h_emulate exh_v exh_rand exh_train exh_predict exh_obs (exh_cfg 1 2) exabc st [] 0
    = Some (Ok ([("y", tt)], [exh_pt (0 + 1/4 * (1 - 0)); exh_pt (0 + 3/4 * (1 - 0))]), 2)).
  { unfold h_emulate. eapply cbind_step; [reflexivity|]. eapply cbind_step; [reflexivity|]. eapply cbind_step; [reflexivity|].
    change (Z.to_nat (c_ems (exh_cfg 1 2))) with 2. cbv zeta.
    eapply cbind_step; [reflexivity|]. cbn [seq map exh_row repeat exh_cfg c_pars Nat.even scale st hs_lo hs_up hs_cons hd snd fst h_emulate_all].
    eapply cbind_step; [eapply cbind_step; [apply exh_emulated; [reflexivity|reflexivity|lra]|]|].
    + eapply cbind_step; [eapply cbind_step; [apply exh_emulated; [reflexivity|reflexivity|lra]|]|]; reflexivity.
    + reflexivity. }
  do 2 eexists. split; [exact E|]. split; [|discriminate].
  eapply C71_prediction; [| | | | |exact E].
  - apply exh_unit.
  - reflexivity.
  - repeat constructor; lra.
  - repeat constructor; lra.
  - repeat constructor; lra.
Qed.
