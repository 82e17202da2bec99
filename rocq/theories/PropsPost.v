(** * Property C79: the posterior sample of history matching *)

Require Import Verif.Base Verif.World Verif.ModelGraph Verif.ModelExpr Verif.ModelLoci Verif.ModelBN Verif.ModelSample
        Verif.ModelFitBase Verif.ModelFloat Verif.ModelTargets Verif.ModelConverter Verif.ModelABC Verif.ModelHME
        Verif.Spec Verif.SpecBN Verif.ProofBase Verif.ProofFloat Verif.PropsABC Verif.ProofSMC Verif.ExWorld Verif.PropsBN
        Verif.PropsConverter Verif.PropsHME.
Require Import Coq.ZArith.ZArith Lia.
Local Open Scope nat_scope.

(** a domain of positive width and scale *)
Definition good_domain (d : domain) : Prop := fltb (d_lower d) (d_upper d) = true /\ (0 < d_scale d)%R.

Lemma good_converter : forall d c, good_domain d -> get_converter d = Ok c -> good c.
Proof.
  intros [[l| | |] [h| | |] loc s] c [H1 H2] H; simpl in *; try discriminate H; try discriminate H1; injection H as <-; simpl; auto.
  apply rltb_true. auto.
Qed.

Lemma u2v_fin : forall c u, good c -> (0 < u < 1)%R -> exists v, uniform2value c u = Fin v.
Proof.
  intros c u G U. destruct c as [l h|l s|h s|s m]; simpl.
  - eauto.
  - rewrite (proj2 (rleb_false 1 u)) by lra. eauto.
  - rewrite (proj2 (rleb_false u 0)) by lra. eauto.
  - rewrite (proj2 (rleb_false 1 u)), (proj2 (rleb_false u 0)) by lra. eauto.
Qed.

(** Weakly increasing on the whole unit interval. *)
Lemma u2v_mono : forall c u1 u2, good c -> (0 <= u1)%R -> (u1 <= u2)%R -> (u2 <= 1)%R ->
  fleb (uniform2value c u1) (uniform2value c u2) = true.
Proof.
  intros c u1 u2 G H0 H1 H2.
  assert (NN : forall u, uniform2value c u <> NaN).
  { intros u. destruct c; simpl; repeat match goal with |- context[if ?b then _ else _] => destruct b end; discriminate. }
  destruct (Req_dec u1 u2) as [->|N]; [apply fleb_refl; auto|]. assert (L : (u1 < u2)%R) by lra. clear N H1.
  destruct (Req_dec u1 0) as [->|N0]; [|destruct (Req_dec u2 1) as [->|N1]].
  - destruct (Req_dec u2 1) as [->|N1]; [destruct (C53_limits c) as [-> ->]; destruct c; simpl in *; auto; apply rleb_true; lra|].
    destruct (C53_limits c) as [-> _]. destruct c as [l h|l s|h s|s m]; simpl in G |- *.
    + apply rleb_true. nra.
    + rewrite (proj2 (rleb_false 1 u2)) by lra. simpl. apply rleb_true. pose proof (ln_neg (1 - u2)). nra.
    + rewrite (proj2 (rleb_false u2 0)) by lra. reflexivity.
    + rewrite (proj2 (rleb_false 1 u2)), (proj2 (rleb_false u2 0)) by lra. reflexivity.
  - destruct (C53_limits c) as [_ ->]. destruct c as [l h|l s|h s|s m]; simpl in G |- *.
    + apply rleb_true. nra.
    + rewrite (proj2 (rleb_false 1 u1)) by lra. reflexivity.
    + rewrite (proj2 (rleb_false u1 0)) by lra. simpl. apply rleb_true. pose proof (ln_neg u1). nra.
    + rewrite (proj2 (rleb_false 1 u1)), (proj2 (rleb_false u1 0)) by lra. reflexivity.
  - destruct (u2v_fin c u1) as [v1 E1]; [auto|lra|]. destruct (u2v_fin c u2) as [v2 E2]; [auto|lra|]. rewrite E1, E2. simpl. apply rleb_true.
    left. apply (C53_monotone_partial c u1 u2 v1 v2); auto; lra.
Qed.

(** the values v lie between the reported limits, parameter by parameter *)
Definition within (vs : list flt) (bounds : list (name * flt * flt)) : Prop :=
  Forall2 (fun v b => fleb (snd (fst b)) v = true /\ fleb v (snd b) = true) vs bounds.

Lemma within_box : forall cvs lo up xs ns, Forall good cvs -> Forall2 Rle lo xs -> Forall2 Rle xs up ->
  Forall (fun x => (0 <= x <= 1)%R) lo -> Forall (fun x => (0 <= x <= 1)%R) up -> length cvs = length lo -> length ns = length cvs ->
  within (map (fun cx => uniform2value (fst cx) (snd cx)) (combine cvs xs))
         (map (fun t => (fst t, uniform2value (fst (snd t)) (fst (snd (snd t))), uniform2value (fst (snd t)) (snd (snd (snd t)))))
              (combine ns (combine cvs (combine lo up)))).
Proof.
  intros cvs lo up xs ns G F1. revert cvs ns up G. induction F1 as [|a x lo xs L1 F1 IH]; intros cvs ns up G F2 U0 U1 E1 E2.
  - destruct cvs; [|discriminate E1]. destruct ns; [|discriminate E2]. constructor.
  - destruct cvs as [|c cvs]; [discriminate E1|]. destruct ns as [|n ns]; [discriminate E2|]. inversion F2 as [|? b ? up' L2 F3]; subst.
    inversion G; subst. inversion U0; subst. inversion U1; subst. simpl. constructor; [|apply IH; auto; simpl in *; lia].
    cbn [fst snd]. split; apply u2v_mono; auto; lra.
Qed.

Lemma waves_cons_eq : forall w simulate vflt lhs rand (emu : Type) train predict obs g (m : dmodel w flt) (st : hstate w emu) r l r',
  waves simulate vflt lhs rand train predict obs g m st r l r' -> Forall (fun s => hs_cons s = hs_cons st) l.
Proof.
  intros w simulate vflt lhs rand emu train predict obs g m st r l r' W. induction W as [|st r st1 r1 l r' E W IH]; constructor.
  - unfold a_wave in E. apply cbind_ok in E. destruct E as (pts & r2 & _ & E).
    apply cbind_ok in E. destruct E as (ep & r3 & _ & E). apply cbind_ok in E. destruct E as ([[k c] a] & r4 & _ & E).
    do 3 (apply cbind_ok in E; destruct E as (? & ? & _ & E)). unfold cret in E. injection E as <- <-. reflexivity.
  - assert (E1 : hs_cons st1 = hs_cons st); [|rewrite <- E1; auto].
    unfold a_wave in E. apply cbind_ok in E. destruct E as (pts & r2 & _ & E).
    apply cbind_ok in E. destruct E as (ep & r3 & _ & E). apply cbind_ok in E. destruct E as ([[k c] a] & r4 & _ & E).
    do 3 (apply cbind_ok in E; destruct E as (? & ? & _ & E)). unfold cret in E. injection E as <- <-. reflexivity.
Qed.

Lemma cmap_forall : forall G A B (f : A -> comp G B) (P : B -> Prop) l r ys r',
  (forall a r b r', In a l -> f a r = Some (Ok b, r') -> P b) -> cmap f l r = Some (Ok ys, r') -> Forall P ys /\ length ys = length l.
Proof.
  intros G A B f P l. induction l as [|a l IH]; intros r ys r' H E; cbn [cmap] in E.
  - unfold cret in E. injection E as <- <-. auto.
  - apply cbind_ok in E. destruct E as (b & r1 & E1 & E). apply cbind_ok in E. destruct E as (bs & r2 & E2 & E).
    unfold cret in E. injection E as <- <-. destruct (IH _ _ _ (fun a0 r0 b0 r3 I => H a0 r0 b0 r3 (or_intror I)) E2) as [I1 I2].
    split; [constructor; auto; eapply H; [left; reflexivity|exact E1]|simpl; auto].
Qed.

Lemma mapM_in : forall A B (f : A -> res B) l ys, mapM f l = Ok ys -> Forall (fun y => exists x, In x l /\ f x = Ok y) ys /\ length ys = length l.
Proof.
  intros A B f l. induction l as [|a l IH]; intros ys H; cbn [mapM] in H.
  - injection H as <-. auto.
  - apply bind_ok in H. destruct H as (y & H1 & H). apply bind_ok in H. destruct H as (t & H2 & H). injection H as <-.
    destruct (IH _ H2) as [I1 I2]. split; [|simpl; auto]. constructor; [exists a; simpl; auto|].
    eapply Forall_impl; [|exact I1]. intros z (x & J1 & J2). exists x. simpl. auto.
Qed.

(** After a fit, sample_posteriors(n) returns n particles, and every parameter value of each lies
    between the two limits that the note Bounds reports for it; the note has one line per
    parameter of the prior, in order. *)
Theorem C79_within_bounds : forall w simulate dom_of vflt lhs rand (emu : Type) emu_new train predict obs fuel g (m : dmodel w flt) r g' (st : hstate w emu) r1 n r2 ps bounds r3,
  (forall n d r, unit_rows d n (fst (rand n d r))) -> coherent (dm_bn m) -> fresh (dm_bn m) -> keeps_pars simulate ->
  (forall q dom q', dm_domain m q = (Ok dom, q') -> Forall (fun nd => good_domain (dom_of (snd nd))) dom) ->
  h_fit simulate dom_of vflt lhs rand emu_new train predict obs fuel g m r = Some (Ok (g', st), r1) ->
  h_posteriors simulate vflt rand g' m st n r2 = Some (Ok (ps, bounds), r3) ->
  length ps = n /\ RVRoots (dm_bn m) = Ok (map (fun b => fst (fst b)) bounds)
  /\ Forall (fun p => exists vs, p_xs p = Some (map vflt vs) /\ within vs bounds) ps.
Proof.
  intros w simulate dom_of vflt lhs rand emu emu_new train predict obs fuel g m r g' st r1 n r2 ps bounds r3 Hr C F K Gd H P.
  destruct (C59_fit _ _ _ _ _ _ _ _ _ _ _ _ _ _ _ _ _ _ Hr H) as (st0 & l & r0 & I & W & _ & _ & N & Lo & Up & M & _ & B0 & B1).
  apply waves_cons_eq in W. apply Forall_app in W. destruct W as [_ W]. inversion W as [|? ? Ec _]; subst.
  unfold h_initialise in I. apply cbind_ok in I. destruct I as (dom & q1 & D1 & I). cbv zeta in I.
  apply cbind_ok in I. destruct I as (ems & q2 & _ & I). apply cbind_ok in I. destruct I as (dom2 & q3 & D2 & I).
  apply cbind_ok in I. destruct I as (cvs & q4 & Cv & I). unfold cret in I. injection I as <- <- <-. cbn [c_pars hs_cons hs_lo hs_up] in *.
  unfold clift in D1, D2.
  assert (D1' : dm_domain m r = (Ok dom, q1)) by (destruct (dm_domain m r); congruence). clear D1.
  assert (D2' : dm_domain m q2 = (Ok dom2, q3)) by (destruct (dm_domain m q2); congruence). clear D2. pose proof (Gd _ _ _ D2') as Gd2.
  apply domain_names in D1', D2'. rewrite D1' in D2'. injection D2' as E12.
  assert (L12 : length dom2 = length dom) by (rewrite <- (map_length fst dom2), <- E12, map_length; auto).
  unfold cres in Cv. injection Cv as Cv _. apply mapM_in in Cv. destruct Cv as [Cg Cl].
  assert (Gc : Forall good cvs).
  { eapply Forall_impl; [|exact Cg]. intros c (x & Ix & Hx). rewrite Forall_forall in Gd2. eapply good_converter; [exact (Gd2 x Ix)|exact Hx]. }
  assert (Nst : nested (repeat 0%R (length dom)) (repeat 1%R (length dom)) (hs_lo st) (hs_up st)).
  { inversion N as [|? ? P1 P2]; subst. rewrite Forall_forall in P1. apply P1. apply in_or_app. right. left. auto. }
  destruct Nst as (N1 & N2 & N3). pose proof (Forall2_len _ _ N1) as Ll. rewrite repeat_length in Ll.
  unfold h_posteriors in P. apply cbind_ok in P. destruct P as (xss & p1 & P1 & P). apply cbind_ok in P. destruct P as (ps' & p2 & P2 & P).
  apply cbind_ok in P. destruct P as (dom3 & p3 & P3 & P). unfold cret in P. injection P as <- <- <-.
  unfold clift in P1, P3. assert (P3' : dm_domain m p2 = (Ok dom3, p3)) by (destruct (dm_domain m p2); congruence). clear P3.
  apply domain_names in P3'. rewrite D1' in P3'. injection P3' as E13.
  assert (L13 : length dom3 = length dom) by (rewrite <- (map_length fst dom3), <- E13, map_length; auto).
  cbn [c_pars] in P1. pose proof (Hr n (length dom) r2) as U. destruct (rand n (length dom) r2) as [rows p4]. injection P1 as <- <-. destruct U as [U1 U2]. cbn [fst] in *.
  rewrite Ec in *.
  set (bs := map _ (combine (map fst dom3) _)).
  assert (Nb : map (fun b : name * flt * flt => fst (fst b)) bs = map fst dom).
  { unfold bs. rewrite map_map. cbn [fst]. rewrite E13. apply fst_combine.
    rewrite !combine_length, map_length. pose proof (Forall2_len _ _ N2). lia. }
  rewrite Nb. assert (Q : Forall (fun p => exists vs, p_xs p = Some (map vflt vs) /\ within vs bs) ps' /\ length ps' = length rows).
  { eapply cmap_forall; [|exact P2]. intros x q p q' Ix Hp. rewrite Forall_forall in U2. destruct (U2 x Ix) as [X1 X2].
    destruct (scale_inside (hs_lo st) (hs_up st) x N2) as [S1 S2]; [congruence|auto|]. pose proof (Forall2_len _ _ S1) as Ls.
    exists (map (fun cx => uniform2value (fst cx) (snd cx)) (combine cvs (scale (hs_lo st) (hs_up st) x))). split.
    + rewrite map_map. cbv beta in Hp. refine (C71_training _ _ _ _ _ _ _ _ _ C F K Hp _). exists (map fst dom). rewrite map_length. splits; auto; lia.
    + apply within_box; auto; [lia|rewrite map_length; lia]. }
  destruct Q as [Q1 Q2]. splits; auto. congruence.
Qed.
Print Assumptions C79_within_bounds.

(** The run of C59_example, and two particles of its posterior. *)
Lemma exh_posterior : forall st : hstate exw unit, (forall x, hs_lo st = [x] -> x = 1/4)%R -> length (hs_lo st) = 1 -> hs_up st = hs_lo st -> hs_cons st = [exh_c] ->
  exists p q r, h_posteriors exh_sim exh_v exh_rand (exh_cfg 1 2) exabc st 2 10 = Some (Ok ([p; q], [("x", uniform2value exh_c (1/4), uniform2value exh_c (1/4))]), r)
    /\ p_ys p = Some [("y", PZ 7)].
Proof.
  intros st H1 H2 H3 H4. destruct (hs_lo st) as [|a [|b l]] eqn:E; try discriminate H2. rewrite <- (H1 a eq_refl).
  destruct (exh_run exh_c (a + 1/4 * (a - a)) 10) as (p & P1 & P2). destruct (exh_run exh_c (a + 3/4 * (a - a)) 12) as (q & Q1 & Q2).
  exists p, q, 15. split.
  - unfold h_posteriors. eapply cbind_step; [reflexivity|]. rewrite E, H3, H4. cbn [exh_cfg c_pars seq map exh_row repeat Nat.even fst snd scale].
    eapply cbind_step.
    + cbn [cmap scale]. eapply cbind_step; [exact P1|]. eapply cbind_step; [eapply cbind_step; [exact Q1|reflexivity]|reflexivity].
    + eapply cbind_step; [unfold clift; rewrite exh_domain; reflexivity|]. reflexivity.
  - unfold notes_of in P2. destruct (p_xs p); [|discriminate P2]. destruct (p_ys p); [|discriminate P2]. injection P2 as _ ->. reflexivity.
Qed.

(** The particles are not compared with the observations: a fit that ends with the cut-off 1/2,
    and a particle of its posterior whose own simulated output has the implausibility 7. *)
Theorem C79_plausible_refuted : exists (w : world) simulate dom_of vflt lhs rand (emu : Type) emu_new train predict obs fuel g (m : dmodel w flt) r g' (st : hstate w emu) r1 n ps bounds r2,
  (forall n d r, unit_rows d n (fst (rand n d r))) /\ coherent (dm_bn m) /\ fresh (dm_bn m) /\ keeps_pars simulate
  /\ h_fit simulate dom_of vflt lhs rand emu_new train predict obs fuel g m r = Some (Ok (g', st), r1)
  /\ h_posteriors simulate vflt rand g' m st n r1 = Some (Ok (ps, bounds), r2)
  /\ exists p v x, In p ps /\ p_ys p = Some [("y", v)] /\ v = vflt x
     /\ eval_implausibility obs (c_var g') [("y", x)] [("y", Fin 0)] = Ok (Fin 7)
     /\ fltb (hs_cutoff st) (Fin 7) = true.
Proof.
  destruct C59_example as (g & st & r & E & _ & L & U & _ & Co & Cv & -> & -> & Ru).
  assert (Ll : length (hs_lo st) = 1).
  { destruct (C59_fit _ _ _ _ _ _ _ _ _ _ _ _ _ _ _ _ _ _ Ru E) as (st0 & l & r0 & _ & _ & _ & _ & N & Lo & _).
    inversion N as [|? ? P1 P2]; subst. rewrite Forall_forall in P1. destruct (P1 st) as [Q _]; [apply in_or_app; right; left; auto|].
    apply Forall2_len in Q. rewrite Lo in Q. simpl in Q. auto. }
  destruct (exh_posterior st L Ll U Cv) as (p & q & r2 & P & Py).
  exists exw, exh_sim, exh_dom, exh_v, exh_lhs, exh_rand, unit, (fun _ => tt), exh_train, exh_predict, exh_obs, 2, (exh_cfg 1 2), exabc, 0, (exh_cfg 1 2), st, 10, 2.
  do 3 eexists. split; [apply exh_unit|]. split; [apply exnet_coherent|]. split; [apply exnet_fresh|]. split.
  { intros d r0 p0 r' H k v K. unfold exh_sim in H. injection H as <- <-. exact K. }
  split; [exact E|]. split; [exact P|]. exists p, (PZ 7), (Fin 7). split; [left; auto|]. split; [exact Py|]. split; [|split].
  - unfold exh_v. f_equal. replace 7%R with (IZR 7) by lra. symmetry. clear. destruct (base_Int_part (IZR 7)) as [B1 B2]. apply le_IZR in B1.
    assert (B3 : (IZR 6 < IZR (Int_part (IZR 7)))%R) by (simpl; lra). apply lt_IZR in B3. lia.
  - apply exh_imp. lra.
  - rewrite Co. cbn [fltb]. apply rltb_true. lra.
Qed.
Print Assumptions C79_plausible_refuted.

(** the same run, read by C79_within_bounds *)
Example C79_example : exists g st r ps bounds r',
  h_fit exh_sim exh_dom exh_v exh_lhs exh_rand (fun _ => tt) exh_train exh_predict exh_obs 2 (exh_cfg 1 2) exabc 0 = Some (Ok (g, st), r)
  /\ h_posteriors exh_sim exh_v exh_rand g exabc st 2 r = Some (Ok (ps, bounds), r')
  /\ length ps = 2 /\ RVRoots (dm_bn exabc) = Ok ["x"] /\ bounds = [("x", Fin 4, Fin 4)]
  /\ Forall (fun p => exists vs, p_xs p = Some (map exh_v vs) /\ within vs bounds) ps.
Proof.
  destruct C59_example as (g & st & r & E & _ & L & U & _ & Co & Cv & -> & -> & Ru).
  assert (Ll : length (hs_lo st) = 1).
  { destruct (C59_fit _ _ _ _ _ _ _ _ _ _ _ _ _ _ _ _ _ _ Ru E) as (st0 & l & r0 & _ & _ & _ & _ & N & Lo & _).
    inversion N as [|? ? P1 P2]; subst. rewrite Forall_forall in P1. destruct (P1 st) as [Q _]; [apply in_or_app; right; left; auto|].
    apply Forall2_len in Q. rewrite Lo in Q. simpl in Q. auto. }
  destruct (exh_posterior st L Ll U Cv) as (p & q & r2 & P & Py).
  assert (K : keeps_pars (w:=exw) exh_sim) by (intros d r0 p0 r' H k v K; unfold exh_sim in H; injection H as <- <-; exact K).
  assert (D : forall q dom q', dm_domain exabc q = (Ok dom, q') -> Forall (fun nd => good_domain (exh_dom (snd nd))) dom).
  { intros q0 dom q1 H. rewrite exh_domain in H. injection H as <- <-. repeat constructor; cbn; [apply rltb_true; lra|lra]. }
  destruct (C79_within_bounds _ _ _ _ _ _ _ _ _ _ _ _ _ exabc _ _ _ _ _ _ _ _ _ Ru exnet_coherent exnet_fresh K D E P) as (X1 & X2 & X3).
  assert (B : uniform2value exh_c (1/4) = Fin 4) by (cbn; f_equal; lra). rewrite B in *.
  exists (exh_cfg 1 2), st, 10. do 3 eexists. split; [exact E|]. split; [exact P|]. split; [exact X1|]. split; [exact X2|]. split; [reflexivity|exact X3].
Qed.
