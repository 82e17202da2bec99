(** * Property C94: the parameters that history matching simulates *)

Require Import Coq.Reals.Reals Coq.micromega.Lia Coq.ZArith.ZArith.
Require Import Verif.Base Verif.World Verif.ModelGraph Verif.ModelExpr Verif.ModelLoci Verif.ModelBN Verif.ModelSample
        Verif.Spec Verif.SpecBN Verif.ModelFitBase Verif.ModelFloat Verif.ModelTargets Verif.ModelConverter Verif.ModelABC
        Verif.ModelHME Verif.ProofBase Verif.ProofGraph Verif.ProofBN Verif.ProofBNHist Verif.ProofFloat Verif.PropsABC Verif.PropsPost
        Verif.ExWorld Verif.PropsBN Verif.PropsHME Verif.PropsSound.
Local Open Scope nat_scope.

(** ** Specification *)

(** A dictionary of random roots of the network only. *)
Definition roots_only {w : world} (b : bn w) (d : dict (V w)) : Prop :=
  forall k, In k (dkeys d) -> exists rv, RVRoots b = Ok rv /\ In k rv.
(** A simulation that reads the parameter [x]. *)
Definition reads {w : world} (simulate : dict (V w) -> RNG w -> res (particle w flt) * RNG w) (x : name) : Prop :=
  forall d r, ~ In x (dkeys d) -> exists e r', simulate d r = (Err e, r').

(** ** Proofs *)

Lemma to_pars_keys : forall w (vflt : flt -> V w) ns cvs xs k, In k (dkeys (to_pars vflt ns cvs xs)) -> In k ns.
Proof.
  intros w vflt ns cvs xs k H. unfold to_pars in H. rewrite dkeys_dupdate in H. apply union_In in H. destruct H as [H|H]; [destruct H|].
  unfold dkeys in H. apply in_map_iff in H. destruct H as ([a b] & <- & H). apply in_combine_l in H. exact H.
Qed.

Section Same.
  Context {w : world} (vflt : flt -> V w) (m : dmodel w flt) (s s' : dict (V w) -> RNG w -> res (particle w flt) * RNG w).
  Context (A : forall d r, roots_only (dm_bn m) d -> s d r = s' d r).
  Lemma run_ext : forall cvs xs r, h_run s vflt m cvs xs r = h_run s' vflt m cvs xs r.
  Proof.
    intros cvs xs r. unfold h_run. apply cbind_ext; auto. intros dom r1 E. unfold clift in E. injection E as E. apply cbind_ext; auto.
    unfold clift. rewrite A; auto. intros k Hk. apply to_pars_keys in Hk. apply domain_names in E. eauto.
  Qed.
  Lemma wave_ext : forall lhs rand (emu : Type) (train : emu -> _) predict obs g (st : hstate w emu) r,
    a_wave s vflt lhs rand train predict obs g m st r = a_wave s' vflt lhs rand train predict obs g m st r.
  Proof.
    intros lhs rand emu train predict obs g st r. unfold a_wave. apply cbind_ext; auto. unfold h_simulate. apply cbind_ext; auto.
    intros xss r1 _. apply cmap_ext. intros xs _ r2. apply run_ext.
  Qed.
  Lemma h_update_ext : forall lhs rand (emu : Type) (train : emu -> _) predict obs fuel g (st : hstate w emu) r,
    h_update s vflt lhs rand train predict obs fuel g m st r = h_update s' vflt lhs rand train predict obs fuel g m st r.
  Proof.
    intros lhs rand emu train predict obs fuel. induction fuel as [|n IH]; intros g st r; cbn [h_update]; auto.
    apply cbind_ext; [apply wave_ext|]. intros st' r1 _. destruct (Z.leb _ _); auto.
  Qed.
End Same.

(** simulate is called only with dictionaries of random roots: what it does on others does not
    matter. *)
Theorem C94_simulates : forall w dom_of (vflt : flt -> V w) lhs rand (emu : Type) emu_new (train : emu -> _) predict obs (m : dmodel w flt) s s',
  (forall d r, roots_only (dm_bn m) d -> s d r = s' d r) ->
  (forall fuel g r, h_fit s dom_of vflt lhs rand emu_new train predict obs fuel g m r = h_fit s' dom_of vflt lhs rand emu_new train predict obs fuel g m r)
  /\ (forall g (st : hstate w emu) n r, h_posteriors s vflt rand g m st n r = h_posteriors s' vflt rand g m st n r).
Proof.
  intros w dom_of vflt lhs rand emu emu_new train predict obs m s s' A. split.
  - intros fuel g r. unfold h_fit. apply cbind_ext; auto. intros gs r1 _. apply cbind_ext; auto. apply h_update_ext; auto.
  - intros g st n r. unfold h_posteriors. apply cbind_ext; auto. intros xss r1 _. apply cbind_ext; auto. apply cmap_ext. intros xs _ r2. apply run_ext; auto.
Qed.
Print Assumptions C94_simulates.

Lemma run_reads : forall w (vflt : flt -> V w) (m : dmodel w flt) s x rv, RVRoots (dm_bn m) = Ok rv -> ~ In x rv -> reads s x ->
  forall cvs xs r p r', h_run s vflt m cvs xs r <> Some (Ok p, r').
Proof.
  intros w vflt m s x rv Hrv Hx Rd cvs xs r p r' H. unfold h_run in H. apply cbind_ok in H. destruct H as (dom & r1 & H1 & H).
  apply cbind_ok in H. destruct H as (sim & r2 & H2 & _). unfold clift in H1, H2. injection H1 as H1. injection H2 as H2.
  destruct (Rd (to_pars vflt (map fst dom) cvs xs) r1) as (e & r3 & E); [|rewrite E in H2; discriminate H2].
  intros K. apply to_pars_keys in K. apply domain_names in H1. rewrite Hrv in H1. injection H1 as H1. subst rv. contradiction.
Qed.

(** Hence no model that reads anything but random roots (a given value, a constant, a function, a
    random node below another) can be fitted or sampled. *)
Theorem C94_never_fits : forall w dom_of (vflt : flt -> V w) lhs rand (emu : Type) (emu_new : name -> emu) train predict obs (m : dmodel w flt) s x rv,
  RVRoots (dm_bn m) = Ok rv -> rv <> [] -> ~ In x rv -> reads s x ->
  (forall d n r l r', lhs d n r = (Ok l, r') -> length l = n) ->
  forall fuel g r z r', h_fit s dom_of vflt lhs rand emu_new train predict obs fuel g m r <> Some (Ok z, r').
Proof.
  intros w dom_of vflt lhs rand emu emu_new train predict obs m s x rv Hrv Hne Hx Rd Hl fuel g r z r' H.
  unfold h_fit in H. apply cbind_ok in H. destruct H as ([g' st] & r1 & H1 & H). apply cbind_ok in H. destruct H as (st' & r2 & H2 & _). cbn [fst snd] in H2.
  assert (Sp : (0 < c_sims g')%Z).
  { unfold h_initialise in H1. apply cbind_ok in H1. destruct H1 as (dom & q1 & K1 & K). apply cbind_ok in K. destruct K as (ems & q2 & _ & K).
    apply cbind_ok in K. destruct K as (dom2 & q3 & _ & K). apply cbind_ok in K. destruct K as (cvs & q4 & _ & K). unfold cret in K. injection K as <- _ _.
    cbn [c_sims]. unfold clift in K1. injection K1 as K1. apply domain_names in K1. rewrite Hrv in K1. injection K1 as K1.
    destruct (Z.leb_spec (c_sims g) 0); [|lia]. assert (length rv <> 0) by (destruct rv; [contradiction|discriminate]). rewrite K1, map_length in H0. lia. }
  destruct fuel as [|n]; [discriminate H2|]. cbn [h_update] in H2. apply cbind_ok in H2. destruct H2 as (st1 & r3 & H2 & _).
  unfold a_wave in H2. apply cbind_ok in H2. destruct H2 as (pts & r4 & H2 & _). unfold h_simulate in H2. apply cbind_ok in H2. destruct H2 as (xss & r5 & H2 & H3).
  unfold clift in H2. injection H2 as H2. apply Hl in H2. destruct xss as [|xs xss]; [cbn in H2; lia|]. cbn [cmap] in H3.
  apply cbind_ok in H3. destruct H3 as (p & r6 & H3 & _). exact (run_reads _ _ _ _ _ _ Hrv Hx Rd _ _ _ _ _ H3).
Qed.
Print Assumptions C94_never_fits.

Lemma cbind_raises : forall G A B (x : comp G A) (f : A -> comp G B) r e r', x r = Some (Err e, r') -> cbind x f r = Some (Err e, r').
Proof. intros. unfold cbind. rewrite H. auto. Qed.
(** Refuted: history matching simulates with complete parameters. A network with given values, a
    model that simulates every valid set of parameters (and that ABC can simulate), and a fit that
    ends in KeyError. *)
Definition exp_sim (d : dict (V exw)) (r : RNG exw) : res (particle exw flt) * RNG exw :=
  if dmem "z" d then (Ok (pt_new (mkChrom (w:=exw) d LNan) [("y", PZ 7)]), r) else (Err KeyError, r).
Theorem C94_complete_refuted : exists (w : world) s dom_of vflt lhs rand (emu : Type) emu_new train predict obs fuel g (m : dmodel w flt) r r',
  built (dm_bn m)
  /\ (forall c r, valid (dm_bn m) (dm_exo m) c -> exists p r', s (ch_locus c) r = (Ok p, r'))
  /\ (exists c r1 r2, sample_prior (dm_bn m) (dm_exo m) r1 = (Ok c, r2))
  /\ h_fit (emu:=emu) s dom_of vflt lhs rand emu_new train predict obs fuel g m r = Some (Err KeyError, r').
Proof.
  exists exw, exp_sim, exh_dom, exh_v, exh_lhs, exh_rand, unit, (fun _ => tt), exh_train, exh_predict, exh_obs, 2, (exh_cfg 1 2), exabc, 0.
  eexists. split; [exact exnet_built|]. split; [|split].
  - intros c r (V1 & _). unfold exp_sim. replace (dmem "z" (ch_locus c)) with true; [eauto|]. symmetry. apply dmem_In. apply V1. left.
    apply node_dec_true. vm_compute. reflexivity.
  - assert (X : match sample_prior (dm_bn exabc) (dm_exo exabc) 0 with (Ok _, _) => True | _ => False end) by (vm_compute; exact I).
    destruct (sample_prior (dm_bn exabc) (dm_exo exabc) 0) as [[c|] r2] eqn:E; [|destruct X]. exists c, 0, r2. exact E.
  - unfold h_fit. eapply cbind_step.
    + unfold h_initialise. eapply cbind_step; [unfold clift; rewrite exh_domain; reflexivity|]. cbv zeta.
      eapply cbind_step; [reflexivity|]. eapply cbind_step; [unfold clift; rewrite exh_domain; reflexivity|].
      eapply cbind_step; [reflexivity|]. reflexivity.
    + cbn [fst snd]. apply cbind_raises. cbn [h_update]. apply cbind_raises. unfold a_wave. apply cbind_raises. unfold h_simulate.
      eapply cbind_step; [reflexivity|]. cbn [c_sims exh_cfg Z.to_nat Pos.to_nat Pos.iter_op repeat cmap]. apply cbind_raises.
      unfold h_run. eapply cbind_step; [unfold clift; rewrite exh_domain; reflexivity|]. apply cbind_raises. reflexivity.
Qed.
Print Assumptions C94_complete_refuted.

(** Hypotheses of C94_never_fits: the same model, which reads the function z. *)
Example C94_example : RVRoots (dm_bn exabc) = Ok ["x"] /\ ~ In "z" ["x"] /\ reads exp_sim "z"
  /\ (forall d n r l r', exh_lhs d n r = (Ok l, r') -> length l = n)
  /\ (forall d r, roots_only (dm_bn exabc) d -> exp_sim d r = (Err KeyError, r)) /\ roots_only (dm_bn exabc) [("x", PZ 3)].
Proof.
  assert (E : RVRoots (dm_bn exabc) = Ok ["x"]) by (vm_compute; reflexivity).
  split; [exact E|]. split; [intros [K|[]]; discriminate K|]. split; [|split; [|split]].
  - intros d r H. unfold exp_sim. destruct (dmem "z" d) eqn:D; [apply dmem_In in D; contradiction|]. eauto.
  - intros d n r l r' H. injection H as <- _. apply repeat_length.
  - intros d r H. unfold exp_sim. destruct (dmem "z" d) eqn:D; auto. apply dmem_In in D. destruct (H _ D) as (rv & E2 & K).
    rewrite E in E2. injection E2 as <-. destruct K as [K|[]]. discriminate K.
  - intros k [<-|[]]. exists ["x"]. split; [exact E|left; reflexivity].
Qed.

(** The toy model Normal2 (fit/toys.py:46-69; another distribution for std): its simulation reads
    mu1, which is no random root, so it cannot be fitted. *)
Definition ex_normal2 : bn exw := defs (bn_new "Normal2")
  [LDist "std" (ECall "exp" [] [("rate", ENum "1")]) []; LDist "mu1" (e_norm (ENum "0") (EName "std")) ["std"];
   LDist "mu2" (e_norm (ENum "0") (EName "std")) ["std"]].
Example C94_example_normal2 : built ex_normal2 /\ RVRoots ex_normal2 = Ok ["std"] /\ ~ In "mu1" ["std"].
Proof.
  split; [unfold ex_normal2; apply defs_built; [constructor|vm_compute; reflexivity]|].
  split; [vm_compute; reflexivity|intros [K|[]]; discriminate K].
Qed.
