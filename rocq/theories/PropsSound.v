(** * Property C93: what the ABC fitters simulate and keep *)

Require Import Coq.Reals.Reals Coq.micromega.Lia Coq.ZArith.ZArith.
Require Import Verif.Base Verif.World Verif.ModelGraph Verif.ModelExpr Verif.ModelLoci Verif.ModelBN Verif.ModelSample
        Verif.Spec Verif.SpecBN Verif.SpecSample Verif.SpecChrom Verif.ModelFitBase Verif.ModelFloat Verif.ModelResample
        Verif.ModelABC Verif.ModelSMC Verif.ModelSpread
        Verif.ProofBase Verif.ProofGraph Verif.ProofBN Verif.ProofBNHist Verif.ProofSample Verif.ProofFloat Verif.ProofSMC
        Verif.PropsFitBase Verif.PropsSample Verif.PropsChrom Verif.PropsResample Verif.PropsABC Verif.PropsSMC
        Verif.PropsSMCMut Verif.PropsSpread Verif.PropsPost Verif.ExWorld Verif.PropsBN.
Local Open Scope nat_scope.

(** ** Specification *)

Section Valid.
  Context {w : world}.

  (** Parameters of a network with some values given: a value for every node and every given name
      and for nothing else; the given ones as given, constants and functions as defined; the log
      probability is that of these values or not set. *)
  Definition valid (b : bn w) (given : dict (V w)) (c : chrom w) : Prop :=
    (forall n, In n (dkeys (ch_locus c)) <-> node b n \/ In n (dkeys given))
    /\ (forall x v, dget given x = Some v -> dget (ch_locus c) x = Some v)
    /\ (forall n v, holds b n (LValue n v) -> dget given n = None -> dget (ch_locus c) n = Some v)
    /\ (forall n, node b n -> dget given n = None -> consistent b (dget (ch_locus c)) n)
    /\ (ch_lp c = lp_nan w \/ evaluate_nodes b (ch_locus c) = Ok (ch_lp c)).

  (** Values to start from (set_parents): of random nodes, none of which is given or has a given
      descendant. *)
  Definition free_start (b : bn w) (given p0 : dict (V w)) : Prop :=
    NoDup (dkeys p0) /\ forall k, In k (dkeys p0) ->
      (exists f ps, holds b k (LDist k f ps)) /\ forall x, In x (dkeys given) -> x <> k /\ ~ path (dag b) k x.

  (** Two models that simulate valid parameters alike. *)
  Definition agree (m : dmodel w flt) (s s' : chrom w -> RNG w -> res (particle w flt) * RNG w) : Prop :=
    forall c r, valid (dm_bn m) (dm_exo m) c -> s c r = s' c r.
  (** simulate returns a particle of the parameters it was given. *)
  Definition keeps_pars (s : chrom w -> RNG w -> res (particle w flt) * RNG w) : Prop :=
    forall c r p r', s c r = (Ok p, r') -> p_pars p = c.
  (** Only random nodes get a step size. *)
  Definition random_steps {step} (wstd : dmodel w flt -> list (particle w flt) -> list flt -> RNG w -> res (dict step) * RNG w) (m : dmodel w flt) : Prop :=
    forall theta wts r tau r', wstd m theta wts r = (Ok tau, r') -> forall k, In k (dkeys tau) -> exists f ps, holds (dm_bn m) k (LDist k f ps).

  Lemma valid_prior : forall (b : bn w) given r c r', built b -> sample_prior b given r = (Ok c, r') -> valid b given c.
  Proof.
    intros b given r c r' B H. unfold sample_prior in H. destruct (sample b given r) as [[d|e] r1] eqn:E; [|discriminate H].
    destruct (evaluate_nodes b d) as [lp|e] eqn:El; [|discriminate H]. injection H as <- _.
    destruct (C25_complete w b given r d r1 B E) as [K1 [K2 K3]]. unfold valid. splits; cbn [ch_locus ch_lp]; auto.
    - intros n v Hn Hg. eapply C25_values; eauto. apply dget_None. auto.
    - intros n Hn Hg. eapply C25_functions; eauto. apply dget_None. auto.
  Qed.

  Lemma valid_serve : forall (m : dmodel w flt) p r c r', built (dm_bn m) -> NoDup (dkeys (dm_exo m)) ->
    (forall k, In k (dkeys p) -> exists f ps, holds (dm_bn m) k (LDist k f ps)) ->
    serve m p r = (Ok c, r') -> valid (dm_bn m) (dm_exo m) c.
  Proof.
    intros m p r c r' B Nd Hp H. pose proof (C62_serve w flt m p r c r' B Nd H) as [K1 [K2 [_ [_ K5]]]].
    unfold serve in H. pose proof (proj1 (proj1 (C29_sample_chromosome w _ _ _ _ _) H)) as Es.
    assert (Kd : forall k, In k (dkeys (dupdate p (dm_exo m))) -> dget (dm_exo m) k = None -> In k (dkeys p)).
    { intros k Hk Hx. rewrite dkeys_dupdate in Hk. apply union_In in Hk. destruct Hk as [Hk|Hk]; auto. apply dget_None in Hx. contradiction. }
    unfold valid. splits; auto.
    - intros n. rewrite K1. split; [|tauto]. intros [K|[K|K]]; auto. left. destruct (Hp n K) as (f & ps & Hh). eapply holds_node; eauto.
    - intros n v Hn Hg. eapply C25_values; eauto. intros K. destruct (Hp n (Kd n K Hg)) as (f & ps & Hh).
      pose proof (holds_fun _ _ _ _ Hn Hh). discriminate.
    - intros n Hn Hg e ps Hf. refine (C25_functions w _ _ _ _ _ n B Es _ e ps Hf). intros K. destruct (Hp n (Kd n K Hg)) as (f & ps' & Hh).
      pose proof (holds_fun _ _ _ _ Hf Hh). discriminate.
  Qed.

  Lemma valid_impulse : forall (b : bn w) given c p0 r c' r', built b -> valid b given c -> free_start b given p0 ->
    impulse c p0 b r = (Ok tt, c', r') -> valid b given c'.
  Proof.
    intros b given c p0 r c' r' B (V1 & V2 & V3 & V4 & V5) [Nd Fr] H.
    destruct (C37_impulse w b c p0 r c' r' B Nd H) as [K1 [_ K3]]. destruct (built_coherent b B) as [C F].
    unfold valid. splits.
    - intros n. rewrite K1. apply V1.
    - intros x v Hx. rewrite K3; auto. intros k _ Hk. apply (proj2 (Fr k Hk)). apply dget_In. eauto.
    - intros n v Hn Hg. rewrite K3; auto. intros k _ Hk. destruct (Fr k Hk) as [(f & ps & Hh) _]. split.
      + intros ->. pose proof (holds_fun _ _ _ _ Hn Hh). discriminate.
      + intros P. apply path_last in P. destruct P as [P|[x [_ P]]]; apply (co_parents b C n _ Hn) in P; destruct P.
    - intros n Hn Hg e ps Hf. destruct (In_dec_name n (dkeys p0)) as [I|I].
      + destruct (Fr n I) as [(f & ps' & Hh) _]. pose proof (holds_fun _ _ _ _ Hf Hh). discriminate.
      + refine (C38_each w b c p0 r c' r' n B Nd H _ _ (or_introl (V4 n Hn Hg)) e ps Hf); [apply V1; auto|].
        intros v Hv. exfalso. apply I. apply dget_In. eauto.
    - left. eapply C39_impulse_resets; eauto.
  Qed.
End Valid.

(** ** Steps only for random nodes *)

Lemma domain_random : forall w (m : dmodel w flt) r doms r', built (dm_bn m) -> dm_domain m r = (Ok doms, r') ->
  forall k, In k (map fst doms) -> exists f ps, holds (dm_bn m) k (LDist k f ps).
Proof.
  intros w m r doms r' B H k Hk. destruct (built_coherent _ B) as [C F].
  unfold dm_domain in H. destruct (sample_prior (dm_bn m) (dm_exo m) r) as [[p|e] r1]; [|discriminate H].
  injection H as H _. destruct (RVRoots (dm_bn m)) as [rv|e]; cbn [bind] in H; [|discriminate H].
  apply mapM_in in H. destruct H as [H _]. apply in_map_iff in Hk. destruct Hk as ([n d] & <- & Hk). rewrite Forall_forall in H.
  destruct (H _ Hk) as (x & _ & E). apply bind_ok in E. destruct E as (D & E1 & E2). injection E2 as -> _. cbn [fst].
  unfold node_distribution in E1. apply bind_ok in E1. destruct E1 as (l & E3 & E4). apply bget_holds in E3.
  destruct l as [? ?|?|n' f ps|? ? ?|? ?]; try discriminate E4. pose proof (co_name _ C _ _ E3) as En. cbn [loci_name] in En. subst. eauto.
Qed.

Lemma steps_random : forall w num (m : dmodel w flt) theta wts r tau r', built (dm_bn m) ->
  calc_weighted_std num m theta wts r = (Ok tau, r') -> forall k, In k (dkeys tau) -> exists f ps, holds (dm_bn m) k (LDist k f ps).
Proof.
  intros w num m theta wts r tau r' B H. unfold calc_weighted_std in H. destruct (dm_domain m r) as [[doms|e] r1] eqn:D; [|discriminate H].
  injection H as H _. pose proof (domain_random w m r doms r1 B D) as R. clear D.
  assert (K : forall l t0 t1, (forall k, In k (map fst l) -> exists f ps, holds (dm_bn m) k (LDist k f ps)) ->
    (forall k, In k (dkeys t0) -> exists f ps, holds (dm_bn m) k (LDist k f ps)) ->
    foldM (fun (tau : dict flt) (nd : name * Dist w) => do vs <- column num theta (fst nd); do var <- variance vs wts;
             Ok (if fltb (Fin 0) var then dset tau (fst nd) (fsqrt var) else tau)) l t0 = Ok t1 ->
    forall k, In k (dkeys t1) -> exists f ps, holds (dm_bn m) k (LDist k f ps)).
  { intros l. induction l as [|d l IH]; intros t0 t1 H1 H2 H3; cbn [foldM] in H3; [injection H3 as <-; auto|].
    apply bind_ok in H3. destruct H3 as (t2 & E1 & E2). refine (IH _ _ _ _ E2); [intros k Hk; apply H1; right; auto|].
    apply bind_ok in E1. destruct E1 as (vs & _ & E1). apply bind_ok in E1. destruct E1 as (var & _ & E1). apply (f_equal (fun x => match x with Ok a => a | Err _ => t2 end)) in E1. cbv beta iota in E1. intros k Hk.
    destruct (fltb (Fin 0) var); subst t2; auto. rewrite dkeys_dset, sadd_In in Hk. destruct Hk as [->|Hk]; auto. apply H1. left. auto. }
  refine (K _ _ _ R _ H). intros k [].
Qed.

(** ** Computations that agree *)

Lemma cbind_ext : forall G A B (x y : comp G A) (f g : A -> comp G B) r, x r = y r ->
  (forall a r', y r = Some (Ok a, r') -> f a r' = g a r') -> cbind x f r = cbind y g r.
Proof. intros G A B x y f g r E H. unfold cbind. rewrite E. destruct (y r) as [[[a|e] r']|] eqn:Ey; auto. Qed.
Lemma cmap_ext : forall G A B (f g : A -> comp G B) l, (forall a, In a l -> forall r, f a r = g a r) -> forall r, cmap f l r = cmap g l r.
Proof.
  intros G A B f g l. induction l as [|a l IH]; intros H r; cbn [cmap]; auto.
  apply cbind_ext; [apply H; left; auto|]. intros b r' _. apply cbind_ext; auto. apply IH. intros a0 Ha. apply H. right. auto.
Qed.
Lemma seek_ext : forall w (d e : comp (RNG w) (flt * particle w flt)), (forall r, d r = e r) ->
  forall fuel test di n sim r, seek fuel d test di n sim r = seek fuel e test di n sim r.
Proof.
  intros w d e H fuel. induction fuel as [|f IH]; intros test di n sim r; cbn [seek]; destruct (test di); auto.
  apply cbind_ext; auto.
Qed.

Section Same.
  Context {w : world} (lp_isinf : LP w -> bool) {step : Type} (normal : step -> RNG w -> V w * RNG w) (vadd : V w -> V w -> res (V w)).
  Context (draw : RNG w -> list R -> nat -> list nat) (draw_next : RNG w -> RNG w) (unif : RNG w -> R * RNG w).
  Context (wstd : dmodel w flt -> list (particle w flt) -> list flt -> RNG w -> res (dict step) * RNG w).
  Context (m : dmodel w flt) (B : built (dm_bn m)) (Nd : NoDup (dkeys (dm_exo m))) (Ws : random_steps wstd m).
  Implicit Types (s : chrom w -> RNG w -> res (particle w flt) * RNG w).

  Notation agree := (agree m).

  Lemma attempt_ext : forall s s', agree s s' -> forall r, attempt s m r = attempt s' m r.
  Proof.
    intros s s' H r. unfold attempt. apply cbind_ext; auto. intros c r1 E. injection E as E.
    apply cbind_ext; auto. unfold clift. rewrite (H c r1); auto. eapply valid_prior; eauto.
  Qed.
  Lemma attempt_from_ext : forall s s' p0, agree s s' -> free_start (dm_bn m) (dm_exo m) p0 ->
    forall r, attempt_from s m p0 r = attempt_from s' m p0 r.
  Proof.
    intros s s' p0 H Fr r. unfold attempt_from. apply cbind_ext; auto. intros c r1 E. injection E as E.
    apply cbind_ext; auto. intros c' r2 E2. unfold clift in E2. apply cbind_ext; auto. unfold clift. rewrite (H c' r2); auto.
    destruct (impulse c p0 (dm_bn m) r1) as [[[[]|e] c2] r3] eqn:Ei; inversion E2; subst. eapply valid_impulse; eauto. eapply valid_prior; eauto.
  Qed.
  Lemma mut_loop_ext : forall s s' src tau, agree s s' -> (forall k, In k (dkeys tau) -> exists f ps, holds (dm_bn m) k (LDist k f ps)) ->
    forall fuel di n sim r, mut_loop s lp_isinf normal vadd fuel m src tau di n sim r = mut_loop s' lp_isinf normal vadd fuel m src tau di n sim r.
  Proof.
    intros s s' src tau H T fuel. induction fuel as [|f IH]; intros di n sim r; cbn [mut_loop]; destruct (isinf di); auto.
    apply cbind_ext; auto. intros p1 r1 E1. apply cbind_ext; auto. intros c r2 E2. unfold clift in E2. injection E2 as E2.
    destruct (lp_isinf (ch_lp c)); auto. apply cbind_ext.
    - unfold clift. rewrite (H c r2); auto. eapply valid_serve; eauto. intros k Hk. apply T.
      apply (mutate_sizes normal vadd) in E1. apply E1. auto.
    - intros p r3 _. apply cbind_ext; auto. intros dp r4 _. destruct (20 <? S n); auto.
  Qed.
  Lemma sample_mutation_ext : forall s s' tau p, agree s s' -> (forall k, In k (dkeys tau) -> exists f ps, holds (dm_bn m) k (LDist k f ps)) ->
    forall fuel par r, sample_mutation s lp_isinf normal vadd fuel m par tau p r = sample_mutation s' lp_isinf normal vadd fuel m par tau p r.
  Proof.
    intros s s' tau p H T fuel par r. unfold sample_mutation. apply cbind_ext; auto. apply mut_loop_ext; auto.
  Qed.
  Lemma a_round_ext : forall s s', agree s s' -> forall fuel g st r,
    a_round s lp_isinf normal vadd wstd draw draw_next unif fuel g m st r = a_round s' lp_isinf normal vadd wstd draw draw_next unif fuel g m st r.
  Proof.
    intros s s' H fuel g st r. unfold a_round. apply cbind_ext; auto. intros [e th] r1 _. apply cbind_ext; auto. intros [ws th'] r2 _.
    apply cbind_ext; auto. intros [ws' th1] r3 _. apply cbind_ext; auto. unfold mcmc_proposal. apply cbind_ext; auto.
    intros tau r4 E. unfold clift in E. injection E as E. apply cbind_ext; auto. apply cmap_ext. intros p _ r5. apply sample_mutation_ext; auto.
    exact (Ws _ _ _ _ _ E).
  Qed.
  Lemma update_ext : forall s s', agree s s' -> forall rounds fuel g st r,
    update s lp_isinf normal vadd wstd draw draw_next unif rounds fuel g m st r = update s' lp_isinf normal vadd wstd draw draw_next unif rounds fuel g m st r.
  Proof.
    intros s s' H rounds. induction rounds as [|n IH]; intros fuel g st r; cbn [update]; auto.
    apply cbind_ext; [apply a_round_ext; auto|]. intros st' r1 _. destruct (check_termination g st'); auto.
  Qed.
  Lemma initialise_ext : forall s s' pars0, agree s s' -> (forall ps p0, pars0 = Some ps -> In p0 ps -> free_start (dm_bn m) (dm_exo m) p0) ->
    forall fuel g r, initialise s draw draw_next fuel g m pars0 r = initialise s' draw draw_next fuel g m pars0 r.
  Proof.
    intros s s' pars0 H Fr fuel g r. unfold initialise. apply cbind_ext; auto. destruct pars0 as [ps|].
    - apply cbind_ext; auto. intros ind r1 _. apply cbind_ext; auto. intros p0s r2 E. apply cmap_ext. intros p0 Hp r3.
      unfold sample_fin_cont. apply cbind_ext; auto. apply seek_ext. apply attempt_from_ext; auto. apply (Fr ps); auto.
      unfold cres in E. injection E as E _. apply (ProofSMC.pick_spec) in E. apply In_nth_error in Hp. destruct Hp as [i Hp].
      destruct (proj2 E _ _ Hp) as (k & _ & Hk). apply nth_error_In in Hk. auto.
    - apply cmap_ext. intros i _ r3. unfold sample_fin. apply cbind_ext; auto. apply seek_ext. apply attempt_ext; auto.
  Qed.
  Lemma posteriors_ext : forall s s', agree s s' -> forall fuel g st n r,
    smc_posteriors s lp_isinf normal vadd wstd draw draw_next fuel g m st n r = smc_posteriors s' lp_isinf normal vadd wstd draw draw_next fuel g m st n r.
  Proof.
    intros s s' H fuel g st n r. unfold smc_posteriors. apply cbind_ext; auto. intros ind r1 _. apply cbind_ext; auto. intros th r2 _.
    apply cbind_ext; auto. intros tau r3 E. unfold clift in E. injection E as E. apply cbind_ext; auto.
    apply cmap_ext. intros p _ r5. apply sample_mutation_ext; auto. exact (Ws _ _ _ _ _ E).
  Qed.

  (** ** Particles of valid parameters *)
  Context (s : chrom w -> RNG w -> res (particle w flt) * RNG w) (Fs : keeps_pars s).
  Notation good := (fun p : particle w flt => valid (dm_bn m) (dm_exo m) (p_pars p)).

  Lemma distance_pars : forall p r d p' r', distance m p r = Some (Ok (d, p'), r') -> p_pars p' = p_pars p.
  Proof.
    intros p r d p' r' H. unfold distance in H. unfold calc_distance in H.
    destruct (p_distance p) as [d0|]; [injection H as _ <- _; auto|]. unfold need_ys in H. destruct (p_ys p) as [ys|] eqn:Ey.
    - destruct (total (Fin 0) fadd t_dist (dm_data m) ys) as [x|e]; [injection H as _ <- _; auto|discriminate H].
    - unfold flatten in H. destruct (dm_domain m r) as [[dom|e] r1]; [|discriminate H].
      destruct (mapM _ dom) as [xs|e] in H; [|discriminate H]. destruct (ModelFitBase.pick _ _) as [ys|e] in H; [|discriminate H].
      cbn [pt_set_ys pt_set_xs p_ys] in H. destruct (total (Fin 0) fadd t_dist (dm_data m) ys) as [x|e]; [injection H as _ <- _; auto|discriminate H].
  Qed.
  Lemma copy_pars : forall p : particle w flt, p_pars (pt_copy p) = p_pars p.
  Proof. intros p. cbn. destruct (p_pars p); auto. Qed.
  Lemma attempt_good : forall r d p r', attempt s m r = Some (Ok (d, p), r') -> good p.
  Proof.
    intros r d p r' H. unfold attempt in H. apply cbind_ok in H. destruct H as (c & r1 & H1 & H). apply cbind_ok in H. destruct H as (q & r2 & H2 & H).
    apply distance_pars in H. cbv beta. rewrite H. unfold clift in H1, H2. injection H1 as H1. injection H2 as H2. rewrite (Fs _ _ _ _ H2).
    eapply valid_prior; eauto.
  Qed.
  Lemma attempt_from_good : forall p0 r d p r', free_start (dm_bn m) (dm_exo m) p0 -> attempt_from s m p0 r = Some (Ok (d, p), r') -> good p.
  Proof.
    intros p0 r d p r' Fr H. unfold attempt_from in H. apply cbind_ok in H. destruct H as (c & r1 & H1 & H). apply cbind_ok in H. destruct H as (c' & r2 & H2 & H).
    apply cbind_ok in H. destruct H as (q & r3 & H3 & H).
    apply distance_pars in H. cbv beta. rewrite H. unfold clift in H1, H2, H3. injection H1 as H1. injection H3 as H3. rewrite (Fs _ _ _ _ H3).
    destruct (impulse c p0 (dm_bn m) r1) as [[[[]|e] c2] r4] eqn:Ei; inversion H2; subst. eapply valid_impulse; eauto. eapply valid_prior; eauto.
  Qed.
  Lemma seek_good : forall (d : comp (RNG w) (flt * particle w flt)), (forall r x p r', d r = Some (Ok (x, p), r') -> good p) ->
    forall fuel test di n sim r di' sim' n' r', (forall p, sim = Some p -> good p) ->
    seek fuel d test di n sim r = Some (Ok (di', sim', n'), r') -> forall p, sim' = Some p -> good p.
  Proof.
    intros d Hd fuel. induction fuel as [|f IH]; intros test di n sim r di' sim' n' r' Hs H; cbn [seek] in H; destruct (test di);
      try discriminate H; try (unfold cret in H; injection H as _ <- _ _; exact Hs).
    apply cbind_ok in H. destruct H as ([x q] & r1 & H1 & H). refine (IH _ _ _ _ _ _ _ _ _ _ H). cbn [snd]. intros p K. injection K as <-. eapply Hd; eauto.
  Qed.
  Lemma sample_fin_good : forall fuel par r di p n r', sample_fin s fuel m par r = Some (Ok (di, p, n), r') -> good p.
  Proof.
    intros fuel par r di p n r' H. unfold sample_fin in H. apply cbind_ok in H. destruct H as ([[x o] k] & r1 & H1 & H).
    apply cbind_ok in H. destruct H as (q & r2 & H2 & H). unfold cret in H. injection H as _ <- _ _. rewrite through_id.
    refine (seek_good _ attempt_good _ _ _ _ None _ _ _ _ _ _ H1 q _); [intros ? K; discriminate K|].
    unfold cres in H2. destruct o; cbn in H2; [congruence|discriminate H2].
  Qed.
  Lemma sample_fin_cont_good : forall fuel par p0 r di p n r', free_start (dm_bn m) (dm_exo m) p0 -> sample_fin_cont s fuel m par p0 r = Some (Ok (di, p, n), r') -> good p.
  Proof.
    intros fuel par p0 r di p n r' Fr H. unfold sample_fin_cont in H. apply cbind_ok in H. destruct H as ([[x o] k] & r1 & H1 & H).
    apply cbind_ok in H. destruct H as (q & r2 & H2 & H). unfold cret in H. injection H as _ <- _ _. rewrite through_id.
    refine (seek_good _ (fun r x p r' => attempt_from_good p0 r x p r' Fr) _ _ _ _ None _ _ _ _ _ _ H1 q _); [intros ? K; discriminate K|].
    unfold cres in H2. destruct o; cbn in H2; [congruence|discriminate H2].
  Qed.
  Lemma mut_loop_good : forall src tau, (forall k, In k (dkeys tau) -> exists f ps, holds (dm_bn m) k (LDist k f ps)) ->
    (forall p, src = SPt p -> good p) -> forall fuel di n sim r d o k r', (forall p, sim = Some (SPt p) -> good p) ->
    mut_loop s lp_isinf normal vadd fuel m src tau di n sim r = Some (Ok (d, o, k), r') -> forall p, o = Some (SPt p) -> good p.
  Proof.
    intros src tau T Hs fuel. induction fuel as [|f IH]; intros di n sim r d o k r' Hsim H; cbn [mut_loop] in H; destruct (isinf di);
      try discriminate H; try (unfold cret in H; injection H as _ <- _ _; exact Hsim).
    apply cbind_ok in H. destruct H as (p1 & r1 & H1 & H). apply cbind_ok in H. destruct H as (c & r2 & H2 & H).
    destruct (lp_isinf (ch_lp c)); [exact (IH _ _ _ _ _ _ _ _ Hsim H)|].
    apply cbind_ok in H. destruct H as (q & r3 & H3 & H). apply cbind_ok in H. destruct H as ([x q'] & r4 & H4 & H).
    destruct (20 <? S n).
    - apply cbind_ok in H. destruct H as (d' & r5 & _ & H). unfold cret in H. injection H as _ <- _ _. intros p K. injection K as ->. auto.
    - refine (IH _ _ _ _ _ _ _ _ _ H). cbn [snd]. intros p K. injection K as <-. apply distance_pars in H4. cbv beta. rewrite H4.
      unfold clift in H2, H3. injection H2 as H2. injection H3 as H3. rewrite (Fs _ _ _ _ H3). eapply valid_serve; eauto.
      intros x0 Hk. apply T. apply (mutate_sizes normal vadd) in H1. apply H1. auto.
  Qed.
  Lemma sample_mutation_good : forall fuel par tau p r di q n r', (forall k, In k (dkeys tau) -> exists f ps, holds (dm_bn m) k (LDist k f ps)) ->
    good p -> sample_mutation s lp_isinf normal vadd fuel m par tau p r = Some (Ok (di, q, n), r') -> good q.
  Proof.
    intros fuel par tau p r di q n r' T Hp H. unfold sample_mutation in H. apply cbind_ok in H. destruct H as ([[x o] k] & r1 & H1 & H).
    apply cbind_ok in H. destruct H as (q1 & r2 & H2 & H). apply cbind_ok in H. destruct H as (q2 & r3 & H3 & H). unfold cret in H. injection H as _ <- _ _.
    unfold cres in H2, H3. destruct q1 as [q1|j]; [|discriminate H3]. injection H3 as <- _. rewrite through_id.
    refine (mut_loop_good _ tau T _ fuel PInf 0 None r x o k r1 _ H1 q1 _); [destruct par; intros ? K; inversion K; subst; auto|intros ? K; discriminate K|].
    destruct o; cbn in H2; [congruence|discriminate H2].
  Qed.
  Lemma distances_good : forall theta r ds theta' r', Forall good theta -> distances m theta r = Some (Ok (ds, theta'), r') -> Forall good theta'.
  Proof.
    intros theta r ds theta' r' F H. unfold distances in H. apply cbind_ok in H. destruct H as (l & r1 & H1 & H). unfold cret in H. injection H as _ <- _.
    apply Forall_map. refine (proj1 (cmap_forall _ _ _ _ (fun x => good (snd x)) _ _ _ _ _ H1)).
    intros a r2 [d b] r3 Ia E. apply distance_pars in E. cbn [snd]. rewrite E. rewrite Forall_forall in F. auto.
  Qed.
  Lemma pick_good : forall theta ind l, Forall good theta -> pick theta ind = Ok l -> Forall good l.
  Proof.
    intros theta ind l F H. apply ProofSMC.pick_spec in H. apply Forall_forall. intros p Hp. apply In_nth_error in Hp. destruct Hp as [i Hp].
    destruct (proj2 H _ _ Hp) as (k & _ & Hk). apply nth_error_In in Hk. rewrite Forall_forall in F. auto.
  Qed.
  Lemma select_good : forall acc tp t1 r ps k r', Forall good tp -> Forall good t1 -> select unif acc tp t1 r = Some (Ok (ps, k), r') -> Forall good ps.
  Proof.
    induction acc as [|a acc IH]; intros tp t1 r ps k r' F1 F2 H; cbn [select] in H; [unfold cret in H; injection H as <- _ _; constructor|].
    apply cbind_ok in H. destruct H as (u & r1 & _ & H). apply cbind_ok in H. destruct H as (p & r2 & H2 & H). apply cbind_ok in H. destruct H as ([l n] & r3 & H3 & H).
    unfold cret in H. injection H as <- _ _. constructor.
    - unfold cres in H2. destruct (rltb u (if a then 1%R else 0%R)).
      + destruct tp as [|q tp]; [discriminate H2|]. injection H2 as <- _. inversion F1; auto.
      + destruct t1 as [|q t1]; [discriminate H2|]. injection H2 as <- _. inversion F2; auto.
    - refine (IH _ _ _ _ _ _ _ _ H3); [destruct tp|destruct t1]; cbn; auto; [inversion F1|inversion F2]; auto.
  Qed.
  Lemma a_round_good : forall fuel g st r st' r', Forall good (s_pts st) ->
    a_round s lp_isinf normal vadd wstd draw draw_next unif fuel g m st r = Some (Ok st', r') -> Forall good (s_pts st').
  Proof.
    intros fuel g st r st' r' F H. unfold a_round in H. apply cbind_ok in H. destruct H as ([e th] & r1 & H1 & H).
    apply cbind_ok in H. destruct H as ([ws th'] & r2 & H2 & H). apply cbind_ok in H. destruct H as ([ws' th1] & r3 & H3 & H).
    apply cbind_ok in H. destruct H as ([[pts ess] acc] & r4 & H4 & H). unfold cret in H. injection H as <- _. cbn [s_pts].
    assert (F1 : Forall good th).
    { unfold find_eps in H1. apply cbind_ok in H1. destruct H1 as ([ds th0] & q1 & K1 & K). apply cbind_ok in K. destruct K as (q & q2 & _ & K).
      unfold cret in K. injection K as _ <- _. eapply distances_good; eauto. }
    assert (F2 : Forall good th').
    { unfold update_wts in H2. apply cbind_ok in H2. destruct H2 as ([ds th0] & q1 & K1 & K). apply cbind_ok in K. destruct K as (q & q2 & _ & K).
      unfold cret in K. injection K as _ <- _. eapply distances_good; eauto. }
    assert (C : forall l, Forall good l -> Forall good (map (fun p : particle w flt => pt_copy p) l)).
    { intros l Fl. apply Forall_map. eapply Forall_impl; [|exact Fl]. intros p Hp. cbv beta. rewrite copy_pars. auto. }
    assert (F3 : Forall good th1).
    { unfold resample_smc in H3. destruct (2 <? count _ ws); [|discriminate H3]. destruct (fltb (Fin 1) _).
      - apply cbind_ok in H3. destruct H3 as (ind & q1 & _ & K). apply cbind_ok in K. destruct K as (l & q2 & K2 & K). unfold cret in K. injection K as _ <- _.
        unfold cres in K2. injection K2 as K2 _. apply C. eapply pick_good; eauto.
      - unfold cret in H3. injection H3 as _ <- _. auto. }
    unfold mcmc_proposal in H4. apply cbind_ok in H4. destruct H4 as (tau & q1 & K1 & K). apply cbind_ok in K. destruct K as (sp & q2 & K2 & K).
    apply cbind_ok in K. destruct K as (mk & q3 & _ & K). apply cbind_ok in K. destruct K as ([sl n] & q4 & K4 & K).
    apply cbind_ok in K. destruct K as (es & q5 & _ & K). apply cbind_ok in K. destruct K as (a & q6 & _ & K). unfold cret in K. injection K as <- _ _ _.
    refine (select_good _ _ _ _ _ _ _ _ F3 K4). apply Forall_map.
    refine (proj1 (cmap_forall _ _ _ _ (fun x => good (snd (fst x))) _ _ _ _ _ K2)). intros p q7 [[d q] n'] q8 Ip E. cbn [fst snd].
    rewrite Forall_forall in F3. refine (sample_mutation_good _ _ _ _ _ _ _ _ _ _ (F3 p Ip) E). unfold clift in K1. injection K1 as K1. exact (Ws _ _ _ _ _ K1).
  Qed.
  Lemma update_good : forall rounds fuel g st r st' r', Forall good (s_pts st) ->
    update s lp_isinf normal vadd wstd draw draw_next unif rounds fuel g m st r = Some (Ok st', r') -> Forall good (s_pts st').
  Proof.
    induction rounds as [|n IH]; intros fuel g st r st' r' F H; cbn [update] in H; [discriminate H|].
    apply cbind_ok in H. destruct H as (st1 & r1 & H1 & H). apply a_round_good in H1; auto. destruct (check_termination g st1).
    - unfold cret in H. injection H as <- _. auto.
    - eapply IH; eauto.
  Qed.
  Lemma initialise_good : forall fuel g pars0 r st r', (forall ps p0, pars0 = Some ps -> In p0 ps -> free_start (dm_bn m) (dm_exo m) p0) ->
    initialise s draw draw_next fuel g m pars0 r = Some (Ok st, r') -> Forall good (s_pts st).
  Proof.
    intros fuel g pars0 r st r' Fr H. unfold initialise in H. apply cbind_ok in H. destruct H as (samples & r1 & H1 & H).
    apply cbind_ok in H. destruct H as (ess & r2 & _ & H). unfold cret in H. injection H as <- _. cbn [s_pts]. apply Forall_map.
    destruct pars0 as [ps|].
    - apply cbind_ok in H1. destruct H1 as (ind & q1 & _ & H1). apply cbind_ok in H1. destruct H1 as (p0s & q2 & H2 & H1).
      refine (proj1 (cmap_forall _ _ _ _ (fun x => good (snd (fst x))) _ _ _ _ _ H1)). intros p0 q3 [[d q] n'] q4 Ip E. cbn [fst snd].
      refine (sample_fin_cont_good _ _ _ _ _ _ _ _ _ E). apply (Fr ps); auto.
      unfold cres in H2. injection H2 as H2 _. apply ProofSMC.pick_spec in H2. apply In_nth_error in Ip. destruct Ip as [i Ip].
      destruct (proj2 H2 _ _ Ip) as (k & _ & Hk). apply nth_error_In in Hk. auto.
    - refine (proj1 (cmap_forall _ _ _ _ (fun x => good (snd (fst x))) _ _ _ _ _ H1)). intros p0 q3 [[d q] n'] q4 Ip E. cbn [fst snd].
      eapply sample_fin_good; eauto.
  Qed.
  Lemma collect_sub : forall eps (t1 tp l : list (particle w flt)), collect_smc eps t1 tp = Ok l -> forall p, In p l -> In p t1.
  Proof.
    intros eps t1. induction t1 as [|q t1 IH]; intros tp l H; cbn [collect_smc] in H; [injection H as <-; intros p []|].
    destruct tp as [|qp tp]; [injection H as <-; intros p []|]. apply bind_ok in H. destruct H as (d & _ & H). apply bind_ok in H. destruct H as (l' & H1 & H).
    assert (El : q :: l' = l) by (destruct (fltb d eps); injection H as <-; auto). subst l. intros p [<-|Hp]; [left; auto|right; eapply IH; eauto].
  Qed.
  Lemma posteriors_good : forall fuel g st n r l r', Forall good (s_pts st) ->
    smc_posteriors s lp_isinf normal vadd wstd draw draw_next fuel g m st n r = Some (Ok l, r') -> Forall good l.
  Proof.
    intros fuel g st n r l r' F H. unfold smc_posteriors in H. apply cbind_ok in H. destruct H as (ind & r1 & _ & H). apply cbind_ok in H. destruct H as (th & r2 & H2 & H).
    apply cbind_ok in H. destruct H as (tau & r3 & _ & H). apply cbind_ok in H. destruct H as (sp & r4 & _ & H).
    unfold cres in H, H2. injection H2 as H2 _. injection H as H _. pose proof (pick_good _ _ _ F H2) as F2. rewrite Forall_forall in F2.
    apply Forall_forall. intros p Hp. apply F2. eapply collect_sub; eauto.
  Qed.
  Lemma abc_good : forall fuel par eps n r l acc ne r', abc_posteriors s fuel m par eps n r = Some (Ok (l, acc, ne), r') -> Forall good l.
  Proof.
    intros fuel par eps n r l acc ne r' H. unfold abc_posteriors in H. apply cbind_ok in H. destruct H as (sp & r1 & H1 & H).
    apply cbind_ok in H. destruct H as (post & r2 & H2 & H). apply cbind_ok in H. destruct H as (a & r3 & _ & H). unfold cret in H. injection H as <- _ _ _.
    destruct par; [|destruct sp; [unfold cret in H2; injection H2 as <- _; constructor|discriminate H2]].
    assert (G1 : Forall (fun x => good (pt_from_json (snd (fst x)))) sp).
    { refine (proj1 (cmap_forall _ _ _ _ (fun x => good (pt_from_json (snd (fst x)))) _ _ _ _ _ H1)). intros i q3 [[d j] n'] q4 _ E. cbn [fst snd].
      unfold sample_ess_abc in E. apply cbind_ok in E. destruct E as ([[x o] k] & q5 & E1 & E). apply cbind_ok in E. destruct E as (q & q6 & E2 & E).
      unfold cret in E. injection E as _ <- _ _. rewrite pt_json_id. refine (seek_good _ attempt_good _ _ _ _ None _ _ _ _ _ _ E1 q _); [intros ? K; discriminate K|].
      unfold cres in E2. destruct o; cbn in E2; [congruence|discriminate E2]. }
    refine (proj1 (cmap_forall _ _ _ _ _ _ _ _ _ _ H2)). intros x q1 p q2 Ix E. rewrite Forall_forall in G1. specialize (G1 x Ix). cbv beta in G1.
    unfold flatten_c, flatten in E. destruct (dm_domain m q1) as [[dom|e] r4]; [|discriminate E].
    destruct (mapM _ dom) as [xs|e] in E; [|discriminate E]. destruct (ModelFitBase.pick _ _) as [ys|e] in E; [|discriminate E].
    injection E as <- _. exact G1.
  Qed.
  Lemma abc_ext : forall s1 s2, agree s1 s2 -> forall fuel par eps n r, abc_posteriors s1 fuel m par eps n r = abc_posteriors s2 fuel m par eps n r.
  Proof.
    intros s1 s2 H fuel par eps n r. unfold abc_posteriors. apply cbind_ext; auto. apply cmap_ext. intros i _ r1. unfold sample_ess_abc.
    apply cbind_ext; auto. apply seek_ext. apply attempt_ext; auto.
  Qed.
  Lemma abc_initialise_ext : forall s1 s2, agree s1 s2 -> forall fuel n p r, abc_initialise s1 fuel m n p r = abc_initialise s2 fuel m n p r.
  Proof.
    intros s1 s2 H fuel n p r. unfold abc_initialise. apply cbind_ext; auto. apply cmap_ext. intros i _ r1. unfold sample_fin_abc.
    apply cbind_ext; auto. apply seek_ext. apply attempt_ext; auto.
  Qed.
End Same.

(** ** C93 *)

(** calc_weighted_std gives a step size to random nodes only. *)
Theorem C93_steps : forall w num (m : dmodel w flt), built (dm_bn m) -> random_steps (calc_weighted_std num) m.
Proof. intros w num m B theta wts r tau r' H. eapply steps_random; eauto. Qed.
Print Assumptions C93_steps.

(** simulate is called with valid parameters only: what it does on others does not matter. Every
    call of ABC-SMC: the fit and the posterior sample. *)
Theorem C93_smc_simulates : forall w lp_isinf (step : Type) normal vadd draw draw_next unif wstd (m : dmodel w flt) s s' pars0,
  built (dm_bn m) -> NoDup (dkeys (dm_exo m)) -> random_steps (step:=step) wstd m ->
  (forall ps p0, pars0 = Some ps -> In p0 ps -> free_start (dm_bn m) (dm_exo m) p0) -> agree m s s' ->
  (forall rounds fuel g r, smc_fit s lp_isinf normal vadd wstd draw draw_next unif rounds fuel g m pars0 r
                         = smc_fit s' lp_isinf normal vadd wstd draw draw_next unif rounds fuel g m pars0 r)
  /\ (forall fuel g st n r, smc_posteriors s lp_isinf normal vadd wstd draw draw_next fuel g m st n r
                          = smc_posteriors s' lp_isinf normal vadd wstd draw draw_next fuel g m st n r).
Proof.
  intros w lp_isinf step normal vadd draw draw_next unif wstd m s s' pars0 B Nd Ws Fr A. split.
  - intros rounds fuel g r. unfold smc_fit. apply cbind_ext; [apply initialise_ext; auto|]. intros st r1 _. apply update_ext; auto.
  - intros fuel g st n r. apply posteriors_ext; auto.
Qed.
Print Assumptions C93_smc_simulates.

(** The same for ABC by rejection. *)
Theorem C93_abc_simulates : forall w (m : dmodel w flt) s s', built (dm_bn m) -> agree m s s' ->
  (forall fuel n p r, abc_initialise s fuel m n p r = abc_initialise s' fuel m n p r)
  /\ (forall fuel par eps n r, abc_posteriors s fuel m par eps n r = abc_posteriors s' fuel m par eps n r).
Proof. intros w m s s' B A. split; [apply abc_initialise_ext|apply abc_ext]; auto. Qed.
Print Assumptions C93_abc_simulates.

(** Every particle of the population after fit and every particle of a posterior sample has valid
    parameters. *)
Theorem C93_population : forall w simulate lp_isinf (step : Type) normal vadd draw draw_next unif wstd (m : dmodel w flt) pars0 rounds fuel g r st r',
  built (dm_bn m) -> NoDup (dkeys (dm_exo m)) -> random_steps (step:=step) wstd m -> keeps_pars simulate ->
  (forall ps p0, pars0 = Some ps -> In p0 ps -> free_start (dm_bn m) (dm_exo m) p0) ->
  smc_fit simulate lp_isinf normal vadd wstd draw draw_next unif rounds fuel g m pars0 r = Some (Ok st, r') ->
  Forall (fun p => valid (dm_bn m) (dm_exo m) (p_pars p)) (s_pts st)
  /\ forall fuel n r1 l r2, smc_posteriors simulate lp_isinf normal vadd wstd draw draw_next fuel g m st n r1 = Some (Ok l, r2) ->
       Forall (fun p => valid (dm_bn m) (dm_exo m) (p_pars p)) l.
Proof.
  intros w simulate lp_isinf step normal vadd draw draw_next unif wstd m pars0 rounds fuel g r st r' B Nd Ws K Fr H.
  unfold smc_fit in H. apply cbind_ok in H. destruct H as (st0 & r0 & H1 & H2).
  assert (F : Forall (fun p => valid (dm_bn m) (dm_exo m) (p_pars p)) (s_pts st)).
  { eapply update_good; eauto. eapply initialise_good; eauto. }
  split; auto. intros fuel' n r1 l r2 E. eapply posteriors_good; eauto.
Qed.
Print Assumptions C93_population.

Theorem C93_abc_posterior : forall w simulate (m : dmodel w flt) fuel par eps n r l acc ne r', built (dm_bn m) -> keeps_pars simulate ->
  abc_posteriors simulate fuel m par eps n r = Some (Ok (l, acc, ne), r') -> Forall (fun p => valid (dm_bn m) (dm_exo m) (p_pars p)) l.
Proof. intros w simulate m fuel par eps n r l acc ne r' B K H. eapply abc_good; eauto. Qed.
Print Assumptions C93_abc_posterior.

(** *** Examples *)

Lemma ex_keeps : keeps_pars exsim.
Proof. intros c r p r' H. inversion H; subst. reflexivity. Qed.
Lemma ex_random_steps : forall tab, random_steps ex_wstd (exsmc tab).
Proof. intros tab theta wts r tau r' H k Hk. injection H as <- _. destruct Hk. Qed.

(** A whole fit (hypotheses of C93_population), and a network of constants, functions, random nodes
    and given values. *)
Example C93_example_fit : exists st r', ex_fit tab_a = Some (Ok st, r') /\ built (dm_bn (exsmc tab_a)) /\ NoDup (dkeys (dm_exo (exsmc tab_a)))
  /\ random_steps ex_wstd (exsmc tab_a) /\ keeps_pars exsim /\ Forall (fun p => valid exnet [("a", PZ 1); ("s", PZ 2)] (p_pars p)) (s_pts st).
Proof.
  destruct C57_example_fit as (st & r' & E & _). exists st, r'.
  assert (B : built (dm_bn (exsmc tab_a))) by exact exnet_built.
  assert (Nd : NoDup (dkeys (dm_exo (exsmc tab_a)))) by (repeat constructor; simpl; intuition discriminate).
  splits; auto; [apply ex_random_steps|apply ex_keeps|].
  refine (proj1 (C93_population _ _ _ _ _ _ _ _ _ _ _ None _ _ _ _ _ _ B Nd (ex_random_steps _) ex_keeps _ E)). intros ps p0 K. discriminate K.
Qed.

(** Two models that differ, but not on valid parameters (hypotheses of C93_smc_simulates). *)
Definition ex_other (c : chrom exw) (r : RNG exw) : res (particle exw flt) * RNG exw :=
  if dmem "z" (ch_locus c) then exsim c r else (Err KeyError, r).
Example C93_example_agree : agree (exsmc tab_a) exsim ex_other /\ exists c r, exsim c r <> ex_other c r.
Proof.
  split.
  - intros c r (V1 & _). unfold ex_other. replace (dmem "z" (ch_locus c)) with true; auto. symmetry. apply dmem_In. apply V1. left.
    apply node_dec_true. vm_compute. reflexivity.
  - exists (mkChrom (w:=exw) [] LNan), 0. intros H. discriminate H.
Qed.

(** Starting values (hypothesis of all theorems with set_parents). *)
Definition ex_parents : list (dict (V exw)) := [[("x", PZ 2)]].
Definition ex_one : cfg := mkCfg 1 false 1 (1 / 8) 1 5 0.
Definition ex_given (y : bool) : dmodel exw flt :=
  mkDM (dm_data (exsmc tab_a)) exnet ((if y then [("y", PZ 9)] else []) ++ [("a", PZ 1); ("s", PZ 2)]) ["x"].
Notation ex_start y := (initialise exsim ex_draw (fun r => r) 1 ex_one (ex_given y) (Some ex_parents) 0).

Lemma ex_pick : forall r, choice_c (w:=exw) ex_draw (fun r => r) 1 1 (ones 1) r = Some (Ok [0], r).
Proof.
  intros r. unfold choice_c. rewrite ones_fin by discriminate. cbn [repeat map length Nat.eqb].
  unfold choice. cbn [as_fin]. cbn [forallb rsum fold_right].
  replace (1 / INR 1)%R with 1%R by (simpl; field). 
  assert (E1 : rleb 0 1 = true) by (apply rleb_true; lra). assert (E2 : reqb (1 + 0) 1 = true) by (apply reqb_true; lra).
  rewrite E1, E2. cbn [andb]. unfold ex_draw. cbn [first_pos]. replace (rltb 0 1) with true; [reflexivity|]. symmetry. apply rltb_true. lra.
Qed.
Definition ex_first (y : bool) : res (particle exw flt) :=
  match sample_fin_cont exsim 1 (ex_given y) false [("x", PZ 2)] 0 with Some (Ok (_, p, _), _) => Ok p | _ => Err OtherError end.
Lemma ex_start_ok : forall y p, ex_first y = Ok p -> exists st r', ex_start y = Some (Ok st, r') /\ s_pts st = [p].
Proof.
  intros y p H. unfold initialise. cbn [n_iter ex_one parallel]. cbv zeta. unfold ex_parents. cbn [List.length].
  unfold cbind at 1. unfold cbind at 1. match goal with |- context[choice_c ?a ?b ?c ?d ?e 0] => pose proof (ex_pick 0 : choice_c a b c d e 0 = Some (Ok [0], 0)) as P; destruct (choice_c a b c d e 0) as [[[ind|e0] r0]|] end;
    [|discriminate P|discriminate P]. injection P as -> ->. unfold cbind at 1. unfold cres at 1. cbn [pick mapM nth_error bind cmap].
  unfold ex_first in H. unfold cbind. destruct (sample_fin_cont exsim 1 (ex_given y) false [("x", PZ 2)] 0) as [[[[[d q] n]|e] r1]|]; [|discriminate H|discriminate H].
  injection H as <-. unfold cret at 1, cret at 1, cres. rewrite ones_fin by discriminate. cbn [ess_of repeat map]. eexists. eexists. split; reflexivity.
Qed.

Example C93_example_parents : exists st r' p, ex_start false = Some (Ok st, r') /\ s_pts st = [p] /\ dget (ch_locus (p_pars p)) "x" = Some (PZ 2)
  /\ (forall ps p0, Some ex_parents = Some ps -> In p0 ps -> free_start (dm_bn (ex_given false)) (dm_exo (ex_given false)) p0).
Proof.
  assert (X : match ex_first false with Ok p => dget (ch_locus (p_pars p)) "x" = Some (PZ 2) | _ => False end) by (vm_compute; reflexivity).
  destruct (ex_first false) as [p|] eqn:E; [|destruct X]. destruct (ex_start_ok false p E) as (st & r' & H1 & H2).
  exists st, r', p. split; [exact H1|]. split; [exact H2|]. split; [exact X|].
  intros ps p0 K. injection K as <-. intros [<-|[]]. split; [repeat constructor; simpl; auto|]. intros k [<-|[]]. split.
  - do 2 eexists. eexists. split; reflexivity.
  - intros x Hx. assert (Hx' : x = "a" \/ x = "s") by (simpl in Hx; intuition). split; [intros ->; destruct Hx' as [K|K]; discriminate K|].
    intros P. apply path_last in P. assert (Q : exists z, edge (dag exnet) z x) by (destruct P as [P|[z [_ P]]]; eauto).
    destruct Q as [z Q]. assert (Hl : holds exnet x (LExo x)) by (destruct Hx' as [-> | ->]; eexists; split; reflexivity).
    apply (co_parents _ exnet_coherent x _ Hl) in Q. destruct Q.
Qed.

(** Refuted without the condition on the starting values: a given value is overwritten in the
    population when a starting value is set above it. *)
Theorem C93_parents_refuted : exists w simulate draw draw_next fuel g (m : dmodel w flt) ps r st r',
  built (dm_bn m) /\ NoDup (dkeys (dm_exo m)) /\ keeps_pars simulate
  /\ (forall p0 k, In p0 ps -> In k (dkeys p0) -> (exists f qs, holds (dm_bn m) k (LDist k f qs)) /\ ~ In k (dkeys (dm_exo m)))
  /\ initialise simulate draw draw_next fuel g m (Some ps) r = Some (Ok st, r')
  /\ exists p x v, In p (s_pts st) /\ dget (dm_exo m) x = Some v /\ dget (ch_locus (p_pars p)) x <> Some v.
Proof.
  assert (X : match ex_first true with Ok p => match dget (ch_locus (p_pars p)) "y" with Some (PZ z) => Z.eqb z 9 = false | _ => False end | _ => False end) by (vm_compute; reflexivity).
  destruct (ex_first true) as [p|] eqn:E; [|destruct X]. destruct (ex_start_ok true p E) as (st & r' & H1 & H2).
  exists exw, exsim, ex_draw, (fun r => r), 1, ex_one, (ex_given true), ex_parents, 0, st, r'.
  split; [exact exnet_built|]. split; [repeat constructor; simpl; intuition discriminate|]. split; [exact ex_keeps|]. split.
  { intros p0 k [<-|[]] [<-|[]]. split; [do 2 eexists; eexists; split; reflexivity|simpl; intuition discriminate]. }
  split; [exact H1|]. exists p, "y", (PZ 9). split; [rewrite H2; left; auto|]. split; [reflexivity|].
  intros K. rewrite K in X. discriminate X.
Qed.
Print Assumptions C93_parents_refuted.
