(** * Property C111: the tables of a posterior sample *)

Require Import Coq.Reals.Reals Coq.micromega.Lia Coq.ZArith.ZArith.
Require Import Verif.Base Verif.World Verif.ModelGraph Verif.ModelExpr Verif.ModelLoci Verif.ModelBN Verif.ModelSample
        Verif.Spec Verif.SpecBN Verif.SpecSample Verif.SpecChrom Verif.ModelFitBase Verif.ModelFloat Verif.ModelResample
        Verif.ModelTargets Verif.ModelConverter Verif.ModelABC Verif.ModelHME Verif.ModelSMC Verif.ModelExport
        Verif.ProofBase Verif.ProofGraph Verif.ProofBN Verif.ProofBNHist Verif.ProofSample Verif.ProofFloat Verif.ProofSMC
        Verif.PropsFitBase Verif.PropsSample Verif.PropsChrom Verif.PropsResample Verif.PropsABC Verif.PropsSMC
        Verif.PropsSMCMut Verif.PropsSpread Verif.PropsHME Verif.PropsPost Verif.ExWorld Verif.PropsBN Verif.PropsSound.
Local Open Scope nat_scope.

(** ** Specification *)

Section Tables.
  Context {w : world}.
  (** the cell of row i in the column named c: None if there is no such row or column *)
  Definition has_cell (f : frame w) (i : nat) (c : name) (v : option (V w)) : Prop :=
    exists row j, nth_error (f_rows f) i = Some row /\ nth_error (f_columns f) j = Some c /\ nth_error row j = Some v.
  (** no gaps *)
  Definition complete (f : frame w) : Prop := forall i c v, has_cell f i c v -> v <> None.
  (** dictionaries with the same keys *)
  Definition same_keys (l : list (dict (V w))) : Prop := forall d d' c, In d l -> In d' l -> In c (dkeys d) -> In c (dkeys d').

  Lemma columns_in : forall (l : list (dict (V w))) acc c, In c (fold_left (fun acc d => union acc (dkeys d)) l acc) <-> In c acc \/ exists d, In d l /\ In c (dkeys d).
  Proof.
    induction l as [|d l IH]; intros acc c; cbn [fold_left].
    - split; [auto|]. intros [H|(d & [] & _)]; auto.
    - rewrite IH, union_In. split.
      + intros [[H|H]|(d' & H1 & H2)]; [auto|right; exists d; split; [left; auto|auto]|right; exists d'; split; [right; auto|auto]].
      + intros [H|(d' & [<-|H1] & H2)]; [auto|auto|right; eauto].
  Qed.
  Lemma columns_NoDup : forall (l : list (dict (V w))) acc, NoDup acc -> NoDup (fold_left (fun acc d => union acc (dkeys d)) l acc).
  Proof. induction l as [|d l IH]; intros acc H; cbn [fold_left]; auto. apply IH. apply union_NoDup. auto. Qed.
  Lemma union_same : forall b a, (forall x, In x b -> In x a) -> union a b = a.
  Proof.
    unfold union. induction b as [|x b IH]; intros a H; cbn [fold_left]; auto. unfold sadd at 2.
    replace (mem x a) with true; [apply IH; intros y Hy; apply H; right; auto|]. symmetry. apply mem_In. apply H. left. auto.
  Qed.
  Lemma union_fresh : forall b a, NoDup (a ++ b) -> union a b = a ++ b.
  Proof.
    unfold union. induction b as [|x b IH]; intros a H; cbn [fold_left]; [rewrite app_nil_r; auto|]. unfold sadd at 2.
    replace (mem x a) with false; [rewrite IH; rewrite <- app_assoc; auto|]. symmetry. apply mem_false. intros K.
    apply NoDup_remove_2 in H. apply H. apply in_or_app. auto.
  Qed.
  Lemma columns_first : forall d (l : list (dict (V w))), NoDup (dkeys d) -> same_keys (d :: l) -> frame_columns (d :: l) = dkeys d.
  Proof.
    intros d l N S. unfold frame_columns. cbn [fold_left]. rewrite (union_fresh (dkeys d) []) by exact N. cbn [app].
    assert (K : forall d', In d' l -> forall c, In c (dkeys d') -> In c (dkeys d)).
    { intros d' H c Hc. exact (S d' d c (or_intror H) (or_introl eq_refl) Hc). }
    clear S. induction l as [|d' l IH]; cbn [fold_left]; auto. rewrite union_same; [apply IH; intros d2 H; apply K; right; auto|apply K; left; auto].
  Qed.
End Tables.

(** The columns are the keys of all dictionaries, each once; row i has the values of the i-th
    dictionary, and a gap where it has no value. *)
Theorem C111_cells : forall w (l : list (dict (V w))), let f := make_frame l in
  NoDup (f_columns f) /\ (forall c, In c (f_columns f) <-> exists d, In d l /\ In c (dkeys d)) /\ length (f_rows f) = length l
  /\ forall i c v, has_cell f i c v <-> In c (f_columns f) /\ exists d, nth_error l i = Some d /\ v = dget d c.
Proof.
  intros w l f. unfold f, make_frame. cbn [f_columns f_rows]. splits.
  - apply columns_NoDup. constructor.
  - intros c. unfold frame_columns. rewrite columns_in. split; [intros [[]|H]; auto|auto].
  - apply map_length.
  - intros i c v. unfold has_cell. cbn [f_columns f_rows]. split.
    + intros (row & j & H1 & H2 & H3). rewrite nth_error_map in H1. destruct (nth_error l i) as [d|] eqn:D; [|discriminate H1]. injection H1 as <-.
      rewrite nth_error_map, H2 in H3. injection H3 as <-. split; [eapply nth_error_In; eauto|eauto].
    + intros (H & d & D & ->). apply In_nth_error in H. destruct H as [j H]. exists (map (dget d) (frame_columns l)), j.
      rewrite !nth_error_map, D, H. auto.
Qed.
Print Assumptions C111_cells.

(** There are no gaps exactly if all dictionaries have the same keys. *)
Theorem C111_complete : forall w (l : list (dict (V w))), complete (make_frame l) <-> same_keys l.
Proof.
  intros w l. destruct (C111_cells w l) as (_ & C2 & _ & C4). split.
  - intros H d d' c I I' K. apply In_nth_error in I'. destruct I' as [i I']. destruct (dget d' c) as [v|] eqn:G; [apply dget_In; eauto|].
    exfalso. apply (H i c None); auto. apply C4. split; [apply C2; eauto|]. exists d'. rewrite G. auto.
  - intros S i c v H. apply C4 in H. destruct H as (H & d & D & ->). apply C2 in H. destruct H as (d0 & I & K).
    apply nth_error_In in D. specialize (S _ _ _ I D K). apply dget_In in S. destruct S as [v ->]. discriminate.
Qed.
Print Assumptions C111_complete.

(** ** What every particle kept by ABC-SMC has *)

Section Kept.
  Context {w : world} (lp_isinf : LP w -> bool) {step : Type} (normal : step -> RNG w -> V w * RNG w) (vadd : V w -> V w -> res (V w)).
  Context (draw : RNG w -> list R -> nat -> list nat) (draw_next : RNG w -> RNG w) (unif : RNG w -> R * RNG w).
  Context (wstd : dmodel w flt -> list (particle w flt) -> list flt -> RNG w -> res (dict step) * RNG w).
  Context (m : dmodel w flt) (s : chrom w -> RNG w -> res (particle w flt) * RNG w) (good : particle w flt -> Prop).
  (** a simulated particle that has been measured has the property; measuring and copying keep it *)
  Context (Hn : forall c r p r1 r2 d q r3, s c r = (Ok p, r1) -> distance m p r2 = Some (Ok (d, q), r3) -> good q).
  Context (Hmeas : forall p r d q r', good p -> distance m p r = Some (Ok (d, q), r') -> good q).
  Context (Hc : forall p, good p -> good (pt_copy p)).

  Lemma attempt_good : forall r d p r', attempt s m r = Some (Ok (d, p), r') -> good p.
  Proof.
    intros r d p r' H. unfold attempt in H. apply cbind_ok in H. destruct H as (c & r1 & H1 & H). apply cbind_ok in H. destruct H as (q & r2 & H2 & H).
    unfold clift in H2. injection H2 as H2. eapply Hn; eauto.
  Qed.
  Lemma attempt_from_good : forall p0 r d p r', attempt_from s m p0 r = Some (Ok (d, p), r') -> good p.
  Proof.
    intros p0 r d p r' H. unfold attempt_from in H. apply cbind_ok in H. destruct H as (c & r1 & H1 & H). apply cbind_ok in H. destruct H as (c' & r2 & H2 & H).
    apply cbind_ok in H. destruct H as (q & r3 & H3 & H). unfold clift in H3. injection H3 as H3. eapply Hn; eauto.
  Qed.
  Lemma seek_good : forall (d : comp (RNG w) (flt * particle w flt)), (forall r x p r', d r = Some (Ok (x, p), r') -> good p) ->
    forall fuel test di n sim r di' sim' n' r', (forall p, sim = Some p -> good p) ->
    seek fuel d test di n sim r = Some (Ok (di', sim', n'), r') -> forall p, sim' = Some p -> good p.
  Proof.
    intros d Hd fuel. induction fuel as [|f IH]; intros test di n sim r di' sim' n' r' Hs H; cbn [seek] in H; destruct (test di);
      try discriminate H; try (unfold cret in H; injection H as _ <- _ _; exact Hs).
    apply cbind_ok in H. destruct H as ([x q] & r1 & H1 & H). refine (IH _ _ _ _ _ _ _ _ _ _ H). cbn [snd]. intros p K. injection K as <-. eapply Hd; eauto.
  Qed.
  Lemma sample_fin_good : forall fuel par r di p n r', sample_fin s fuel m par r = Some (Ok (di, p, n), r') -> good p.
  Proof.
    intros fuel par r di p n r' H. unfold sample_fin in H. apply cbind_ok in H. destruct H as ([[x o] k] & r1 & H1 & H).
    apply cbind_ok in H. destruct H as (q & r2 & H2 & H). unfold cret in H. injection H as _ <- _ _. rewrite through_id.
    refine (seek_good _ attempt_good _ _ _ _ None _ _ _ _ _ _ H1 q _); [intros ? K; discriminate K|].
    unfold cres in H2. destruct o; cbn in H2; [congruence|discriminate H2].
  Qed.
  Lemma sample_fin_cont_good : forall fuel par p0 r di p n r', sample_fin_cont s fuel m par p0 r = Some (Ok (di, p, n), r') -> good p.
  Proof.
    intros fuel par p0 r di p n r' H. unfold sample_fin_cont in H. apply cbind_ok in H. destruct H as ([[x o] k] & r1 & H1 & H).
    apply cbind_ok in H. destruct H as (q & r2 & H2 & H). unfold cret in H. injection H as _ <- _ _. rewrite through_id.
    refine (seek_good _ (attempt_from_good p0) _ _ _ _ None _ _ _ _ _ _ H1 q _); [intros ? K; discriminate K|].
    unfold cres in H2. destruct o; cbn in H2; [congruence|discriminate H2].
  Qed.
  Lemma mut_loop_good : forall src tau, (forall p, src = SPt p -> good p) -> forall fuel di n sim r d o k r', (forall p, sim = Some (SPt p) -> good p) ->
    mut_loop s lp_isinf normal vadd fuel m src tau di n sim r = Some (Ok (d, o, k), r') -> forall p, o = Some (SPt p) -> good p.
  Proof.
    intros src tau Hs fuel. induction fuel as [|f IH]; intros di n sim r d o k r' Hsim H; cbn [mut_loop] in H; destruct (isinf di);
      try discriminate H; try (unfold cret in H; injection H as _ <- _ _; exact Hsim).
    apply cbind_ok in H. destruct H as (p1 & r1 & H1 & H). apply cbind_ok in H. destruct H as (c & r2 & H2 & H).
    destruct (lp_isinf (ch_lp c)); [exact (IH _ _ _ _ _ _ _ _ Hsim H)|].
    apply cbind_ok in H. destruct H as (q & r3 & H3 & H). apply cbind_ok in H. destruct H as ([x q'] & r4 & H4 & H).
    destruct (20 <? S n).
    - apply cbind_ok in H. destruct H as (d' & r5 & _ & H). unfold cret in H. injection H as _ <- _ _. intros p K. injection K as ->. auto.
    - refine (IH _ _ _ _ _ _ _ _ _ H). cbn [snd]. intros p K. injection K as <-. unfold clift in H3. injection H3 as H3. eapply Hn; eauto.
  Qed.
  Lemma sample_mutation_good : forall fuel par tau p r di q n r', good p -> sample_mutation s lp_isinf normal vadd fuel m par tau p r = Some (Ok (di, q, n), r') -> good q.
  Proof.
    intros fuel par tau p r di q n r' Hp H. unfold sample_mutation in H. apply cbind_ok in H. destruct H as ([[x o] k] & r1 & H1 & H).
    apply cbind_ok in H. destruct H as (q1 & r2 & H2 & H). apply cbind_ok in H. destruct H as (q2 & r3 & H3 & H). unfold cret in H. injection H as _ <- _ _.
    unfold cres in H2, H3. destruct q1 as [q1|j]; [|discriminate H3]. injection H3 as <- _. rewrite through_id.
    refine (mut_loop_good _ tau _ fuel PInf 0 None r x o k r1 _ H1 q1 _); [destruct par; intros ? K; inversion K; subst; auto|intros ? K; discriminate K|].
    destruct o; cbn in H2; [congruence|discriminate H2].
  Qed.
  Lemma distances_good : forall theta r ds theta' r', Forall good theta -> distances m theta r = Some (Ok (ds, theta'), r') -> Forall good theta'.
  Proof.
    intros theta r ds theta' r' F H. unfold distances in H. apply cbind_ok in H. destruct H as (l & r1 & H1 & H). unfold cret in H. injection H as _ <- _.
    apply Forall_map. refine (proj1 (cmap_forall _ _ _ _ (fun x => good (snd x)) _ _ _ _ _ H1)).
    intros a r2 [d b] r3 Ia E. cbn [snd]. rewrite Forall_forall in F. exact (Hmeas a r2 d b r3 (F a Ia) E).
  Qed.
  Lemma pick_good : forall theta ind l, Forall good theta -> pick theta ind = Ok l -> Forall good l.
  Proof.
    intros theta ind l F H. apply ProofSMC.pick_spec in H. apply Forall_forall. intros p Hp. apply In_nth_error in Hp. destruct Hp as [i Hp].
    destruct (proj2 H _ _ Hp) as (k & _ & Hk). apply nth_error_In in Hk. rewrite Forall_forall in F. auto.
  Qed.
  Lemma select_good : forall acc tp t1 r ps k r', Forall good tp -> Forall good t1 -> select unif acc tp t1 r = Some (Ok (ps, k), r') -> Forall good ps.
  Proof.
    induction acc as [|a acc IH]; intros tp t1 r ps k r' F1 F2 H; cbn [select] in H; [unfold cret in H; injection H as <- _ _; constructor|].
    apply cbind_ok in H. destruct H as (u & r1 & _ & H). apply cbind_ok in H. destruct H as (p & r2 & H2 & H). apply cbind_ok in H. destruct H as ([l n] & r3 & H3 & H).
    unfold cret in H. injection H as <- _ _. constructor.
    - unfold cres in H2. destruct (rltb u (if a then 1%R else 0%R)).
      + destruct tp as [|q tp]; [discriminate H2|]. injection H2 as <- _. inversion F1; auto.
      + destruct t1 as [|q t1]; [discriminate H2|]. injection H2 as <- _. inversion F2; auto.
    - refine (IH _ _ _ _ _ _ _ _ H3); [destruct tp|destruct t1]; cbn; auto; [inversion F1|inversion F2]; auto.
  Qed.
  Lemma a_round_good : forall fuel g st r st' r', Forall good (s_pts st) ->
    a_round s lp_isinf normal vadd wstd draw draw_next unif fuel g m st r = Some (Ok st', r') -> Forall good (s_pts st').
  Proof.
    intros fuel g st r st' r' F H. unfold a_round in H. apply cbind_ok in H. destruct H as ([e th] & r1 & H1 & H).
    apply cbind_ok in H. destruct H as ([ws th'] & r2 & H2 & H). apply cbind_ok in H. destruct H as ([ws' th1] & r3 & H3 & H).
    apply cbind_ok in H. destruct H as ([[pts ess] acc] & r4 & H4 & H). unfold cret in H. injection H as <- _. cbn [s_pts].
    assert (F1 : Forall good th).
    { unfold find_eps in H1. apply cbind_ok in H1. destruct H1 as ([ds th0] & q1 & K1 & K). apply cbind_ok in K. destruct K as (q & q2 & _ & K).
      unfold cret in K. injection K as _ <- _. eapply distances_good; eauto. }
    assert (F2 : Forall good th').
    { unfold update_wts in H2. apply cbind_ok in H2. destruct H2 as ([ds th0] & q1 & K1 & K). apply cbind_ok in K. destruct K as (q & q2 & _ & K).
      unfold cret in K. injection K as _ <- _. eapply distances_good; eauto. }
    assert (C : forall l, Forall good l -> Forall good (map (fun p : particle w flt => pt_copy p) l)).
    { intros l Fl. apply Forall_map. eapply Forall_impl; [|exact Fl]. intros p Hp. auto. }
    assert (F3 : Forall good th1).
    { unfold resample_smc in H3. destruct (2 <? count _ ws); [|discriminate H3]. destruct (fltb (Fin 1) _).
      - apply cbind_ok in H3. destruct H3 as (ind & q1 & _ & K). apply cbind_ok in K. destruct K as (l & q2 & K2 & K). unfold cret in K. injection K as _ <- _.
        unfold cres in K2. injection K2 as K2 _. apply C. eapply pick_good; eauto.
      - unfold cret in H3. injection H3 as _ <- _. auto. }
    unfold mcmc_proposal in H4. apply cbind_ok in H4. destruct H4 as (tau & q1 & K1 & K). apply cbind_ok in K. destruct K as (sp & q2 & K2 & K).
    apply cbind_ok in K. destruct K as (mk & q3 & _ & K). apply cbind_ok in K. destruct K as ([sl n] & q4 & K4 & K).
    apply cbind_ok in K. destruct K as (es & q5 & _ & K). apply cbind_ok in K. destruct K as (a & q6 & _ & K). unfold cret in K. injection K as <- _ _ _.
    refine (select_good _ _ _ _ _ _ _ _ F3 K4). apply Forall_map.
    refine (proj1 (cmap_forall _ _ _ _ (fun x => good (snd (fst x))) _ _ _ _ _ K2)). intros p q7 [[d q] n'] q8 Ip E. cbn [fst snd].
    rewrite Forall_forall in F3. exact (sample_mutation_good _ _ _ _ _ _ _ _ _ (F3 p Ip) E).
  Qed.
  Lemma update_good : forall rounds fuel g st r st' r', Forall good (s_pts st) ->
    update s lp_isinf normal vadd wstd draw draw_next unif rounds fuel g m st r = Some (Ok st', r') -> Forall good (s_pts st').
  Proof.
    induction rounds as [|n IH]; intros fuel g st r st' r' F H; cbn [update] in H; [discriminate H|].
    apply cbind_ok in H. destruct H as (st1 & r1 & H1 & H). apply a_round_good in H1; auto. destruct (check_termination g st1).
    - unfold cret in H. injection H as <- _. auto.
    - eapply IH; eauto.
  Qed.
  Lemma initialise_good : forall fuel g pars0 r st r', initialise s draw draw_next fuel g m pars0 r = Some (Ok st, r') -> Forall good (s_pts st).
  Proof.
    intros fuel g pars0 r st r' H. unfold initialise in H. apply cbind_ok in H. destruct H as (samples & r1 & H1 & H).
    apply cbind_ok in H. destruct H as (ess & r2 & _ & H). unfold cret in H. injection H as <- _. cbn [s_pts]. apply Forall_map.
    destruct pars0 as [ps|].
    - apply cbind_ok in H1. destruct H1 as (ind & q1 & _ & H1). apply cbind_ok in H1. destruct H1 as (p0s & q2 & H2 & H1).
      refine (proj1 (cmap_forall _ _ _ _ (fun x => good (snd (fst x))) _ _ _ _ _ H1)). intros p0 q3 [[d q] n'] q4 Ip E. cbn [fst snd].
      eapply sample_fin_cont_good; eauto.
    - refine (proj1 (cmap_forall _ _ _ _ (fun x => good (snd (fst x))) _ _ _ _ _ H1)). intros p0 q3 [[d q] n'] q4 Ip E. cbn [fst snd].
      eapply sample_fin_good; eauto.
  Qed.
  Lemma collect_sub : forall eps (t1 tp l : list (particle w flt)), collect_smc eps t1 tp = Ok l -> forall p, In p l -> In p t1.
  Proof.
    intros eps t1. induction t1 as [|q t1 IH]; intros tp l H; cbn [collect_smc] in H; [injection H as <-; intros p []|].
    destruct tp as [|qp tp]; [injection H as <-; intros p []|]. apply bind_ok in H. destruct H as (d & _ & H). apply bind_ok in H. destruct H as (l' & H1 & H).
    assert (El : q :: l' = l) by (destruct (fltb d eps); injection H as <-; auto). subst l. intros p [<-|Hp]; [left; auto|right; eapply IH; eauto].
  Qed.
  Lemma posteriors_good : forall fuel g st n r l r', Forall good (s_pts st) ->
    smc_posteriors s lp_isinf normal vadd wstd draw draw_next fuel g m st n r = Some (Ok l, r') -> Forall good l.
  Proof.
    intros fuel g st n r l r' F H. unfold smc_posteriors in H. apply cbind_ok in H. destruct H as (ind & r1 & _ & H). apply cbind_ok in H. destruct H as (th & r2 & H2 & H).
    apply cbind_ok in H. destruct H as (tau & r3 & _ & H). apply cbind_ok in H. destruct H as (sp & r4 & _ & H).
    unfold cres in H, H2. injection H2 as H2 _. injection H as H _. pose proof (pick_good _ _ _ F H2) as F2. rewrite Forall_forall in F2.
    apply Forall_forall. intros p Hp. apply F2. eapply collect_sub; eauto.
  Qed.
End Kept.

Section Noted.
  Context {w : world} (m : dmodel w flt).
  (** the note Ys holds the simulated values of the targets and nothing else *)
  Definition noted (p : particle w flt) : Prop :=
    exists ys, p_ys p = Some ys /\ dkeys ys = dkeys (dm_data m) /\ (forall c, In c (dkeys (dm_data m)) -> dget ys c = dget (p_sims p) c).
  (** simulate returns a particle without notes on its outputs *)
  Definition no_notes (s : chrom w -> RNG w -> res (particle w flt) * RNG w) : Prop :=
    forall c r p r', s c r = (Ok p, r') -> p_ys p = None /\ p_distance p = None.

  Lemma picked_noted : forall p ys, p_ys p = Some ys -> ModelFitBase.pick (p_sims p) (dkeys (dm_data m)) = Ok ys -> noted p.
  Proof.
    intros p ys H P. apply PropsFitBase.pick_spec in P. destruct P as [P1 P2]. exists ys. splits; auto. intros c Hc. rewrite P2.
    apply mem_In in Hc. rewrite Hc. auto.
  Qed.
  Lemma flatten_noted : forall p r q r', flatten_c m p r = Some (Ok q, r') -> noted q /\ p_sims q = p_sims p /\ p_pars q = p_pars p.
  Proof.
    intros p r q r' H. unfold flatten_c, flatten in H. destruct (dm_domain m r) as [[dom|e] r4]; [|discriminate H].
    destruct (mapM _ dom) as [xs|e] in H; [|discriminate H]. destruct (ModelFitBase.pick _ _) as [ys|e] eqn:P in H; [|discriminate H].
    injection H as <- _. splits; auto. apply (picked_noted _ ys); auto.
  Qed.
  Lemma distance_noted : forall p r d q r', (p_ys p = None /\ p_distance p = None) \/ noted p -> distance m p r = Some (Ok (d, q), r') -> noted q.
  Proof.
    intros p r d q r' N H. unfold distance, calc_distance in H. destruct N as [[N1 N2]|N].
    - rewrite N2 in H. unfold need_ys in H. rewrite N1 in H. unfold flatten in H. destruct (dm_domain m r) as [[dom|e] r1]; [|discriminate H].
      destruct (mapM _ dom) as [xs|e] in H; [|discriminate H]. destruct (ModelFitBase.pick _ _) as [ys|e] eqn:P in H; [|discriminate H].
      cbn [pt_set_ys pt_set_xs p_ys] in H. destruct (total (Fin 0) fadd t_dist (dm_data m) ys) as [x|e]; [|discriminate H].
      injection H as _ <- _. apply (picked_noted _ ys); auto.
    - destruct (p_distance p) as [d0|]; [injection H as _ <- _; auto|]. unfold need_ys in H. destruct N as (ys & N1 & N2 & N3). rewrite N1 in H.
      destruct (total (Fin 0) fadd t_dist (dm_data m) ys) as [x|e]; [|discriminate H]. injection H as _ <- _. exists ys. splits; auto.
  Qed.
  Lemma copy_noted : forall p, noted p -> noted (pt_copy p).
  Proof. intros p (ys & N1 & N2 & N3). exists ys. splits; auto. Qed.

  (** The table of the predictions of particles whose notes are right: the targets are the columns,
      in their order, without gaps, and the cells are the simulated values. *)
  Definition shows_targets (ps : list (particle w flt)) (f : frame w) : Prop :=
    complete f /\ length (f_rows f) = length ps /\ (ps <> [] -> f_columns f = dkeys (dm_data m))
    /\ forall i p c, nth_error ps i = Some p -> In c (dkeys (dm_data m)) -> has_cell f i c (dget (p_sims p) c).

  Lemma noted_frame : forall ps, NoDup (dkeys (dm_data m)) -> Forall noted ps -> exists f, to_pred_df ps = Ok f /\ shows_targets ps f.
  Proof.
    intros ps N F.
    assert (X : exists l, mapM (fun p : particle w flt => match p_ys p with Some ys => Ok ys | None => Err KeyError end) ps = Ok l
      /\ Forall2 (fun p ys => dkeys ys = dkeys (dm_data m) /\ forall c, In c (dkeys (dm_data m)) -> dget ys c = dget (p_sims p) c) ps l).
    { induction F as [|p ps (ys & N1 & N2 & N3) F (l & I1 & I2)]; [exists []; split; [reflexivity|constructor]|].
      exists (ys :: l). cbn [mapM]. rewrite N1. cbn [bind]. rewrite I1. split; [reflexivity|]. constructor; auto. }
    destruct X as (l & E & L). exists (make_frame l). unfold to_pred_df. rewrite E. split; [reflexivity|].
    assert (K : forall d, In d l -> dkeys d = dkeys (dm_data m)).
    { clear -L. induction L as [|p d ps l [L1 _] L IH]; intros d' []; subst; auto. }
    assert (S : same_keys l) by (intros d d' c I I' H; rewrite (K d' I'), <- (K d I); auto).
    assert (C : ps <> [] -> frame_columns l = dkeys (dm_data m)).
    { intros H. destruct L as [|p d ps l L1 L]; [congruence|]. rewrite columns_first; auto; [apply K; left; auto|rewrite (K d (or_introl eq_refl)); auto]. }
    split; [apply C111_complete; auto|]. split.
    { destruct (C111_cells w l) as (_ & _ & H & _). rewrite H. clear -L. induction L; simpl; auto. }
    split; [exact C|]. intros i p c Hi Hc. destruct (C111_cells w l) as (_ & _ & _ & H). apply H. split.
    - cbn [f_columns make_frame]. rewrite C; auto. intros ->. destruct i; discriminate Hi.
    - clear -L Hi Hc. revert i Hi. induction L as [|q d ps l [L1 L2] L IH]; intros i Hi; [destruct i; discriminate Hi|].
      destruct i as [|i]; cbn [nth_error] in *; [injection Hi as <-; exists d; split; auto; symmetry; auto|auto].
  Qed.
End Noted.

(** After any fit of ABC-SMC the table of predictions can be made of the posterior sample. *)
Theorem C111_smc : forall w simulate lp_isinf (step : Type) normal vadd draw draw_next unif wstd (m : dmodel w flt) pars0 rounds fuel g r st r' fuel' n r1 l r2,
  no_notes simulate -> NoDup (dkeys (dm_data m)) ->
  smc_fit simulate lp_isinf (step:=step) normal vadd wstd draw draw_next unif rounds fuel g m pars0 r = Some (Ok st, r') ->
  smc_posteriors simulate lp_isinf normal vadd wstd draw draw_next fuel' g m st n r1 = Some (Ok l, r2) ->
  exists f, to_pred_df l = Ok f /\ shows_targets m l f.
Proof.
  intros w simulate lp_isinf step normal vadd draw draw_next unif wstd m pars0 rounds fuel g r st r' fuel' n r1 l r2 P N H E.
  assert (Hn : forall c r p r1 r2 d q r3, simulate c r = (Ok p, r1) -> distance m p r2 = Some (Ok (d, q), r3) -> noted m q).
  { intros c q1 p q2 q3 d q q4 H1 H2. eapply distance_noted; [left; eapply P; exact H1|exact H2]. }
  assert (Hmeas : forall p r d q r', noted m p -> distance m p r = Some (Ok (d, q), r') -> noted m q).
  { intros p q1 d q q2 H1 H2. eapply distance_noted; [right; exact H1|exact H2]. }
  unfold smc_fit in H. apply cbind_ok in H. destruct H as (st0 & r0 & H1 & H2).
  apply noted_frame; auto. eapply posteriors_good; [|exact E].
  eapply update_good; [exact Hn|exact Hmeas|apply copy_noted| |exact H2]. eapply initialise_good; [exact Hn|exact H1].
Qed.
Print Assumptions C111_smc.

(** The same for ABC by rejection, whatever notes simulate leaves, *)
Theorem C111_abc : forall w simulate (m : dmodel w flt) fuel par eps n r l acc ne r', NoDup (dkeys (dm_data m)) ->
  abc_posteriors simulate fuel m par eps n r = Some (Ok (l, acc, ne), r') -> exists f, to_pred_df l = Ok f /\ shows_targets m l f.
Proof.
  intros w simulate m fuel par eps n r l acc ne r' N H. apply noted_frame; auto. unfold abc_posteriors in H. apply cbind_ok in H. destruct H as (sp & r1 & H1 & H).
  apply cbind_ok in H. destruct H as (post & r2 & H2 & H). apply cbind_ok in H. destruct H as (a & r3 & _ & H). unfold cret in H. injection H as <- _ _ _.
  destruct par; [|destruct sp; [unfold cret in H2; injection H2 as <- _; constructor|discriminate H2]].
  refine (proj1 (cmap_forall _ _ _ _ _ _ _ _ _ _ H2)). intros x q1 p q2 Ix E. eapply flatten_noted. exact E.
Qed.
Print Assumptions C111_abc.

(** and for history matching. *)
Theorem C111_hme : forall w simulate vflt rand (emu : Type) g (m : dmodel w flt) (st : hstate w emu) n r l bounds r', NoDup (dkeys (dm_data m)) ->
  h_posteriors simulate vflt rand g m st n r = Some (Ok (l, bounds), r') -> exists f, to_pred_df l = Ok f /\ shows_targets m l f.
Proof.
  intros w simulate vflt rand emu g m st n r l bounds r' N H. apply noted_frame; auto. unfold h_posteriors in H. apply cbind_ok in H. destruct H as (xss & r1 & _ & H).
  apply cbind_ok in H. destruct H as (ps & r2 & H2 & H). apply cbind_ok in H. destruct H as (dom & r3 & _ & H). unfold cret in H. injection H as <- _ _.
  refine (proj1 (cmap_forall _ _ _ _ _ _ _ _ _ _ H2)). intros x q1 p q2 Ix E. cbv beta in E. unfold h_run in E. apply cbind_ok in E. destruct E as (d & q3 & _ & E).
  apply cbind_ok in E. destruct E as (sim & q4 & _ & E). eapply flatten_noted. exact E.
Qed.
Print Assumptions C111_hme.

(** ** The table of the parameters *)

(** Of particles with valid parameters: a column for every node and every given value, no gaps,
    and the given values in their columns. *)
Definition shows_pars {w : world} (b : bn w) (exo : dict (V w)) (ps : list (particle w flt)) (f : frame w) : Prop :=
  complete f /\ length (f_rows f) = length ps /\ (ps <> [] -> forall c, In c (f_columns f) <-> node b c \/ In c (dkeys exo))
  /\ (forall i p, nth_error ps i = Some p -> forall c v, dget exo c = Some v -> has_cell f i c (Some v)).

Lemma valid_frame : forall w (b : bn w) exo ps, Forall (fun p : particle w flt => valid b exo (p_pars p)) ps -> shows_pars b exo ps (to_df ps).
Proof.
  intros w b exo ps F. rewrite Forall_forall in F. unfold to_df. set (l := map (fun p : particle w flt => ch_locus (p_pars p)) ps).
  assert (K : forall d, In d l -> forall c, In c (dkeys d) <-> node b c \/ In c (dkeys exo)).
  { intros d I c. apply in_map_iff in I. destruct I as (p & <- & I). apply (F p I). }
  destruct (C111_cells w l) as (_ & C2 & C3 & C4).
  assert (C : ps <> [] -> forall c, In c (f_columns (make_frame l)) <-> node b c \/ In c (dkeys exo)).
  { intros H c. rewrite C2. split; [intros (d & I & Hc); apply (K d I); auto|]. intros Hc. destruct ps as [|p ps]; [congruence|].
    exists (ch_locus (p_pars p)). split; [left; auto|]. apply K; auto. left. auto. }
  split; [apply C111_complete; intros d d' c I I' Hc; apply (K d' I'), (K d I); auto|].
  split; [rewrite C3; apply map_length|]. split; [exact C|]. intros i p Hi c v Hv. apply C4. split.
  - apply C; [intros ->; destruct i; discriminate Hi|]. right. apply dget_In. eauto.
  - exists (ch_locus (p_pars p)). split; [unfold l; rewrite nth_error_map, Hi; auto|]. apply nth_error_In in Hi. destruct (F p Hi) as (_ & V & _). symmetry. auto.
Qed.

Theorem C111_pars_smc : forall w simulate lp_isinf (step : Type) normal vadd draw draw_next unif wstd (m : dmodel w flt) pars0 rounds fuel g r st r' fuel' n r1 l r2,
  built (dm_bn m) -> NoDup (dkeys (dm_exo m)) -> random_steps (step:=step) wstd m -> keeps_pars simulate ->
  (forall ps p0, pars0 = Some ps -> In p0 ps -> free_start (dm_bn m) (dm_exo m) p0) ->
  smc_fit simulate lp_isinf normal vadd wstd draw draw_next unif rounds fuel g m pars0 r = Some (Ok st, r') ->
  smc_posteriors simulate lp_isinf normal vadd wstd draw draw_next fuel' g m st n r1 = Some (Ok l, r2) -> shows_pars (dm_bn m) (dm_exo m) l (to_df l).
Proof.
  intros w simulate lp_isinf step normal vadd draw draw_next unif wstd m pars0 rounds fuel g r st r' fuel' n r1 l r2 B Nd Ws K Fr H E.
  apply valid_frame. exact (proj2 (C93_population _ _ _ _ _ _ _ _ _ _ _ _ _ _ _ _ _ _ B Nd Ws K Fr H) _ _ _ _ _ E).
Qed.
Print Assumptions C111_pars_smc.

Theorem C111_pars_abc : forall w simulate (m : dmodel w flt) fuel par eps n r l acc ne r', built (dm_bn m) -> keeps_pars simulate ->
  abc_posteriors simulate fuel m par eps n r = Some (Ok (l, acc, ne), r') -> shows_pars (dm_bn m) (dm_exo m) l (to_df l).
Proof. intros w simulate m fuel par eps n r l acc ne r' B K H. apply valid_frame. eapply C93_abc_posterior; eauto. Qed.
Print Assumptions C111_pars_abc.

(** ** Examples *)

(** A gap where a dictionary has no value *)
Example C111_example_cells : make_frame (w:=exw) [[("a", PZ 1); ("b", PZ 2)]; [("c", PZ 3); ("a", PZ 4)]]
    = mkFrame (w:=exw) ["a"; "b"; "c"] [[Some (PZ 1); Some (PZ 2); None]; [Some (PZ 4); None; Some (PZ 3)]].
Proof. reflexivity. Qed.
Example C111_example_complete : same_keys (w:=exw) [[("a", PZ 1); ("b", PZ 2)]; [("b", PZ 3); ("a", PZ 4)]].
Proof. intros d d' c [<-|[<-|[]]] [<-|[<-|[]]]; simpl; tauto. Qed.

(** The posterior sample of C70_example: every node and every given value, and the target y *)
Example C111_example_tables :
  to_pred_df [ex_q tab_a 0; ex_q tab_a 4] = Ok (mkFrame (w:=exw) ["y"] [[Some (PZ 1)]; [Some (PZ 5)]])
  /\ forallb (fun c => mem c (f_columns (to_df [ex_q tab_a 0; ex_q tab_a 4]))) ["a"; "s"; "x"; "y"; "z"] = true
  /\ length (f_rows (to_df [ex_q tab_a 0; ex_q tab_a 4])) = 2.
Proof. vm_compute. splits; reflexivity. Qed.

(** The hypotheses of the theorems on fits (with C93_example_fit) *)
Example C111_example_fit : no_notes exsim /\ NoDup (dkeys (dm_data (exsmc tab_a))) /\ exists st r', ex_fit tab_a = Some (Ok st, r').
Proof.
  splits; [intros c r p r' H; inversion H; subst; auto|repeat constructor; simpl; tauto|].
  destruct C57_example_fit as (st & r' & E & _). eauto.
Qed.
Example C111_example_abc : exists f post acc r', abc_posteriors exsim 3 exabc true (Fin 2) 1 0 = Some (Ok (post, acc, 3), r')
  /\ to_pred_df post = Ok f /\ shows_targets exabc post f /\ shows_pars exnet [("a", PZ 1); ("s", PZ 2)] post (to_df post).
Proof.
  destruct C56_example_runs as [(post & acc & r' & E) _].
  destruct (C111_abc exw exsim exabc 3 true (Fin 2) 1 0 post acc 3 r' ltac:(repeat constructor; simpl; tauto) E) as (f & F1 & F2).
  exists f, post, acc, r'. splits; auto. exact (C111_pars_abc exw exsim exabc 3 true (Fin 2) 1 0 post acc 3 r' exnet_built ex_keeps E).
Qed.
Example C111_example_hme : exists g (st : hstate exw unit) r ps bounds r' f, h_posteriors exh_sim exh_v exh_rand g exabc st 2 r = Some (Ok (ps, bounds), r')
  /\ to_pred_df ps = Ok f /\ shows_targets exabc ps f /\ length ps = 2.
Proof.
  destruct C79_example as (g & st & r & ps & bounds & r' & _ & E & L & _).
  destruct (C111_hme exw exh_sim exh_v exh_rand unit g exabc st 2 r ps bounds r' ltac:(repeat constructor; simpl; tauto) E) as (f & F1 & F2).
  exists g, st, r, ps, bounds, r', f. splits; auto.
Qed.
