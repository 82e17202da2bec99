(** * Property C112: emulators by Gaussian processes *)

Require Import Coq.Reals.Reals Coq.micromega.Lia Coq.ZArith.ZArith.
Require Import Verif.Base Verif.World Verif.ModelGraph Verif.ModelExpr Verif.ModelLoci Verif.ModelBN Verif.ModelSample
        Verif.ModelFitBase Verif.ModelFloat Verif.ModelTargets Verif.ModelConverter Verif.ModelABC Verif.ModelHME Verif.ModelEmul Verif.ModelExport
        Verif.Spec Verif.SpecBN Verif.ProofBase Verif.ProofFloat Verif.PropsFitBase Verif.PropsABC Verif.ProofSMC Verif.ExWorld Verif.PropsBN
        Verif.PropsHME Verif.PropsPost Verif.PropsExport.
Local Open Scope nat_scope.

Section Emul.
  Context {w : world} {arr gp kern : Type}.
  Notation G := (RNG w).
  Context (new_kernel : kern) (as_array : list (list (V w)) -> res arr) (as_float : V w -> res flt) (build : arr -> list flt -> kern -> res gp).
  Context (optimise : gp -> kern -> G -> res unit * gp * kern * G) (predict_f : gp -> list (list R) -> res (list flt * list flt)).
  Notation train := (gpr_train as_array as_float build optimise).
  Notation train' := (train_in_fit as_array as_float build optimise).
  Notation predict := (gpr_predict predict_f).

  (** [p] is a process on the inputs and the values of one output, with the kernel [k] *)
  Definition process_of (k : kern) (out : name) (xs : list (list (V w))) (ys : list (dict (V w))) (p : gp) : Prop :=
    exists a col, as_array xs = Ok a /\ build a col k = Ok p
      /\ Forall2 (fun y v => exists u, dget y out = Some u /\ as_float u = Ok v) ys col.

  Lemma column_ok : forall out ys us col, mapM (fun y => dgetE y out) ys = Ok us -> mapM as_float us = Ok col ->
    Forall2 (fun (y : dict (V w)) v => exists u, dget y out = Some u /\ as_float u = Ok v) ys col.
  Proof.
    intros out ys. induction ys as [|y ys IH]; intros us col H1 H2; cbn [mapM] in H1; [injection H1 as <-; injection H2 as <-; constructor|].
    apply bind_ok in H1. destruct H1 as (u & U & H1). apply bind_ok in H1. destruct H1 as (us' & H1 & E). injection E as <-.
    cbn [mapM] in H2. apply bind_ok in H2. destruct H2 as (v & V1 & H2). apply bind_ok in H2. destruct H2 as (col' & H2 & E). injection E as <-.
    constructor; [|eapply IH; eauto]. exists u. split; auto. unfold dgetE in U. destruct (dget y out); congruence.
  Qed.
  Lemma column_all : forall out (ys : list (dict (V w))), (exists us, mapM (fun y => dgetE y out) ys = Ok us) \/ mapM (fun y => dgetE y out) ys = Err KeyError.
  Proof.
    intros out ys. induction ys as [|y ys IH]; cbn [mapM]; [left; exists []; reflexivity|]. destruct (dget y out) as [v|] eqn:D; [|right; unfold dgetE at 1; rewrite D; reflexivity].
    replace (dgetE y out) with (Ok v : res (V w)) by (unfold dgetE; rewrite D; reflexivity).
    cbn [bind]. destruct IH as [[us E]|E]; [rewrite E; left; exists (v :: us); reflexivity|rewrite E; right; reflexivity].
  Qed.
  Lemma column_missing : forall out (ys : list (dict (V w))), mapM (fun y => dgetE y out) ys = Err KeyError <-> exists y, In y ys /\ dget y out = None.
  Proof.
    intros out ys. induction ys as [|y ys IH]; cbn [mapM]; [split; [discriminate|intros (y & [] & _)]|]. unfold dgetE at 1. destruct (dget y out) as [v|] eqn:D; cbn [bind].
    - split.
      + intros H. destruct (column_all out ys) as [[us E]|E]; [rewrite E in H; discriminate H|]. apply IH in E. destruct E as (z & I & Z). exists z. split; [right; auto|auto].
      + intros (z & [<-|I] & Z); [congruence|]. rewrite (proj2 IH) by eauto. reflexivity.
    - split; [|reflexivity]. intros _. exists y. split; [left; auto|auto].
  Qed.

  (** Training that succeeds; training with an output that a particle lacks. *)
  Lemma train_ok : forall e xs ys r e' r', train e xs ys r = (Ok tt, e', r') <->
    exists p p' k', process_of (g_kernel e) (g_out e) xs ys p /\ optimise p (g_kernel e) r = (Ok tt, p', k', r') /\ e' = mkGpr (g_out e) k' (Some p').
  Proof.
    intros e xs ys r e' r'. unfold gpr_train. split.
    - intros H. match type of H with match ?x with _ => _ end = _ => destruct x as [p|x0] eqn:E end; [|discriminate H].
      apply bind_ok in E. destruct E as (a & A & E). apply bind_ok in E. destruct E as (us & U & E). apply bind_ok in E. destruct E as (col & C & E).
      destruct (optimise p (g_kernel e) r) as [[[o p'] k'] r2] eqn:O. injection H as -> <- <-. exists p, p', k'. splits; auto.
      exists a, col. splits; auto. eapply column_ok; eauto.
    - intros (p & p' & k' & (a & col & A & E & C) & O & ->). rewrite A. cbn [bind].
      assert (X : exists us, mapM (fun y => dgetE y (g_out e)) ys = Ok us /\ mapM as_float us = Ok col).
      { clear -C. induction C as [|y v ys col (u & U1 & U2) C (us & I1 & I2)]; [exists []; split; reflexivity|]. exists (u :: us). cbn [mapM].
        unfold dgetE at 1. rewrite U1, I1, U2, I2. split; reflexivity. }
      destruct X as (us & X1 & X2). rewrite X1. cbn [bind]. rewrite X2. cbn [bind]. rewrite E, O. reflexivity.
  Qed.

  (** any sequence of trainings, whether or not they raise *)
  Inductive trained : gpr gp kern -> gpr gp kern -> Prop :=
  | tr_nil : forall e, trained e e
  | tr_cons : forall e xs ys r o e1 r1 e2, train e xs ys r = (o, e1, r1) -> trained e1 e2 -> trained e e2.

  Lemma trained_out : forall e e', trained e e' -> g_out e' = g_out e /\ (g_gp e <> None -> g_gp e' <> None).
  Proof.
    intros e e' T. induction T as [|e xs ys r o e1 r1 e2 H T IH]; auto. unfold gpr_train in H.
    match type of H with match ?x with _ => _ end = _ => destruct x as [p|x0] end.
    - destruct (optimise p (g_kernel e) r) as [[[o' p'] k'] r2]. injection H as _ <- _. cbn [g_out g_gp] in IH. destruct IH as [I1 I2]. split; auto.
      intros _. apply I2. discriminate.
    - injection H as _ <- _. auto.
  Qed.
End Emul.

(** What training does: it succeeds exactly if the inputs form an array, every particle has the
    output as a number, the process can be made and optimised. The emulator then has the optimised process and the
    changed kernel. A particle without the output means KeyError, and nothing is changed. *)
Theorem C112_train : forall (w : world) (arr gp kern : Type) as_array as_float (build : arr -> list flt -> kern -> res gp) optimise (e : gpr gp kern) xs (ys : list (dict (V w))) r,
  (forall e' r', gpr_train as_array as_float build optimise e xs ys r = (Ok tt, e', r') <->
     exists p p' k', process_of as_array as_float build (g_kernel e) (g_out e) xs ys p /\ optimise p (g_kernel e) r = (Ok tt, p', k', r') /\ e' = mkGpr (g_out e) k' (Some p'))
  /\ (forall a, as_array xs = Ok a -> (exists y, In y ys /\ dget y (g_out e) = None) -> gpr_train as_array as_float build optimise e xs ys r = (Err KeyError, e, r)).
Proof.
  intros w arr gp kern as_array as_float build optimise e xs ys r. split; [intros e' r'; apply train_ok|].
  intros a A M. apply column_missing in M. unfold gpr_train. rewrite A. cbn [bind]. rewrite M. reflexivity.
Qed.
Print Assumptions C112_train.

(** Asking an emulator that never got a process raises AssertionError; once it has one, it stays
    ready whatever happens in later trainings, and it never changes its output. *)
Theorem C112_ready : forall (w : world) (arr gp kern : Type) new_kernel as_array as_float (build : arr -> list flt -> kern -> res gp) optimise predict_f k (e : gpr gp kern),
  trained (w:=w) as_array as_float build optimise (gpr_new new_kernel k) e ->
  g_out e = k
  /\ (forall xs, g_gp e = None -> gpr_predict predict_f e xs = Err AssertionError)
  /\ forall e', trained as_array as_float build optimise e e' -> g_gp e <> None -> exists p, g_gp e' = Some p /\ forall xs, gpr_predict predict_f e' xs = predict_f p xs.
Proof.
  intros w arr gp kern new_kernel as_array as_float build optimise predict_f k e T. destruct (trained_out _ _ _ _ _ _ T) as [T1 _]. splits; auto.
  - intros xs N. unfold gpr_predict. rewrite N. reflexivity.
  - intros e' T' N. destruct (trained_out _ _ _ _ _ _ T') as [_ T2]. specialize (T2 N). destruct (g_gp e') as [p|] eqn:P; [|congruence].
    exists p. split; auto. intros xs. unfold gpr_predict. rewrite P. reflexivity.
Qed.
Print Assumptions C112_ready.

(** ** In history matching *)

Section Fit.
  Context {w : world} {arr gp kern : Type}.
  Notation G := (RNG w).
  Context (new_kernel : kern) (as_array : list (list (V w)) -> res arr) (as_float : V w -> res flt) (build : arr -> list flt -> kern -> res gp).
  Context (optimise : gp -> kern -> G -> res unit * gp * kern * G) (predict_f : gp -> list (list R) -> res (list flt * list flt)).
  Notation train := (train_in_fit as_array as_float build optimise).
  Notation predict := (gpr_predict predict_f).
  Context (simulate : dict (V w) -> G -> res (particle w flt) * G) (dom_of : Dist w -> domain) (vflt : flt -> V w).
  Context (lhs : nat -> nat -> G -> res (list (list R)) * G) (rand : nat -> nat -> G -> list (list R) * G) (obs : dict tdef).
  Context (m : dmodel w flt).
  Notation E := AssertionError.

  (** one emulator per target, each for its own *)
  Definition own_outputs (es : dict (gpr gp kern)) : Prop := dkeys es = dkeys (dm_data m) /\ Forall (fun ke => g_out (snd ke) = fst ke) es.
  (** [es'] are the emulators [es] after training on the simulated particles: the process of an
      emulator is that of the values of its target, its kernel the one it had before *)
  Definition trained_on (pts : list (particle w flt)) (es es' : dict (gpr gp kern)) : Prop :=
    Forall2 (fun ke ke' => fst ke' = fst ke /\ g_out (snd ke') = g_out (snd ke) /\
      exists xs ys p p' r r', Forall2 (fun q x => p_xs q = Some x) pts xs /\ Forall2 (fun q y => p_ys q = Some y) pts ys
        /\ process_of as_array as_float build (g_kernel (snd ke)) (fst ke) xs ys p
        /\ optimise p (g_kernel (snd ke)) r = (Ok tt, p', g_kernel (snd ke'), r') /\ g_gp (snd ke') = Some p') es es'.

  Lemma train_in_fit_ok : forall e xs ys r e' r', train e xs ys r = (Ok e', r') -> gpr_train as_array as_float build optimise e xs ys r = (Ok tt, e', r').
  Proof. intros e xs ys r e' r' H. unfold train_in_fit in H. destruct (gpr_train _ _ _ _ e xs ys r) as [[[[]|x] e1] r1]; congruence. Qed.

  Lemma train_all : forall pts xy es r es' r', mapM notes_of pts = Ok xy -> Forall (fun ke => g_out (snd ke) = fst ke) es ->
    cmap (fun ke : name * gpr gp kern => dc e <- clift (train (snd ke) (map fst xy) (map snd xy)); cret (fst ke, e)) es r = Some (Ok es', r') ->
    trained_on pts es es'.
  Proof.
    intros pts xy es r es' r' N. 
    assert (X : Forall2 (fun (q : particle w flt) x => p_xs q = Some x) pts (map fst xy) /\ Forall2 (fun (q : particle w flt) y => p_ys q = Some y) pts (map snd xy)).
    { apply mapM_ok in N. clear -N. induction N as [|q [x y] pts xy H N [I1 I2]]; [split; constructor|]. unfold notes_of in H.
      destruct (p_xs q) eqn:X; [|discriminate H]. destruct (p_ys q) eqn:Y; [|discriminate H]. injection H as <- <-. split; constructor; auto. }
    destruct X as [X Y]. revert r es'. induction es as [|ke es IH]; intros r es' F H; cbn [cmap] in H; [unfold cret in H; injection H as <- _; constructor|].
    apply cbind_ok in H. destruct H as (ke' & r1 & H1 & H). apply cbind_ok in H. destruct H as (es2 & r2 & H2 & H). unfold cret in H. injection H as <- <-.
    inversion F as [|? ? F1 F2]; subst. constructor; [|exact (IH _ _ F2 H2)].
    apply cbind_ok in H1. destruct H1 as (e & r3 & H1 & H3). unfold cret in H3. injection H3 as <- <-. unfold clift in H1. injection H1 as H1.
    apply train_in_fit_ok in H1. apply train_ok in H1. destruct H1 as (p & p' & k' & P & O & ->). cbn [fst snd g_out g_gp g_kernel].
    splits; auto. rewrite F1 in P. exists (map fst xy), (map snd xy), p, p', r, r3. splits; auto.
  Qed.
  Lemma trained_on_out : forall pts es es', trained_on pts es es' -> own_outputs es -> own_outputs es'.
  Proof.
    intros pts es es' T [O1 O2]. unfold own_outputs. rewrite <- O1. clear O1. induction T as [|ke ke' es es' (T1 & T2 & _) T IH]; [split; [reflexivity|constructor]|].
    inversion O2 as [|? ? F1 F2]; subst. destruct (IH F2) as [I1 I2]. split; [|constructor; [rewrite T2, T1; exact F1|exact I2]].
    unfold dkeys in *. cbn [map]. rewrite T1, I1. reflexivity.
  Qed.

  Lemma wave_emus : forall g st r st' r', own_outputs (hs_emus st) -> a_wave simulate vflt lhs rand train predict obs g m st r = Some (Ok st', r') ->
    own_outputs (hs_emus st') /\ exists pts, Forall (noted m) pts /\ trained_on pts (hs_emus st) (hs_emus st').
  Proof.
    intros g st r st' r' O H. unfold a_wave in H. apply cbind_ok in H. destruct H as (pts & r1 & H1 & H). apply cbind_ok in H. destruct H as ([es ps] & r2 & H2 & H).
    apply cbind_ok in H. destruct H as ([[kept co] acc] & r3 & _ & H). apply cbind_ok in H. destruct H as (mse & r4 & _ & H).
    apply cbind_ok in H. destruct H as (lo & r5 & _ & H). apply cbind_ok in H. destruct H as (up & r6 & _ & H). unfold cret in H. injection H as <- _. cbn [hs_emus fst].
    unfold h_emulate in H2. apply cbind_ok in H2. destruct H2 as (xy & q1 & K1 & K). apply cbind_ok in K. destruct K as (es1 & q2 & K2 & K).
    apply cbind_ok in K. destruct K as (xss & q3 & _ & K). apply cbind_ok in K. destruct K as (yss & q4 & _ & K). apply cbind_ok in K. destruct K as (ps1 & q5 & _ & K).
    unfold cret in K. injection K as <- _ _. unfold cres in K1. injection K1 as K1 _. pose proof (train_all _ _ _ _ _ _ K1 (proj2 O) K2) as T.
    split; [eapply trained_on_out; eauto|]. exists pts. split; auto. unfold h_simulate in H1. apply cbind_ok in H1. destruct H1 as (xs & q6 & _ & H1).
    refine (proj1 (cmap_forall _ _ _ _ _ _ _ _ _ _ H1)). intros x q7 p q8 _ X. cbv beta in X. unfold h_run in X. apply cbind_ok in X. destruct X as (d & q9 & _ & X).
    apply cbind_ok in X. destruct X as (sim & q10 & _ & X). eapply flatten_noted. exact X.
  Qed.

  (** *** No emulator is asked before it is trained *)
  Lemma cbind_not : forall A B (x : comp G A) (f : A -> comp G B) r, (forall r', x r <> Some (Err E, r')) ->
    (forall a r1, x r = Some (Ok a, r1) -> forall r', f a r1 <> Some (Err E, r')) -> forall r', cbind x f r <> Some (Err E, r').
  Proof. intros A B x f r H1 H2 r'. unfold cbind. destruct (x r) as [[[a|e] r1]|] eqn:X; [apply H2; auto|intros K; injection K as -> ->; eapply H1; eauto|discriminate]. Qed.
  Lemma cmap_not : forall A B (f : A -> comp G B) l, (forall a, In a l -> forall r r', f a r <> Some (Err E, r')) -> forall r r', cmap f l r <> Some (Err E, r').
  Proof.
    intros A B f l. induction l as [|a l IH]; intros H r; cbn [cmap]; [discriminate|]. apply cbind_not; [apply H; left; auto|].
    intros b r1 _. apply cbind_not; [apply IH; intros a0 I; apply H; right; auto|]. intros bs r2 _ r'. discriminate.
  Qed.
  Lemma mapM_not : forall A B (f : A -> res B) l, (forall a, In a l -> f a <> Err E) -> mapM f l <> Err E.
  Proof.
    intros A B f l. induction l as [|a l IH]; intros H; cbn [mapM]; [discriminate|]. destruct (f a) as [b|e] eqn:F; cbn [bind].
    - specialize (IH (fun a0 I => H a0 (or_intror I))). destruct (mapM f l); cbn [bind]; [discriminate|]. congruence.
    - specialize (H a (or_introl eq_refl)). congruence.
  Qed.
  Lemma bind_not : forall A B (x : res A) (f : A -> res B), x <> Err E -> (forall a, x = Ok a -> f a <> Err E) -> bind x f <> Err E.
  Proof. intros A B x f H1 H2. destruct x as [a|e]; cbn [bind]; [apply H2; auto|congruence]. Qed.
  Lemma cres_not : forall A (x : res A) (r : G), x <> Err E -> forall r', cres x r <> Some (Err E, r').
  Proof. intros A x r H r' K. unfold cres in K. congruence. Qed.
  Lemma clift_not : forall A (f : G -> res A * G) r, fst (f r) <> Err E -> forall r', clift f r <> Some (Err E, r').
  Proof. intros A f r H r' K. unfold clift in K. injection K as K. rewrite K in H. auto. Qed.
  Lemma dgetE_not : forall A (d : dict A) k, dgetE d k <> Err E.
  Proof. intros A d k. unfold dgetE. destruct (dget d k); discriminate. Qed.

  (** None of the parts that are parameters raises AssertionError. *)
  Definition others_fine : Prop :=
    (forall r, fst (dm_domain m r) <> Err E) /\ (forall d r, fst (simulate d r) <> Err E) /\ (forall n d r, fst (lhs n d r) <> Err E)
    /\ (forall xs, as_array xs <> Err E) /\ (forall v, as_float v <> Err E) /\ (forall a c k, build a c k <> Err E)
    /\ (forall p k r, fst (fst (fst (optimise p k r))) <> Err E) /\ (forall p xs, predict_f p xs <> Err E).

  Lemma train_not : others_fine -> forall e xs ys r, fst (train e xs ys r) <> Err E.
  Proof.
    intros (_ & _ & _ & Q1 & Q2 & Q3 & Q4 & _) e xs ys r. unfold train_in_fit, gpr_train.
    match goal with |- context[match ?x with Ok _ => _ | Err _ => _ end] => match x with bind _ _ => destruct x as [p|x0] eqn:X end end.
    - specialize (Q4 p (g_kernel e) r). destruct (optimise p (g_kernel e) r) as [[[[u|o] p'] k'] r2]; cbn [fst] in *; congruence.
    - cbn [fst]. intros K. injection K as ->. revert X. apply bind_not; [apply Q1|]. intros a _. apply bind_not; [apply mapM_not; intros; apply dgetE_not|].
      intros us _. apply bind_not; [apply mapM_not; auto|]. intros col _. apply Q3.
  Qed.
  Lemma flatten_not : others_fine -> forall p r r', flatten_c m p r <> Some (Err E, r').
  Proof.
    intros (Q0 & _) p r r'. unfold flatten_c, flatten. specialize (Q0 r). destruct (dm_domain m r) as [[dom|e] r1]; cbn [fst] in Q0; [|congruence].
    destruct (mapM (fun nd => dgetE (ch_locus (p_pars p)) (fst nd)) dom) as [xs|e] eqn:X.
    - destruct (ModelFitBase.pick (p_sims p) (dkeys (dm_data m))) as [ys|e] eqn:Y; [discriminate|]. intros K. injection K as -> _. revert Y.
      apply mapM_not. intros k _. apply bind_not; [apply dgetE_not|discriminate].
    - intros K. injection K as -> _. revert X. apply mapM_not. intros; apply dgetE_not.
  Qed.
  Lemma run_not : others_fine -> forall cvs xs r r', h_run simulate vflt m cvs xs r <> Some (Err E, r').
  Proof.
    intros Q cvs xs r. unfold h_run. apply cbind_not; [apply clift_not; apply Q|]. intros dom r1 _. apply cbind_not; [apply clift_not; apply Q|].
    intros sim r2 _ r'. apply flatten_not. auto.
  Qed.
  Lemma emulate_not : others_fine -> forall g st pts r r', own_outputs (hs_emus st) ->
    h_emulate vflt rand train predict obs g m st pts r <> Some (Err E, r').
  Proof.
    intros Q g st pts r r' O. revert r'. unfold h_emulate. apply cbind_not.
    - apply cres_not. apply mapM_not. intros p _. unfold notes_of. destruct (p_xs p), (p_ys p); discriminate.
    - intros xy r1 N. unfold cres in N. injection N as N _. apply cbind_not.
      + apply cmap_not. intros ke _ q. apply cbind_not; [apply clift_not; apply train_not; auto|]. intros e q1 _ q2. discriminate.
      + intros es r2 T. pose proof (train_all _ _ _ _ _ _ N (proj2 O) T) as F. apply cbind_not.
        * apply clift_not. destruct (rand (Z.to_nat (c_ems g)) (c_pars g) r2) as [x q]. discriminate.
        * intros xss r3 _. cbv zeta. apply cbind_not.
          -- apply cres_not. apply mapM_not. intros ke I. apply bind_not; [|discriminate].
             assert (P : exists p, g_gp (snd ke) = Some p).
             { clear -F I. induction F as [|a b es1 es2 (_ & _ & xs & ys & p & p' & q & q' & _ & _ & _ & _ & P) F IH]; [destruct I|]. destruct I as [<-|I]; eauto. }
             destruct P as [p P]. unfold gpr_predict. rewrite P. apply Q.
          -- intros yss r4 _. apply cbind_not.
             ++ generalize (map (scale (hs_lo st) (hs_up st)) xss). intros l. generalize 0. revert r4. induction l as [|xs l IH]; intros r4 i; cbn [h_emulate_all]; [discriminate|].
                apply cbind_not; [|intros p q _; apply cbind_not; [apply IH|discriminate]]. unfold h_emulated.
                apply cbind_not; [apply clift_not; apply Q|]. intros dom q _. apply cbind_not; [apply cres_not; apply mapM_not; intros ky _; destruct (nth_error (fst (snd ky)) i); discriminate|].
                intros sims q1 _. apply cbind_not; [apply cres_not; apply mapM_not; intros ky _; destruct (nth_error (snd (snd ky)) i); discriminate|].
                intros vs q2 _. apply cbind_not; [|discriminate]. apply cres_not. unfold eval_implausibility. apply bind_not.
                ** apply mapM_not. intros kt _. apply bind_not; [apply dgetE_not|]. intros y _. apply bind_not; [apply dgetE_not|discriminate].
                ** intros ims _. unfold fmaximum. destruct ims; discriminate.
             ++ discriminate.
  Qed.
  Lemma wave_not : others_fine -> forall g st r r', own_outputs (hs_emus st) -> a_wave simulate vflt lhs rand train predict obs g m st r <> Some (Err E, r').
  Proof.
    intros Q g st r r' O. revert r'. unfold a_wave. apply cbind_not.
    - unfold h_simulate. apply cbind_not; [apply clift_not; apply Q|]. intros xss r1 _. apply cmap_not. intros xs _. apply run_not. auto.
    - intros pts r1 _. apply cbind_not; [intros r'; apply emulate_not; auto|]. intros ep r2 _. apply cbind_not.
      + apply cres_not. unfold keep_plausible. apply bind_not.
        * unfold quantile. destruct (rleb 0 (c_acc g) && rleb (c_acc g) 1); [|discriminate]. destruct (map h_imp (snd ep)) as [|x l]; [discriminate|]. match goal with |- context[match ?o with Some _ => _ | None => _ end] => destruct o end; discriminate.
        * intros q _. apply bind_not; [|discriminate]. unfold idiv. destruct (Nat.eqb _ 0); discriminate.
      + intros [[kept co] acc] r3 _. apply cbind_not.
        * apply cres_not. unfold eval_mse. apply bind_not; [|discriminate]. apply mapM_not. intros p _. apply bind_not; [|discriminate].
          apply mapM_not. intros kt _. apply bind_not; [apply dgetE_not|discriminate].
        * intros mse r4 _. apply cbind_not; [apply cres_not; unfold extent; destruct (map h_xs kept); discriminate|]. intros lo r5 _.
          apply cbind_not; [apply cres_not; unfold extent; destruct (map h_xs kept); discriminate|]. discriminate.
  Qed.
  Lemma initial_outputs : forall g r g' st r', h_initialise dom_of (gpr_new new_kernel) g m r = Some (Ok (g', st), r') ->
    own_outputs (hs_emus st) /\ Forall (fun ke => g_kernel (snd ke) = new_kernel /\ g_gp (snd ke) = None) (hs_emus st).
  Proof.
    intros g r g' st r' H. unfold h_initialise in H. apply cbind_ok in H. destruct H as (dom & q1 & _ & H). cbv zeta in H.
    apply cbind_ok in H. destruct H as (ems & q2 & _ & H). apply cbind_ok in H. destruct H as (dom2 & q3 & _ & H). apply cbind_ok in H. destruct H as (cvs & q4 & _ & H).
    unfold cret in H. injection H as _ <- _. cbn [hs_emus]. split; [split|].
    - unfold dkeys. rewrite map_map. reflexivity.
    - apply Forall_map. apply Forall_forall. reflexivity.
    - apply Forall_map. apply Forall_forall. intros kt _. split; reflexivity.
  Qed.
End Fit.

(** Every wave trains every emulator on the particles simulated in it - the inputs as noted and the
    values of its own target - starting from the kernel that the wave before left behind. *)
Theorem C112_wave : forall (w : world) (arr gp kern : Type) new_kernel as_array as_float (build : arr -> list flt -> kern -> res gp) optimise predict_f simulate dom_of vflt lhs rand obs
    fuel g (m : dmodel w flt) r g' (st : hstate w (gpr gp kern)) r', (forall n d r, unit_rows d n (fst (rand n d r))) ->
  h_fit simulate dom_of vflt lhs rand (gpr_new new_kernel) (train_in_fit as_array as_float build optimise) (gpr_predict predict_f) obs fuel g m r = Some (Ok (g', st), r') ->
  exists st0 l r0, h_initialise dom_of (gpr_new new_kernel) g m r = Some (Ok (g', st0), r0)
    /\ Forall (fun ke => g_kernel (snd ke) = new_kernel /\ g_gp (snd ke) = None) (hs_emus st0)
    /\ Forall (fun s => own_outputs m (hs_emus s)) (st0 :: l ++ [st])
    /\ forall i a b, nth_error (st0 :: l ++ [st]) i = Some a -> nth_error (st0 :: l ++ [st]) (S i) = Some b ->
         exists pts, Forall (noted m) pts /\ trained_on as_array as_float build optimise pts (hs_emus a) (hs_emus b).
Proof.
  intros w arr gp kern new_kernel as_array as_float build optimise predict_f simulate dom_of vflt lhs rand obs fuel g m r g' st r' U H.
  destruct (C59_fit _ _ _ _ _ _ _ _ _ _ _ _ _ _ _ _ _ _ U H) as (st0 & l & r0 & I & W & _). exists st0, l, r0. split; [exact I|].
  destruct (initial_outputs _ _ _ _ _ _ _ _ I) as [O K]. split; [exact K|]. clear I K H. generalize dependent (l ++ [st]). intros l' W.
  revert O. induction W as [s q|s q s1 q1 l2 q2 A W IH]; intros O.
  - split; [constructor; auto|]. intros i a b _ Hb. destruct i; discriminate Hb.
  - destruct (wave_emus _ _ _ _ _ _ _ _ _ _ _ _ _ _ _ _ O A) as [O1 P]. destruct (IH O1) as [I1 I2]. split; [constructor; auto|].
    intros i a b Ha Hb. destruct i as [|i]; [cbn in Ha, Hb; injection Ha as <-; injection Hb as <-; exact P|]. eapply I2; eauto.
Qed.
Print Assumptions C112_wave.

(** So no emulator is ever asked before it is trained: fit does not end with AssertionError unless
    one of the parts outside does. *)
Theorem C112_never_unready : forall (w : world) (arr gp kern : Type) new_kernel as_array as_float (build : arr -> list flt -> kern -> res gp) optimise predict_f simulate dom_of vflt lhs rand obs
    fuel g (m : dmodel w flt) r r', others_fine as_array as_float build optimise predict_f simulate lhs m ->
  h_fit simulate dom_of vflt lhs rand (gpr_new new_kernel) (train_in_fit as_array as_float build optimise) (gpr_predict predict_f) obs fuel g m r <> Some (Err AssertionError, r').
Proof.
  intros w arr gp kern new_kernel as_array as_float build optimise predict_f simulate dom_of vflt lhs rand obs fuel g m r r' Q. revert r'. unfold h_fit. apply cbind_not.
  - unfold h_initialise. apply cbind_not; [apply clift_not; apply Q|]. intros dom r1 _. cbv zeta. apply cbind_not.
    + apply cres_not. destruct (Z.leb (c_ems g) 0); [|discriminate]. destruct (Z.leb (c_sims g) 0); discriminate.
    + intros ems r2 _. apply cbind_not; [apply clift_not; apply Q|]. intros dom2 r3 _. apply cbind_not; [|discriminate]. apply cres_not. apply mapM_not.
      intros nd _. unfold get_converter. destruct (d_lower (dom_of (snd nd))), (d_upper (dom_of (snd nd))); discriminate.
  - intros [g' st] r1 I. cbn [fst snd]. destruct (initial_outputs _ _ _ _ _ _ _ _ I) as [O _]. apply cbind_not; [|discriminate]. clear I.
    revert st r1 O. induction fuel as [|f IH]; intros st r1 O r'; cbn [h_update]; [discriminate|]. revert r'. apply cbind_not; [intros r'; eapply wave_not; eauto|].
    intros st1 r2 A. destruct (wave_emus _ _ _ _ _ _ _ _ _ _ _ _ _ _ _ _ O A) as [O1 _]. destruct (Z.leb _ _); [discriminate|]. apply IH. auto.
Qed.
Print Assumptions C112_never_unready.

(** ** A concrete case: that of C59, with emulators whose kernel counts the optimisations *)

Require Import Coq.micromega.Lra.
Definition exg_float (v : V exw) : res flt := match v with PZ z => Ok (Fin (IZR z)) | _ => Err ValueError end.
Definition exg_array (xs : list (list (V exw))) : res nat := Ok (length xs).
Definition exg_build (a : nat) (col : list flt) (k : nat) : res (list flt * nat) := if Nat.eqb a (length col) then Ok (col, k) else Err ValueError.
Definition exg_opt (p : list flt * nat) (k : nat) (r : RNG exw) : res unit * (list flt * nat) * nat * RNG exw := (Ok tt, p, S k, r).
Definition exg_predict_f (p : list flt * nat) (xs : list (list R)) := exh_predict tt xs.
Notation exg_train := (train_in_fit exg_array exg_float exg_build exg_opt).
Notation exg_gpr := (gpr (list flt * nat) nat).

Example C112_example_train :
  gpr_train exg_array exg_float exg_build exg_opt (gpr_new 0 "y") [[PZ 1]; [PZ 2]] [[("y", PZ 5)]; [("z", PZ 1); ("y", PZ 6)]] 3
    = (Ok tt, mkGpr "y" 1 (Some ([Fin 5; Fin 6], 0)), 3)
  /\ gpr_train exg_array exg_float exg_build exg_opt (gpr_new 0 "y") [[PZ 1]; [PZ 2]] [[("y", PZ 5)]; [("z", PZ 1)]] 3 = (Err KeyError, gpr_new 0 "y", 3).
Proof. split; reflexivity. Qed.

(** trained once, then a training that raises: the emulator can still be asked *)
Example C112_example_ready : exists e, trained (w:=exw) exg_array exg_float exg_build exg_opt (gpr_new 0 "y") e
  /\ gpr_predict exg_predict_f (gpr_new 0 "y") [[1%R]] = Err AssertionError /\ gpr_predict exg_predict_f e [[1%R]] = Ok ([Fin 1], [Fin 0]).
Proof.
  exists (mkGpr "y" 1 (Some ([Fin 5], 0))). splits; [|reflexivity|reflexivity].
  eapply tr_cons with (xs := [[PZ 1%Z]]) (ys := [[("y", PZ 5%Z)]]) (r := 0); [reflexivity|].
  eapply tr_cons with (xs := [[PZ 1%Z]]) (ys := [[("z", PZ 5%Z)]]) (r := 0); [reflexivity|]. apply tr_nil.
Qed.

Definition exg_e (k : nat) : exg_gpr := mkGpr "y" (S k) (Some ([Fin 7], k)).
Lemma exg_emulate : forall (e : exg_gpr) a b pts wave mse co acc r, g_out e = "y" -> (0 <= a <= b)%R ->
  let st := mkH (w:=exw) [("y", e)] [exh_c] pts [a] [b] wave mse co acc in
  exists q, h_simulate exh_sim exh_v exh_lhs (exh_cfg 1 2) exabc st r = Some (Ok [q], S (S r))
  /\ h_emulate exh_v exh_rand exg_train (gpr_predict exg_predict_f) exh_obs (exh_cfg 1 2) exabc st [q] (S (S r))
     = Some (Ok ([("y", exg_e (g_kernel e))], [exh_pt (a + 1/4 * (b - a)); exh_pt (a + 3/4 * (b - a))]), S (S (S (S r)))).
Proof.
  intros e a b pts wave mse co acc r O H st. destruct (exh_run exh_c (a + 1/2 * (b - a))%R r) as (q & Q1 & Q2). exists q. split.
  - unfold h_simulate. eapply cbind_step; [reflexivity|]. change (Z.to_nat (c_sims (exh_cfg 1 2))) with 1.
    cbn [repeat cmap scale exh_cfg c_pars st hs_cons hs_lo hs_up]. eapply cbind_step; [exact Q1|]. reflexivity.
  - unfold h_emulate. eapply cbind_step; [unfold cres; cbn [mapM]; rewrite Q2; reflexivity|].
    destruct e as [out k g0]. cbn [g_out] in O. subst out.
    eapply cbind_step; [reflexivity|]. eapply cbind_step; [reflexivity|].
    change (Z.to_nat (c_ems (exh_cfg 1 2))) with 2. cbv zeta.
    eapply cbind_step; [reflexivity|]. cbn [seq map exh_row repeat exh_cfg c_pars Nat.even scale st hs_lo hs_up hs_cons hd snd fst h_emulate_all].
    eapply cbind_step; [eapply cbind_step; [apply exh_emulated; [reflexivity|reflexivity|lra]|]|].
    + eapply cbind_step; [eapply cbind_step; [apply exh_emulated; [reflexivity|reflexivity|lra]|]|]; reflexivity.
    + reflexivity.
Qed.

Example C112_example_fit : exists st r',
  h_fit exh_sim exh_dom exh_v exh_lhs exh_rand (gpr_new 0) exg_train (gpr_predict exg_predict_f) exh_obs 2 (exh_cfg 1 2) exabc 0 = Some (Ok (exh_cfg 1 2, st), r')
  /\ hs_emus st = [("y", exg_e 1)] /\ (forall n d r, unit_rows d n (fst (exh_rand n d r)))
  /\ others_fine exg_array exg_float exg_build exg_opt exg_predict_f exh_sim exh_lhs exabc.
Proof.
  assert (Q : forall x y, (x <= y)%R -> exists q, quantile (map Fin [x; y]) (1/5) = Ok (Fin q) /\ (x <= q <= y)%R).
  { intros x y L. exists (quantile_r [x; y] (1/5)). split; [apply quantile_fin; [discriminate|lra]|].
    apply quantile_r_bounds; [discriminate|lra|]. constructor; [lra|constructor; [lra|apply Forall_nil]]. }
  assert (K1 : exists k ac, keep_plausible (exh_cfg 1 2) [exh_pt (0 + 1/4 * (1 - 0)); exh_pt (0 + 3/4 * (1 - 0))] = Ok ([exh_pt (0 + 1/4 * (1 - 0))], k, ac)).
  { destruct (Q (0 + 1/4 * (1 - 0)) (0 + 3/4 * (1 - 0)))%R as (q & Q1 & Q2); [lra|]. unfold keep_plausible.
    change (map h_imp [exh_pt (0 + 1/4 * (1 - 0)); exh_pt (0 + 3/4 * (1 - 0))]) with (map Fin [(0 + 1/4 * (1 - 0)); (0 + 3/4 * (1 - 0))]%R).
    cbn [c_acc c_cutoff exh_cfg]. rewrite Q1. cbn [bind filter h_imp exh_pt].
    destruct (fltb (Fin (1/2)) (Fin q)) eqn:T; cbn [fltb] in *; [apply rltb_true in T|apply rltb_false in T].
    - rewrite (proj2 (rltb_true (0 + 1/4 * (1 - 0)) q)), (proj2 (rltb_false (0 + 3/4 * (1 - 0)) q)) by lra. do 2 eexists. reflexivity.
    - rewrite (proj2 (rltb_true (0 + 1/4 * (1 - 0)) (1/2))), (proj2 (rltb_false (0 + 3/4 * (1 - 0)) (1/2))) by lra. do 2 eexists. reflexivity. }
  destruct K1 as (k1 & ac1 & K1). set (x := (0 + 1/4 * (1 - 0))%R) in *.
  assert (X : x = (1/4)%R) by (unfold x; lra).
  assert (K2 : exists ac, keep_plausible (exh_cfg 1 2) [exh_pt (x + 1/4 * (x - x)); exh_pt (x + 3/4 * (x - x))] = Ok ([exh_pt (x + 1/4 * (x - x)); exh_pt (x + 3/4 * (x - x))], Fin (1/2), ac)).
  { destruct (Q (x + 1/4 * (x - x)) (x + 3/4 * (x - x)))%R as (q & Q1 & Q2); [lra|]. unfold keep_plausible.
    change (map h_imp [exh_pt (x + 1/4 * (x - x)); exh_pt (x + 3/4 * (x - x))]) with (map Fin [(x + 1/4 * (x - x)); (x + 3/4 * (x - x))]%R).
    cbn [c_acc c_cutoff exh_cfg]. rewrite Q1. cbn [bind filter h_imp exh_pt].
    assert (Z : fltb (Fin (1/2)) (Fin q) = false) by (cbn [fltb]; apply rltb_false; lra). rewrite Z. cbn [fltb].
    rewrite (proj2 (rltb_true (x + 1/4 * (x - x)) (1/2))), (proj2 (rltb_true (x + 3/4 * (x - x)) (1/2))) by lra. eexists. reflexivity. }
  destruct K2 as (ac2 & K2).
  destruct (exg_emulate (gpr_new 0 "y") 0 1 [] 0 PInf PInf 1 2 eq_refl ltac:(lra)) as (q1 & S1 & E1).
  assert (M1 : exists u, eval_mse exh_obs [exh_pt x] = Ok u) by (eexists; reflexivity). destruct M1 as (u1 & M1).
  assert (M2 : exists u, eval_mse exh_obs [exh_pt (x + 1/4 * (x - x)); exh_pt (x + 3/4 * (x - x))] = Ok u) by (eexists; reflexivity). destruct M2 as (u2 & M2).
  destruct (exg_emulate (exg_e 0) x x [exh_pt x] 1 u1 k1 ac1 6 eq_refl ltac:(lra)) as (q2 & S2 & E2).
  eexists. exists 10. split; [|splits].
  { unfold h_fit. eapply cbind_step.
    - unfold h_initialise. eapply cbind_step; [unfold clift; rewrite exh_domain; reflexivity|]. cbv zeta.
      eapply cbind_step; [reflexivity|]. eapply cbind_step; [unfold clift; rewrite exh_domain; reflexivity|].
      eapply cbind_step; [reflexivity|]. reflexivity.
    - eapply cbind_step; [|reflexivity]. cbn [fst snd].
      change (mkH _ _ _ _ _ 0 PInf PInf 1) with (mkH (w:=exw) [("y", gpr_new (gp:=list flt * nat) 0 "y")] [exh_c] [] [0%R] [1%R] 0 PInf PInf 1).
      cbn [h_update]. eapply cbind_step.
      + unfold a_wave. eapply cbind_step; [exact S1|]. eapply cbind_step; [exact E1|].
        eapply cbind_step; [exact (f_equal (fun z => Some (z, 6)) K1)|].
        eapply cbind_step; [exact (f_equal (fun z => Some (z, 6)) M1)|]. eapply cbind_step; [reflexivity|]. eapply cbind_step; [reflexivity|]. reflexivity.
      + cbn [hs_wave exh_cfg c_wave Z.leb Z.compare Pos.compare Pos.compare_cont Z.of_nat Pos.of_succ_nat].
        eapply cbind_step.
        * unfold a_wave. eapply cbind_step; [exact S2|]. eapply cbind_step; [exact E2|].
          eapply cbind_step; [exact (f_equal (fun z => Some (z, 10)) K2)|].
          eapply cbind_step; [exact (f_equal (fun z => Some (z, 10)) M2)|]. eapply cbind_step; [reflexivity|]. eapply cbind_step; [reflexivity|]. reflexivity.
        * reflexivity. }
  - reflexivity.
  - apply exh_unit.
  - unfold others_fine, exh_sim, exh_lhs, exg_array, exg_opt, exg_predict_f, exh_predict, exg_build. splits; try discriminate.
    + intros [] ; discriminate.
    + intros a c k. destruct (Nat.eqb a (length c)); discriminate.
Qed.
