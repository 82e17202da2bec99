(** * Property C78: when ABC-SMC stops *)

Require Import Verif.Base Verif.World Verif.ModelGraph Verif.ModelExpr Verif.ModelLoci Verif.ModelBN Verif.ModelSample
        Verif.ModelFitBase Verif.ModelFloat Verif.ModelResample Verif.ModelABC Verif.ModelSMC
        Verif.ProofBase Verif.ProofFloat Verif.PropsResample Verif.PropsABC Verif.ProofSMC
        Verif.ExWorld Verif.PropsBN Verif.PropsSMC.
Require Import Coq.ZArith.ZArith Lia.
Local Open Scope nat_scope.

(** Enough rounds, or the tolerance did not move for long enough (and at least three rounds), or
    too few proposals accepted. *)
Definition exhausted {w : world} (g : cfg) (st : state w) : Prop :=
  (max_round g <= Z.of_nat (s_rnd st))%Z
  \/ 3 <= s_rnd st /\ (max_stay g <= Z.of_nat (s_stay st))%Z
  \/ (s_acc st < min_acc g)%R.

(** How long the tolerance has stood still, from the tolerances alone: k rounds at the tolerance e
    so far, then the tolerances l. A nan equals nothing. *)
Fixpoint standing (k : nat) (e : flt) (l : list flt) : nat :=
  match l with [] => k | e' :: l' => standing (if fleb e e' && fleb e' e then S k else 0) e' l' end.

Section Stop.
  Context {w : world}.
  Notation pt := (particle w flt).
  Notation G := (RNG w).
  Context (simulate : chrom w -> G -> res pt * G) (lp_isinf : LP w -> bool).
  Context {step : Type} (normal : step -> G -> V w * G) (vadd : V w -> V w -> res (V w)).
  Context (wstd : dmodel w flt -> list pt -> list flt -> G -> res (dict step) * G).
  Context (draw : G -> list R -> nat -> list nat) (draw_next : G -> G) (unif : G -> R * G).

  (** consecutive rounds, with the states they leave *)
  Inductive rounds_of (fuel : nat) (g : cfg) (m : dmodel w flt) : state w -> G -> list (state w) -> G -> Prop :=
  | rounds_nil : forall st r, rounds_of fuel g m st r [] r
  | rounds_cons : forall st r st1 r1 l r',
      a_round simulate lp_isinf (step:=step) normal vadd wstd draw draw_next unif fuel g m st r = Some (Ok st1, r1) ->
      rounds_of fuel g m st1 r1 l r' -> rounds_of fuel g m st r (st1 :: l) r'.

  Lemma check_exhausted : forall g (st : state w), check_termination g st = true <-> exhausted g st.
  Proof using.
    intros g st. unfold check_termination, exhausted. destruct (Z.leb_spec (max_round g) (Z.of_nat (s_rnd st))) as [A|A].
    - split; auto.
    - destruct (Nat.leb_spec 3 (s_rnd st)) as [B|B]; cbn [andb].
      + destruct (Z.leb_spec (max_stay g) (Z.of_nat (s_stay st))) as [D|D].
        * split; auto.
        * split; intros H; [right; right; apply rltb_true; auto|]. apply rltb_true. destruct H as [H|[H|H]]; auto; lia.
      + split; intros H; [right; right; apply rltb_true; auto|]. apply rltb_true. destruct H as [H|[H|H]]; auto; lia.
  Qed.

  Lemma round_eps : forall fuel g m st r st' r',
    a_round simulate lp_isinf (step:=step) normal vadd wstd draw draw_next unif fuel g m st r = Some (Ok st', r') ->
    s_stay st' = S (s_stay st) /\ s_eps st' = s_eps st /\ s_eps st <> NaN
    \/ s_stay st' = 0 /\ fleb (s_eps st) (s_eps st') = false.
  Proof using.
    intros fuel g m st r st' r' H. unfold a_round in H. cbv zeta in H.
    apply cbind_ok in H. destruct H as ([e th] & r1 & _ & H). apply cbind_ok in H. destruct H as ([x1 x2] & r2 & _ & H).
    apply cbind_ok in H. destruct H as ([x3 x4] & r3 & _ & H). apply cbind_ok in H. destruct H as ([[x5 x6] x7] & r4 & _ & H).
    unfold cret in H. injection H as <- <-. cbn [s_stay s_eps]. destruct (fleb (s_eps st) e) eqn:F; [left|right]; splits; auto.
    intros N. rewrite N in F. discriminate F.
  Qed.
End Stop.
Arguments rounds_of {w} simulate lp_isinf {step} normal vadd wstd draw draw_next unif fuel g m st r l r'.

(** update makes rounds until one leaves an exhausted state, at least one, and returns that state:
    in both directions, given fuel for as many rounds. *)
Theorem C78_stops : forall w simulate lp_isinf (step : Type) normal vadd wstd draw draw_next unif rounds fuel g (m : dmodel w flt) st r st' r',
  update simulate lp_isinf (step:=step) normal vadd wstd draw draw_next unif rounds fuel g m st r = Some (Ok st', r')
  <-> exists l, rounds_of simulate lp_isinf (step:=step) normal vadd wstd draw draw_next unif fuel g m st r (l ++ [st']) r'
      /\ Forall (fun s => ~ exhausted g s) l /\ exhausted g st' /\ S (length l) <= rounds.
Proof.
  intros w simulate lp_isinf step normal vadd wstd draw draw_next unif rounds fuel g m.
  induction rounds as [|n IH]; intros st r st' r'; cbn [update].
  - split; [discriminate|]. intros (l & _ & _ & _ & L). lia.
  - split.
    + intros H. apply cbind_ok in H. destruct H as (st1 & r1 & H1 & H2). destruct (check_termination g st1) eqn:C.
      * unfold cret in H2. injection H2 as <- <-. exists []. splits; auto; [|apply check_exhausted; auto|simpl; lia].
        econstructor; [exact H1|constructor].
      * apply IH in H2. destruct H2 as (l & L1 & L2 & L3 & L4). exists (st1 :: l). splits; auto; [|constructor; auto|simpl; lia].
        -- econstructor; eauto.
        -- intros E. apply check_exhausted in E. congruence.
    + intros (l & L1 & L2 & L3 & L4). destruct l as [|st1 l].
      * inversion L1 as [|? ? ? r1 ? ? R1 R2]; subst. inversion R2; subst. unfold cbind; rewrite R1.
        apply check_exhausted in L3. rewrite L3. reflexivity.
      * inversion L1 as [|? ? ? r1 ? ? R1 R2]; subst. inversion L2 as [|? ? N1 N2]; subst. unfold cbind; rewrite R1.
        destruct (check_termination g st1) eqn:C; [destruct N1; apply check_exhausted; auto|].
        apply IH. exists l. splits; auto. simpl in L4. lia.
Qed.
Print Assumptions C78_stops.

(** What the counters count: the rounds, and the rounds since the tolerance last moved. *)
Theorem C78_counters : forall w simulate lp_isinf (step : Type) normal vadd wstd draw draw_next unif fuel g (m : dmodel w flt) st r l st' r',
  rounds_of simulate lp_isinf (step:=step) normal vadd wstd draw draw_next unif fuel g m st r (l ++ [st']) r' ->
  s_rnd st' = s_rnd st + S (length l)
  /\ s_stay st' = standing (s_stay st) (s_eps st) (map s_eps (l ++ [st'])).
Proof.
  intros w simulate lp_isinf step normal vadd wstd draw draw_next unif fuel g m st r l.
  revert st r. induction l as [|s1 l IH]; intros st r st' r' H; inversion H as [|? ? ? r1 ? ? R1 R2]; subst;
    pose proof (round_count _ _ _ _ _ _ _ _ _ _ _ _ _ _ _ R1) as Rc; pose proof (round_eps _ _ _ _ _ _ _ _ _ _ _ _ _ _ _ R1) as Re.
  - split; [simpl; lia|]. cbn [app map standing]. destruct Re as [(A & B & N)|[A B]]; rewrite A.
    + rewrite B, fleb_refl; auto.
    + rewrite B. reflexivity.
  - destruct (IH _ _ _ _ R2) as [I1 I2]. split; [simpl; lia|]. rewrite I2. cbn [app map standing]. f_equal.
    destruct Re as [(A & B & N)|[A B]]; rewrite A.
    + rewrite B, fleb_refl; auto.
    + rewrite B. reflexivity.
Qed.
Print Assumptions C78_counters.

(** A fit, from the prior on: the counters start at zero and the tolerance at infinity. *)
Theorem C78_fit : forall w simulate lp_isinf (step : Type) normal vadd wstd draw draw_next unif rounds fuel g (m : dmodel w flt) pars0 r st' r',
  smc_fit simulate lp_isinf (step:=step) normal vadd wstd draw draw_next unif rounds fuel g m pars0 r = Some (Ok st', r') ->
  exists st l r0, initialise simulate draw draw_next fuel g m pars0 r = Some (Ok st, r0)
    /\ rounds_of simulate lp_isinf (step:=step) normal vadd wstd draw draw_next unif fuel g m st r0 (l ++ [st']) r'
    /\ Forall (fun s => ~ exhausted g s) l /\ exhausted g st'
    /\ s_rnd st' = S (length l) /\ s_stay st' = standing 0 PInf (map s_eps (l ++ [st'])).
Proof.
  intros w simulate lp_isinf step normal vadd wstd draw draw_next unif rounds fuel g m pars0 r st' r' H.
  unfold smc_fit in H. apply cbind_ok in H. destruct H as (st & r0 & H1 & H2). apply C78_stops in H2.
  destruct H2 as (l & L1 & L2 & L3 & L4). exists st, l, r0. destruct (C78_counters _ _ _ _ _ _ _ _ _ _ _ _ _ _ _ _ _ _ L1) as [A B].
  assert (I : s_rnd st = 0 /\ s_stay st = 0 /\ s_eps st = PInf).
  { unfold initialise in H1. cbv zeta in H1. apply cbind_ok in H1. destruct H1 as (ss & r1 & _ & H1).
    apply cbind_ok in H1. destruct H1 as (e & r2 & _ & H1). unfold cret in H1. injection H1 as <- <-. splits; auto. }
  destruct I as (I1 & I2 & I3). rewrite I1 in A. rewrite I2, I3 in B. splits; auto.
Qed.
Print Assumptions C78_fit.

(** The fit of C57_example_fit: one round, the tolerance moved from infinity to 7. *)
Example C78_example : exists st st' r', smc_fit exsim (fun _ => false) ex_normal ex_vadd ex_wstd ex_draw (fun r => r) ex_unif 1 1 ex_cfg (exsmc tab_a) None 0 = Some (Ok st', r')
  /\ rounds_of exsim (fun _ => false) ex_normal ex_vadd ex_wstd ex_draw (fun r => r) ex_unif 1 ex_cfg (exsmc tab_a) st 8 [st'] r'
  /\ exhausted ex_cfg st' /\ s_stay st' = 0 /\ s_eps st' = Fin 7.
Proof.
  destruct C57_example_fit as (st' & r' & E1 & E2 & E3 & _). destruct (C78_fit _ _ _ _ _ _ _ _ _ _ _ _ _ _ _ _ _ _ E1) as (st & l & r0 & I & L1 & _ & L2 & L3 & L4).
  rewrite E3 in L3. destruct l; [|discriminate L3]. cbn [app map standing] in L1, L4. rewrite E2 in L4. cbn [fleb andb] in L4.
  destruct (ex_initialise tab_a) as [ess I2]. rewrite I2 in I by auto. injection I as <- <-. exists (ex_st tab_a ess), st', r'. splits; auto.
Qed.

(** The counter over five rounds; and a state that is exhausted only because the tolerance stands
    still. *)
Example C78_example_standing : standing 0 PInf [Fin 7; Fin 7; Fin 3; Fin 3; Fin 3] = 2 /\ standing 0 PInf [Fin 7; NaN; NaN] = 0
  /\ exhausted (mkCfg 4 false 1 (1/8) 10 2 0) (mkSt (w:=exw) [] [] 5 2 (Fin 4) 1 (Fin 3) 1)
  /\ ~ exhausted (mkCfg 4 false 1 (1/8) 10 2 0) (mkSt (w:=exw) [] [] 2 2 (Fin 4) 1 (Fin 3) 1).
Proof.
  unfold exhausted. cbn [standing fleb andb max_round max_stay min_acc s_rnd s_stay s_acc]. rdec. cbn [andb]. rdec. splits; auto.
  - right. left. lia.
  - intros [H|[H|H]]; [lia|lia|lra].
Qed.
