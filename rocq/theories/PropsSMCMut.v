(** * Properties C58 and C70: the proposals of ABC-SMC and its posterior sample *)

Require Import Verif.Base Verif.World Verif.ModelGraph Verif.ModelExpr Verif.ModelLoci Verif.ModelBN Verif.ModelSample
        Verif.ModelFitBase Verif.ModelFloat Verif.ModelResample Verif.ModelABC Verif.ModelSMC
        Verif.ProofBase Verif.ProofFloat Verif.PropsResample Verif.PropsABC Verif.ProofSMC Verif.PropsSMC Verif.ExWorld Verif.PropsBN.
Require Import Coq.ZArith.ZArith Lia.
Local Open Scope nat_scope.

Section Specs.
  Context {w : world}.
  Notation pt := (particle w flt).
  Notation G := (RNG w).
  Context (simulate : chrom w -> G -> res pt * G) (lp_isinf : LP w -> bool).
  Context {step : Type} (normal : step -> G -> V w * G) (vadd : V w -> V w -> res (V w)).
  Implicit Types (m : dmodel w flt).

  (** The next proposal that is simulated: those outside the support are passed over. *)
  Inductive next m (p0 : dict (V w)) (steps : dict step) : G -> flt -> pt -> G -> Prop :=
  | next_outside : forall r p1 r1 c r2 d p r', mutate normal vadd p0 steps r = Some (Ok p1, r1) -> serve m p1 r1 = (Ok c, r2) ->
      lp_isinf (ch_lp c) = true -> next m p0 steps r2 d p r' -> next m p0 steps r d p r'
  | next_simulated : forall r p1 r1 c r2 q r3 d p r', mutate normal vadd p0 steps r = Some (Ok p1, r1) -> serve m p1 r1 = (Ok c, r2) ->
      lp_isinf (ch_lp c) = false -> simulate c r2 = (Ok q, r3) -> calc_distance (Fin 0) fadd m q r3 = (Ok d, p, r') ->
      next m p0 steps r d p r'.
  (** Several of them, with their distances. *)
  Inductive proposed m p0 steps : G -> list (flt * pt) -> G -> Prop :=
  | proposed_nil : forall r, proposed m p0 steps r [] r
  | proposed_cons : forall r d p r1 l r', next m p0 steps r d p r1 -> proposed m p0 steps r1 l r' -> proposed m p0 steps r ((d, p) :: l) r'.

  Notation loop := (mut_loop simulate lp_isinf normal vadd).

  Lemma loop_step : forall f m s steps di n sim, loop (S f) m s steps di n sim
    = if isinf di then
          dc p1 <- mutate normal vadd (src_pars s) steps;
          dc c <- clift (serve m p1);
          if lp_isinf (ch_lp c) then loop f m s steps di n sim
          else
            dc p <- clift (simulate c);
            dc dp <- distance m p;
            if Nat.ltb 20 (S n) then
              dc d <- cres (src_distance s);
              cret (d, Some s, S n)
            else loop f m s steps (fst dp) (S n) (Some (SPt (snd dp)))
      else cret (di, sim, n).
  Proof. reflexivity. Qed.

  (** one simulated proposal of the loop *)
  Lemma next_loop : forall m s steps r d p r', next m (src_pars s) steps r d p r' -> exists k, forall fuel di n sim, isinf di = true ->
    loop (S k + fuel) m s steps di n sim r
    = if Nat.ltb 20 (S n) then Some (do d0 <- src_distance s; Ok (d0, Some s, S n), r')
      else loop fuel m s steps d (S n) (Some (SPt p)) r'.
  Proof.
    intros m s steps r d p r' N. induction N as [r p1 r1 c r2 d p r' E1 E2 E3 N IH|r p1 r1 c r2 q r3 d p r' E1 E2 E3 E4 E5].
    - destruct IH as [k IH]. exists (S k). intros fuel di n sim I. change (S (S k) + fuel) with (S (S k + fuel)). rewrite loop_step, I. unfold cbind at 1. rewrite E1.
      unfold cbind at 1. unfold clift at 1. rewrite E2, E3. apply (IH fuel di n sim I).
    - exists 0. intros fuel di n sim I. change (1 + fuel) with (S fuel). rewrite loop_step, I. unfold cbind at 1. rewrite E1.
      unfold cbind at 1. unfold clift at 1. rewrite E2, E3. unfold cbind at 1. unfold clift at 1. rewrite E4.
      unfold cbind at 1. unfold distance at 1. rewrite E5. cbn [fst snd]. destruct (Nat.ltb 20 (S n)); auto.
      unfold cbind, cres, cret. destruct (src_distance s); auto.
  Qed.

  (** what an iteration can do *)
  Lemma loop_inv : forall m s steps fuel di n sim r d o k r', src_distance s = Err KeyError ->
    loop fuel m s steps di n sim r = Some (Ok (d, o, k), r') -> n <= 20 ->
    (isinf di = false /\ d = di /\ o = sim /\ k = n /\ r' = r)
    \/ (isinf di = true /\ exists l p, proposed m (src_pars s) steps r (l ++ [(d, p)]) r' /\ Forall (fun x => isinf (fst x) = true) l
        /\ isinf d = false /\ o = Some (SPt p) /\ k = n + S (length l) /\ k <= 20).
  Proof.
    intros m s steps fuel. induction fuel as [|f IH]; intros di n sim r d o k r' S0 H L; cbn [mut_loop] in H; destruct (isinf di) eqn:I.
    - discriminate H.
    - left. unfold cret in H. injection H as <- <- <- <-. auto 6.
    - right. split; auto. apply cbind_ok in H. destruct H as (p1 & r1 & E1 & H). apply cbind_ok in H. destruct H as (c & r2 & E2 & H).
      unfold clift in E2. injection E2 as E2. destruct (lp_isinf (ch_lp c)) eqn:E3.
      + destruct (IH _ _ _ _ _ _ _ _ S0 H L) as [(J & _)|(_ & l & p & P & F & D & O & K & K2)]; [congruence|].
        exists l, p. splits; auto. destruct l as [|[d1 q1] l].
        * inversion P as [|? ? ? ? ? ? N1 N2]; subst. apply proposed_cons with (r1 := r3); auto. eapply next_outside; eauto.
        * inversion P as [|? ? ? ? ? ? N1 N2]; subst. apply proposed_cons with (r1 := r3); auto. eapply next_outside; eauto.
      + apply cbind_ok in H. destruct H as (q & r3 & E4 & H). unfold clift in E4. injection E4 as E4.
        apply cbind_ok in H. destruct H as ([d1 p2] & r4 & E5 & H). cbn [fst snd] in H.
        assert (E5' : calc_distance (Fin 0) fadd m q r3 = (Ok d1, p2, r4)).
        { unfold distance in E5. destruct (calc_distance (Fin 0) fadd m q r3) as [[[x|e] y] z]; [|discriminate E5]. injection E5 as <- <- <-. auto. }
        assert (N : next m (src_pars s) steps r d1 p2 r4) by (eapply next_simulated; eauto).
        destruct (Nat.ltb_spec 20 (S n)) as [T|T].
        * rewrite S0 in H. discriminate H.
        * destruct (IH _ _ _ _ _ _ _ _ S0 H T) as [(J & -> & -> & -> & ->)|(J & l & p & P & F & D & O & K & K2)].
          -- exists [], p2. splits; auto; [|simpl; lia]. apply proposed_cons with (r1 := r4); auto. constructor.
          -- exists ((d1, p2) :: l), p. splits; auto; [apply proposed_cons with (r1 := r4); auto|simpl; lia].
    - left. unfold cret in H. injection H as <- <- <- <-. auto 6.
  Qed.

  Lemma loop_far : forall m s steps r l r1, proposed m (src_pars s) steps r l r1 -> Forall (fun x => isinf (fst x) = true) l ->
    forall n di sim, isinf di = true -> n + length l <= 20 -> exists k, forall fuel, exists d o, isinf d = true
    /\ loop (k + fuel) m s steps di n sim r = loop fuel m s steps d (n + length l) o r1.
  Proof.
    intros m s steps r l r1 P. induction P as [r|r d p r1 l r' N P IH]; intros F n di sim I L.
    - exists 0. intros fuel. exists di, sim. simpl. rewrite Nat.add_0_r. auto.
    - inversion F as [|? ? F1 F2]; subst. cbn [fst length] in *. destruct (next_loop _ _ _ _ _ _ _ N) as [k1 K1].
      destruct (IH F2 (S n) d (Some (SPt p)) F1) as [k2 K2]; [lia|]. exists (S k1 + k2). intros fuel.
      destruct (K2 fuel) as (d2 & o2 & D & E). exists d2, o2. split; auto.
      rewrite <- Nat.add_assoc, K1 by auto. destruct (Nat.ltb_spec 20 (S n)); [lia|]. rewrite E. f_equal. lia.
  Qed.

  Lemma loop_21 : forall m s steps r l r1 d p r', proposed m (src_pars s) steps r l r1 -> Forall (fun x => isinf (fst x) = true) l ->
    length l = 20 -> next m (src_pars s) steps r1 d p r' ->
    exists k, forall fuel, k <= fuel -> loop fuel m s steps PInf 0 None r = Some (do d0 <- src_distance s; Ok (d0, Some s, 21), r').
  Proof.
    intros m s steps r l r1 d p r' P F L N. destruct (loop_far _ _ _ _ _ _ P F 0 PInf None eq_refl) as [k1 K1]; [lia|].
    destruct (next_loop _ _ _ _ _ _ _ N) as [k2 K2]. exists (k1 + S k2). intros fuel H.
    replace fuel with (k1 + (S k2 + (fuel - k1 - S k2))) by lia. destruct (K1 (S k2 + (fuel - k1 - S k2))) as (d1 & o & D & E).
    rewrite E, K2 by auto. rewrite L. reflexivity.
  Qed.
End Specs.
Arguments next {w} simulate lp_isinf {step} normal vadd m p0 steps r d p r'.
Arguments proposed {w} simulate lp_isinf {step} normal vadd m p0 steps r l r'.

(** The values the proposals start from are the same for the particle and for its JSON. *)
Lemma src_pars_eq : forall w (par : bool) (p : particle w flt),
  src_pars (if par then SJs (pt_to_json p) else SPt p) = ch_locus (p_pars p).
Proof. intros w [|] [[c l] s x y d k n]; reflexivity. Qed.

(** After twenty proposals of infinite distance the twenty-first that is simulated, whatever its
    distance, ends the call with a KeyError: always in parallel mode, and for a particle without
    distance note in serial mode. *)
Theorem C58_raises : forall w simulate lp_isinf (step : Type) normal vadd (m : dmodel w flt) par (steps : dict step) p0 r l r1 d p r',
  par = true \/ p_distance p0 = None ->
  proposed simulate lp_isinf normal vadd m (ch_locus (p_pars p0)) steps r l r1 -> length l = 20 -> Forall (fun x => isinf (fst x) = true) l ->
  next simulate lp_isinf normal vadd m (ch_locus (p_pars p0)) steps r1 d p r' ->
  exists k, forall fuel, k <= fuel -> sample_mutation simulate lp_isinf normal vadd fuel m par steps p0 r = Some (Err KeyError, r').
Proof.
  intros w simulate lp_isinf step normal vadd m par steps p0 r l r1 d p r' N P L F X.
  rewrite <- (src_pars_eq w par p0) in P, X. destruct (loop_21 simulate lp_isinf normal vadd _ _ _ _ _ _ _ _ _ P F L X) as [k K].
  exists k. intros fuel H. unfold sample_mutation, cbind at 1. rewrite K by auto.
  destruct par; simpl; [reflexivity|]. destruct N as [N|N]; [discriminate N|]. rewrite N. reflexivity.
Qed.
Print Assumptions C58_raises.

(** The particles mcmc_proposal mutates are copies, and a copy has no distance note. *)
Theorem C58_copies : forall w (g : cfg) (theta : list (particle w flt)) wts thres draw draw_next r wts' theta1 r',
  resample_smc draw draw_next g theta wts thres r = Some (Ok (wts', theta1), r') ->
  Forall (fun p => p_distance p = None) theta1.
Proof.
  intros w g theta wts thres draw draw_next r wts' theta1 r' H. unfold resample_smc in H.
  destruct (Nat.ltb 2 (count (fltb (Fin 0)) wts)); [|discriminate H].
  destruct (fltb (Fin 1) (fmul (Fin thres) (fsum (map (fun x => fmul x x) wts)))).
  - apply cbind_ok in H. destruct H as (ind & r1 & _ & H). apply cbind_ok in H. destruct H as (th & r2 & _ & H).
    unfold cret in H. injection H as <- <- <-. apply Forall_forall. intros p I. apply in_map_iff in I. destruct I as (q & <- & _). reflexivity.
  - unfold cret in H. injection H as <- <- <-. apply Forall_forall. intros p I. apply in_map_iff in I. destruct I as (q & <- & _). reflexivity.
Qed.
Print Assumptions C58_copies.

(** So a call that returns has simulated at most twenty proposals: all but the last of infinite
    distance, and the last is the result. *)
Theorem C58_returns : forall w simulate lp_isinf (step : Type) normal vadd (m : dmodel w flt) fuel par (steps : dict step) p0 r d q n r',
  par = true \/ p_distance p0 = None ->
  sample_mutation simulate lp_isinf normal vadd fuel m par steps p0 r = Some (Ok (d, q, n), r') ->
  exists l, proposed simulate lp_isinf normal vadd m (ch_locus (p_pars p0)) steps r (l ++ [(d, q)]) r'
    /\ Forall (fun x => isinf (fst x) = true) l /\ isinf d = false /\ n = S (length l) /\ n <= 20.
Proof.
  intros w simulate lp_isinf step normal vadd m fuel par steps p0 r d q n r' N H. rewrite <- (src_pars_eq w par p0).
  unfold sample_mutation in H. cbv zeta in H. apply cbind_ok in H. destruct H as ([[d1 o] n1] & r1 & H1 & H2).
  assert (S0 : src_distance (if par then SJs (pt_to_json p0) else SPt p0) = Err KeyError).
  { destruct par; auto. destruct N as [N|N]; [discriminate N|]. simpl. rewrite N. auto. }
  apply (loop_inv simulate lp_isinf normal vadd) in H1; [|auto|lia].
  destruct H1 as [(J & _)|(_ & l & p & P & F & D & -> & K & K2)]; [discriminate J|].
  unfold cbind, cres, bound in H2. rewrite through_id in H2. unfold cret in H2. injection H2 as <- <- <- <-.
  exists l. splits; auto.
Qed.
Print Assumptions C58_returns.

(** Serially, a particle that does carry a distance note is what the call falls back to. *)
Theorem C58_fallback : forall w simulate lp_isinf (step : Type) normal vadd (m : dmodel w flt) (steps : dict step) p0 d0 r l r1 d p r',
  p_distance p0 = Some d0 ->
  proposed simulate lp_isinf normal vadd m (ch_locus (p_pars p0)) steps r l r1 -> length l = 20 -> Forall (fun x => isinf (fst x) = true) l ->
  next simulate lp_isinf normal vadd m (ch_locus (p_pars p0)) steps r1 d p r' ->
  exists k, forall fuel, k <= fuel -> sample_mutation simulate lp_isinf normal vadd fuel m false steps p0 r = Some (Ok (d0, p0, 21), r').
Proof.
  intros w simulate lp_isinf step normal vadd m steps p0 d0 r l r1 d p r' N P L F X.
  destruct (loop_21 simulate lp_isinf normal vadd m (SPt p0) _ _ _ _ _ _ _ P F L X) as [k K].
  exists k. intros fuel H. unfold sample_mutation, cbind at 1. rewrite K by auto. simpl. rewrite N. reflexivity.
Qed.
Print Assumptions C58_fallback.

(** Proposals outside the support are not counted: if there are no others the loop does not end. *)
Theorem C58_endless : forall w simulate lp_isinf (step : Type) normal vadd (m : dmodel w flt) fuel par (steps : dict step) p0 r x r',
  (forall p1 r1 c r2, serve m p1 r1 = (Ok c, r2) -> lp_isinf (ch_lp c) = true) ->
  sample_mutation simulate lp_isinf normal vadd fuel m par steps p0 r <> Some (Ok x, r').
Proof.
  intros w simulate lp_isinf step normal vadd m fuel par steps p0 r x r' N H. unfold sample_mutation in H. cbv zeta in H.
  apply cbind_ok in H. destruct H as (y & r1 & H & _). revert r H. generalize (if par then SJs (pt_to_json p0) else SPt p0). intros s.
  induction fuel as [|f IH]; intros r H; cbn [mut_loop isinf] in H; [discriminate H|].
  apply cbind_ok in H. destruct H as (p1 & r2 & E1 & H). apply cbind_ok in H. destruct H as (c & r3 & E2 & H).
  unfold clift in E2. injection E2 as E2. rewrite (N _ _ _ _ E2) in H. eauto.
Qed.
Print Assumptions C58_endless.

(** ** C70 *)

Section Post.
  Context {w : world}.
  Notation pt := (particle w flt).
  Lemma collect_spec : forall eps (th tp : list pt) l, collect_smc eps th tp = Ok l -> length tp = length th -> l = th.
  Proof.
    intros eps th. induction th as [|p th IH]; intros tp l H L; simpl in H; [inversion H; auto|].
    destruct tp as [|q tp]; [discriminate L|]. apply bind_ok in H. destruct H as (d & _ & H). apply bind_ok in H.
    destruct H as (l' & H1 & H2). rewrite (IH tp l') in H2; auto. destruct (fltb d eps); inversion H2; auto.
  Qed.
End Post.

(** What sample_posteriors returns: n_collect members of the final population, each of positive
    weight. No proposal is ever among them, however many were simulated. *)
Theorem C70_members : forall w simulate lp_isinf (step : Type) normal vadd wstd draw draw_next fuel g (m : dmodel w flt) st n r l r',
  (forall r, fair (draw r)) -> (exists n, sound_state m n st) ->
  smc_posteriors simulate lp_isinf (step:=step) normal vadd wstd draw draw_next fuel g m st n r = Some (Ok l, r') ->
  length l = n /\ forall p, In p l -> exists i x, nth_error (s_pts st) i = Some p /\ nth_error (s_wts st) i = Some x /\ fltb (Fin 0) x = true.
Proof.
  intros w simulate lp_isinf step normal vadd wstd draw draw_next fuel g m st n r l r' Hf [k [Pop _]] H.
  destruct Pop as (_ & (ws & W1 & W2 & W3 & W4) & _). unfold smc_posteriors in H.
  apply cbind_ok in H. destruct H as (ind & r1 & H1 & H). apply cbind_ok in H. destruct H as (th & r2 & H2 & H).
  apply cbind_ok in H. destruct H as (tau & r3 & H3 & H). apply cbind_ok in H. destruct H as (sp & r4 & H4 & H5).
  rewrite W1, selection_proper in H1 by auto. destruct (choice_c_ok draw draw_next _ _ _ _ _ _ Hf H1) as (_ & Li & Ii).
  unfold cres in H2. injection H2 as H2 _. apply pick_spec in H2. destruct H2 as [Lp Ip].
  unfold cres in H5. injection H5 as H5 _. apply collect_spec in H5; [subst l|].
  - split; [congruence|]. intros p I. apply In_nth_error in I. destruct I as [i I]. destruct (Ip i p I) as (j & J1 & J2).
    destruct (Ii i j J1) as (u & J3 & J4). exists j, (Fin u). rewrite W1, nth_error_map, J3. splits; auto. apply fltb_fin; auto.
  - rewrite map_length. apply cmap_ok in H4. destruct H4 as [H4 _]. congruence.
Qed.
Print Assumptions C70_members.

(** After a fit: each of them is closer than the tolerance reached, if no distance is nan. *)
Theorem C70_posterior : forall w simulate lp_isinf (step : Type) normal vadd wstd draw draw_next unif rounds fuel g (m : dmodel w flt) pars0 n r st r1 l r',
  honest m simulate -> never_nan m -> (forall r, fair (draw r)) -> standard_uniform unif ->
  smc_fit simulate lp_isinf (step:=step) normal vadd wstd draw draw_next unif rounds fuel g m pars0 r = Some (Ok st, r1) ->
  smc_posteriors simulate lp_isinf (step:=step) normal vadd wstd draw draw_next fuel g m st n r1 = Some (Ok l, r') ->
  length l = n /\ forall p, In p l -> In p (s_pts st) /\ exists d, measured m p d /\ fltb d (s_eps st) = true.
Proof.
  intros w simulate lp_isinf step normal vadd wstd draw draw_next unif rounds fuel g m pars0 n r st r1 l r' Ho Hn Hf Hu E1 E2.
  pose proof (C57_fit_partial _ _ _ _ _ _ _ _ _ _ _ _ _ _ _ _ _ _ Ho Hn Hf Hu E1) as S.
  destruct (C70_members _ _ _ _ _ _ _ _ _ _ _ _ _ _ _ _ _ Hf (ex_intro (fun k => sound_state m k st) _ S) E2) as [L M]. split; auto.
  intros p I. destruct (M p I) as (i & x & I1 & I2 & I3). split; [eapply nth_error_In; eauto|].
  destruct S as [(_ & _ & _ & S) _]. eapply S; eauto.
Qed.
Print Assumptions C70_posterior.

(** ** Concrete cases: a model whose distance is always infinite, and one whose is infinite at first *)

Definition tab_far (z : Z) : flt := PInf.
Definition tab_soon (z : Z) : flt := if Z.ltb z 16 then PInf else Fin 1.
Definition ex_next (tab : Z -> flt) (r : RNG exw) : option (flt * particle exw flt * nat) :=
  match mutate ex_normal ex_vadd [] [] r with
  | Some (Ok p1, r1) =>
      match serve (exsmc tab) p1 r1 with
      | (Ok c, r2) =>
          match exsim c r2 with
          | (Ok q, r3) => match calc_distance (Fin 0) fadd (exsmc tab) q r3 with (Ok d, p, r') => Some (d, p, r') | _ => None end
          | _ => None
          end
      | _ => None
      end
  | _ => None
  end.
Fixpoint ex_run (tab : Z -> flt) (k : nat) (r : RNG exw) : option (list (flt * particle exw flt) * nat) :=
  match k with
  | O => Some ([], r)
  | S k' => match ex_next tab r with
            | Some (d, p, r1) => match ex_run tab k' r1 with Some (l, r') => Some ((d, p) :: l, r') | None => None end
            | None => None
            end
  end.
Lemma ex_next_ok : forall tab p0 r d p r', ex_next tab r = Some (d, p, r') -> next exsim (fun _ => false) ex_normal ex_vadd (exsmc tab) p0 [] r d p r'.
Proof.
  intros tab p0 r d p r' H. unfold ex_next in H. cbn [mutate] in H. unfold mutate, cbind, cres in H. cbn [cmap cret mapM] in H. unfold cret in H.
  destruct (serve (exsmc tab) [] r) as [[c|e] r2] eqn:E1; [|discriminate H].
  destruct (exsim c r2) as [[q|e] r3] eqn:E2; [|discriminate H].
  destruct (calc_distance (Fin 0) fadd (exsmc tab) q r3) as [[[x|e] y] z] eqn:E3; [|discriminate H]. injection H as -> -> ->.
  eapply next_simulated; eauto. reflexivity.
Qed.
Lemma ex_run_ok : forall tab p0 k r l r', ex_run tab k r = Some (l, r') -> proposed exsim (fun _ => false) ex_normal ex_vadd (exsmc tab) p0 [] r l r' /\ length l = k.
Proof.
  intros tab p0 k. induction k as [|k IH]; intros r l r' H; cbn [ex_run] in H.
  - injection H as <- <-. split; auto. constructor.
  - destruct (ex_next tab r) as [[[d p] r1]|] eqn:E; [|discriminate H].
    destruct (ex_run tab k r1) as [[l1 r2]|] eqn:E2; [|discriminate H]. injection H as <- <-.
    destruct (IH _ _ _ E2) as [I1 I2]. split; [|simpl; auto]. econstructor; eauto. apply ex_next_ok; auto.
Qed.

(** Hypotheses of C58_raises and C58_fallback, and both outcomes. *)
Example C58_example : exists l r1 d p r',
  proposed exsim (fun _ => false) ex_normal ex_vadd (exsmc tab_far) (ch_locus (p_pars (ex_q tab_a 0))) [] 0 l r1
  /\ length l = 20 /\ Forall (fun x => isinf (fst x) = true) l
  /\ next exsim (fun _ => false) ex_normal ex_vadd (exsmc tab_far) (ch_locus (p_pars (ex_q tab_a 0))) [] r1 d p r'
  /\ p_distance (pt_copy (ex_q tab_a 0)) = None /\ p_distance (ex_q tab_a 0) = Some (Fin (0 + 1)).
Proof.
  assert (E : match ex_run tab_far 20 0 with Some (l, r1) => forallb (fun x => isinf (fst x)) l = true /\ match ex_next tab_far r1 with Some _ => True | None => False end | None => False end).
  { vm_compute. split; auto. }
  destruct (ex_run tab_far 20 0) as [[l r1]|] eqn:E1; [|destruct E]. destruct E as [E2 E3].
  destruct (ex_next tab_far r1) as [[[d p] r']|] eqn:E4; [|destruct E3].
  destruct (ex_run_ok _ (ch_locus (p_pars (ex_q tab_a 0))) _ _ _ _ E1) as [P L].
  exists l, r1, d, p, r'. splits; auto; try (apply ex_next_ok; auto); try (vm_compute; reflexivity).
  apply Forall_forall. intros x I. rewrite forallb_forall in E2. auto.
Qed.
Example C58_example_runs :
  (exists r', sample_mutation exsim (fun _ => false) ex_normal ex_vadd 21 (exsmc tab_far) false [] (pt_copy (ex_q tab_a 0)) 0 = Some (Err KeyError, r'))
  /\ (exists r', sample_mutation exsim (fun _ => false) ex_normal ex_vadd 21 (exsmc tab_far) true [] (ex_q tab_a 0) 0 = Some (Err KeyError, r'))
  /\ match sample_mutation exsim (fun _ => false) ex_normal ex_vadd 21 (exsmc tab_far) false [] (ex_q tab_a 0) 0 with
     | Some (Ok (d, q, n), _) => d = Fin (0 + 1) /\ n = 21 | _ => False end
  /\ match sample_mutation exsim (fun _ => false) ex_normal ex_vadd 21 (exsmc tab_soon) false [] (pt_copy (ex_q tab_a 0)) 0 with
     | Some (Ok (d, q, n), _) => d = Fin (0 + 1) /\ p_distance q = Some d /\ 1 < n <= 20 | _ => False end
  /\ (forall p1 r1 c r2, serve (exsmc tab_a) p1 r1 = (Ok c, r2) -> (fun _ : LP exw => true) (ch_lp c) = true).
Proof.
  splits; auto.
  - eexists. vm_compute. reflexivity.
  - eexists. vm_compute. reflexivity.
  - vm_compute. split; reflexivity.
  - vm_compute. splits; auto; lia.
Qed.

(** Two draws from the population of C57_example_state. *)
Example C70_example : forall ess, exists r', sound_state (exsmc tab_a) 4 (ex_st tab_a ess)
  /\ smc_posteriors exsim (fun _ => false) ex_normal ex_vadd ex_wstd ex_draw (fun r => r) 1 ex_cfg (exsmc tab_a) (ex_st tab_a ess) 2 8
     = Some (Ok [ex_q tab_a 0; ex_q tab_a 0], r').
Proof.
  intros ess. unfold smc_posteriors. cbn [ex_st s_pts s_wts s_eps].
  rewrite selection_proper by (unfold ex_ws; repeat constructor; simpl; lra).
  assert (C : choice_c ex_draw (fun r : RNG exw => r) (length (ex_qs tab_a)) 2 (map Fin ex_ws) 8 = Some (Ok [0; 0], 8)).
  { unfold choice_c. change (Nat.eqb (length (map Fin ex_ws)) (length (ex_qs tab_a))) with true. cbv iota. unfold choice. rewrite as_fin_Fin.
    assert (E : forallb (rleb 0) ex_ws = true) by (unfold ex_ws; cbn [forallb]; assert (K : (0 <= 1 / INR 4)%R) by (simpl; lra); apply rleb_true in K; rewrite !K; reflexivity).
    assert (S : reqb (rsum ex_ws) 1 = true) by (apply reqb_true; unfold ex_ws; simpl; lra).
    rewrite E, S. cbn [andb]. unfold ex_draw, ex_ws. cbn [first_pos repeat].
    assert (K : (0 < 1 / INR 4)%R) by (simpl; lra). apply rltb_true in K. rewrite K. reflexivity. }
  unfold cbind at 1. rewrite C. unfold cbind at 1. change (pick (ex_qs tab_a) [0; 0]) with (Ok [ex_q tab_a 0; ex_q tab_a 0]). unfold cres at 1.
  unfold cbind at 1. unfold clift, ex_wstd. unfold cbind at 1.
  match goal with |- context[cmap ?f ?l 8] => set (o := cmap f l 8) end.
  assert (E : match o with Some (Ok l, r') => map (fun s => p_distance (snd (fst s))) l = [Some (Fin (0 + 2)); Some (Fin (0 + 2))] | _ => False end).
  { unfold o. vm_compute. reflexivity. }
  clearbody o. destruct o as [[[l|e] r']|]; [|destruct E|destruct E]. exists r'. split; [apply C57_example_state|].
  destruct l as [|[[d1 p1] n1] [|[[d2 p2] n2] [|]]]; try discriminate E. cbn [map fst snd] in E. injection E as E1 E2.
  unfold cres. cbn [map fst snd collect_smc src_distance]. rewrite E1, E2. cbn [bind]. repeat match goal with |- context[if ?b then ?x else ?x] => replace (if b then x else x) with x by (destruct b; auto) end. reflexivity.
Qed.
