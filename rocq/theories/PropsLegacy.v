(** * Properties C81-C84: the older package fitting/ *)

Require Import Coq.Reals.Reals.
Require Import Verif.Base Verif.World Verif.ModelGraph Verif.ModelExpr Verif.ModelLoci Verif.ModelBN Verif.ModelSample
        Verif.ModelScript Verif.ModelNum Verif.ModelFloat Verif.ModelFitBase Verif.ModelABC Verif.ModelLegacy
        Verif.Spec Verif.SpecBN Verif.ProofBase Verif.ProofBNHist Verif.ProofScript Verif.ExWorld Verif.PropsBN Verif.PropsScript Verif.PropsEnd.
Require Import Coq.ZArith.ZArith Lia.
Require Verif.ProofNodeSet.
Local Open Scope nat_scope.

(** ** C81: no objective with a network can be constructed *)

Theorem C81_no_objective : forall w (y : syntax w) is_float s exo r o r', objective_init is_float y s exo r = (o, r') -> exists e, o = Err e.
Proof.
  intros w y fl s exo r o r' H. unfold objective_init in H.
  destruct (do b <- read_source y s; _) as [[b free]|e]; [|injection H as <- _; eauto].
  unfold bn_sample_prior in H. destruct (sample b exo r) as [[p|e] r1]; [|injection H as <- _; eauto].
  unfold bn_evaluate_prior in H. injection H as <- _. eauto.
Qed.
Print Assumptions C81_no_objective.

(** Where nothing else is wrong (the network can be read, is coherent, and can be sampled) it is
    the missing method that raises. *)
Theorem C81_missing_method : forall w (y : syntax w) is_float s exo r b d r', read_source y s = Ok b -> built b ->
  sample b exo r = (Ok d, r') -> objective_init is_float y s exo r = (Err AttributeError, r').
Proof.
  intros w y fl s exo r b d r' H B E. unfold objective_init. rewrite H. destruct (built_coherent b B) as [C F].
  assert (X : exists od, Order b = Ok od /\ forall n, In n od -> node b n).
  { unfold sample in E. destruct (Exo b); [|discriminate E]. destruct (existsb _ a); [discriminate E|].
    destruct (Order b) as [od|e] eqn:Eo; [|discriminate E]. exists od. split; auto. intros n Hn.
    destruct (ProofBNViews.fresh_views b F) as (Fo & _). rewrite Fo in Eo. destruct (ProofGraph.order_topo (dag b) od (co_wf _ C) Eo) as [[_ T] _]. apply T. exact Hn. }
  destruct X as (od & Eo & Hod). cbn [bind]. rewrite Eo. cbn [bind].
  assert (Y : exists free, filterM (fun n => do rv <- is_rv b n; Ok (rv && negb (dmem n exo))) od = Ok free).
  { clear Eo. induction od as [|n od IH]; cbn [filterM]; [eauto|].
    destruct IH as [l IH]; [intros k Hk; apply Hod; right; auto|].
    assert (N : node b n) by (apply Hod; left; auto). apply ProofBN.node_holds in N. destruct N as [lo (a & A1 & A2)].
    assert (R : is_rv b n = Ok (is_rv_l (a_loci a))) by (unfold is_rv, bget; rewrite A1; reflexivity).
    rewrite R. cbn [bind]. rewrite IH. cbn [bind]. eauto. }
  destruct Y as [free Ey]. rewrite Ey. cbn [bind]. unfold bn_sample_prior. rewrite E. reflexivity.
Qed.
Print Assumptions C81_missing_method.

(** serve of such an objective could not be used either: it samples with the given values, over which
    the exogenous ones take precedence, and then raises. *)
Theorem C81_serve : forall w (b : bn w) exo p q r, (q = fold_left (fun d kv => dset d (fst kv) (snd kv)) exo p) ->
  (forall d r', sample b q r = (Ok d, r') -> bn_serve b exo p r = (Err AttributeError, r'))
  /\ (forall e r', sample b q r = (Err e, r') -> bn_serve b exo p r = (Err e, r')).
Proof.
  intros w b exo p q r Q. assert (D : dupdate p exo = q) by (rewrite Q; unfold dupdate; reflexivity).
  split; [intros d r' H|intros e r' H]; unfold bn_serve; rewrite D, H; reflexivity.
Qed.
Print Assumptions C81_serve.

Lemma cbind_fails : forall G A B (x : comp G A) (f : A -> comp G B) r o r', cbind x f r = Some (o, r') ->
  (forall a r, match f a r with Some (Ok _, _) => False | _ => True end) -> exists e, o = Err e.
Proof.
  intros G A B x f r o r' H K. unfold cbind in H. destruct (x r) as [[[a|e] r1]|]; [|injection H as <- _; eauto|discriminate H].
  specialize (K a r1). rewrite H in K. destruct o; [destruct K|eauto].
Qed.

(** An objective that inherits evaluate cannot be drawn from either, whatever else it defines. *)
Theorem C81_inherited_evaluate : forall w (ob : objective w) fuel r p r1, 0 < fuel -> ob_eval ob = base_evaluate ->
  ob_sample ob r = Some (Ok p, r1) -> draw fuel ob r = Some (Err AttributeError, r1).
Proof.
  intros w ob fuel r p r1 L E S. destruct fuel as [|f]; [lia|]. unfold draw. cbn [draw_loop isinf]. unfold cbind. rewrite S, E. reflexivity.
Qed.
Print Assumptions C81_inherited_evaluate.

(** Example: the script of PropsScript, with a value for the name it leaves open *)
Example C81_example : objective_init (fun _ => true) exy (FromScript (join [nl] exlines2)) [("s", PZ 1)] 5 = (Err AttributeError, 6).
Proof.
  destruct C80_example as (s & E & B & _ & _ & d & S & _).
  apply (C81_missing_method exw exy (fun _ => true) (FromScript (join [nl] exlines2)) [("s", PZ 1)] 5 (sn_bn s) d 6); auto.
  cbn [read_source]. rewrite E. reflexivity.
Qed.

(** the exogenous value of s wins, and sampling gets as far as the missing method *)
Example C81_example_serve : exists s, bayes_net_from_script exy (join [nl] exlines2) = Ok s /\ bn_serve (sn_bn s) [("s", PZ 1)] [("s", PZ 7)] 5 = (Err AttributeError, 6).
Proof.
  destruct C80_example as (s & E & B & _ & _ & d & S & _). exists s. split; [exact E|].
  exact (proj1 (C81_serve exw (sn_bn s) [("s", PZ 1)] [("s", PZ 7)] [("s", PZ 1)] 5 eq_refl) d 6 S).
Qed.

(** ** C82: drawing from the prior *)

(** what stands for a failure: no values, no prior, likelihood -inf *)
Definition failure {w : world} : lchrom w := mkL (mkChrom [] (lp_nan w)) None (Some NInf).

(** what a clone has: the values and their probability, but neither prior nor likelihood *)
Definition copy_of {w : world} (p : lchrom w) : lchrom w := mkL (mkChrom (ch_locus (l_ch p)) (ch_lp (l_ch p))) None None.

Section Draw.
  Context {w : world} (ob : objective w).
  (** Draws from the prior and their likelihoods, one after the other *)
  Inductive drawn : RNG w -> list (flt * lchrom w) -> RNG w -> Prop :=
  | drawn_nil : forall r, drawn r [] r
  | drawn_cons : forall r p r1 li c r2 l r', ob_sample ob r = Some (Ok p, r1) -> ob_eval ob p r1 = Some (Ok (li, c), r2) ->
      drawn r2 l r' -> drawn r ((li, c) :: l) r'.
  (** [m] more draws are allowed, and one that is not looked at: the first with a likelihood that
      is not infinite is the result, after [m] failures it is the empty chromosome. *)
  Definition picked (m : nat) (l : list (flt * lchrom w)) (q : lchrom w) : Prop :=
    exists l0 li c, l = l0 ++ [(li, c)] /\ Forall (fun x => isinf (fst x) = true) l0
      /\ ((length l0 < m /\ isinf li = false /\ q = c) \/ (length l0 = m /\ q = failure)).

  Lemma draw_loop_sound : forall fuel p li i r q k r', i <= 20 -> isinf li = true -> draw_loop fuel ob p li i r = Some (Ok (q, k), r') ->
    exists l c, drawn r l r' /\ q = Some c /\ k = i + length l /\ picked (20 - i) l c.
  Proof.
    induction fuel as [|f IH]; intros p li i r q k r' Hi Hl H; cbn [draw_loop] in H; rewrite Hl in H; [discriminate H|].
    unfold cbind in H. destruct (ob_sample ob r) as [[[p1|e] r1]|] eqn:E1; [|discriminate H|discriminate H].
    destruct (ob_eval ob p1 r1) as [[[[li1 c1]|e] r2]|] eqn:E2; [|discriminate H|discriminate H]. cbn [fst snd] in H.
    destruct (Nat.ltb_spec 20 (S i)) as [L|L].
    - unfold cret in H. injection H as <- <- <-. exists [(li1, c1)], failure. splits; auto.
      + econstructor; eauto. constructor.
      + simpl. lia.
      + exists [], li1, c1. splits; auto. right. cbn [length]. split; [lia|auto].
    - destruct (isinf li1) eqn:I1.
      + destruct (IH _ _ (S i) _ _ _ _ L I1 H) as (l & c & D & -> & -> & l0 & li2 & c2 & -> & F & Q).
        exists ((li1, c1) :: l0 ++ [(li2, c2)]), c. split; [econstructor; eauto|]. split; [reflexivity|]. split; [cbn [length]; lia|].
        exists ((li1, c1) :: l0), li2, c2. splits; auto. destruct Q as [(Q1 & Q2 & Q3)|(Q1 & Q2)]; [left|right]; cbn [length]; splits; auto; lia.
      + destruct f as [|f]; cbn [draw_loop] in H; rewrite I1 in H; unfold cret in H; injection H as <- <- <-;
          exists [(li1, c1)], c1; splits; auto; try (econstructor; eauto; constructor); try (simpl; lia);
          exists [], li1, c1; splits; auto; left; cbn [length]; splits; auto; lia.
  Qed.

  Lemma draw_loop_complete : forall l r r', drawn r l r' -> forall fuel p li i q, i <= 20 -> isinf li = true -> picked (20 - i) l q -> length l <= fuel ->
    draw_loop fuel ob p li i r = Some (Ok (Some q, i + length l), r').
  Proof.
    intros l r r' D. induction D as [r|r p1 r1 li1 c1 r2 l r' E1 E2 D IH]; intros fuel p li i q Hi Hl (l0 & li2 & c2 & E & F & Q) L.
    - destruct l0; discriminate E.
    - destruct fuel as [|f]; [simpl in L; lia|]. cbn [draw_loop]. rewrite Hl. unfold cbind. rewrite E1, E2. cbn [fst snd].
      destruct l0 as [|x l0].
      + injection E as -> -> ->. inversion D; subst. destruct (Nat.ltb_spec 20 (S i)) as [K|K].
        * destruct Q as [(Q1 & _)|(Q1 & ->)]; [cbn [length] in Q1; lia|]. unfold cret. repeat f_equal. simpl. lia.
        * destruct Q as [(Q1 & Q2 & ->)|(Q1 & _)]; [|cbn [length] in Q1; lia]. destruct f; cbn [draw_loop]; rewrite Q2; unfold cret; repeat f_equal; simpl; lia.
      + cbn [app] in E. injection E as <- ->. inversion F as [|? ? F1 F2]; subst. cbn [fst] in F1.
        assert (K : S i <= 20) by (cbn [length] in Q; lia). destruct (Nat.ltb_spec 20 (S i)) as [K'|_]; [lia|].
        rewrite (IH f (Some c1) li1 (S i) q K F1); [cbn [length]; rewrite Nat.add_succ_r; reflexivity| |cbn [length] in L; lia].
        exists l0, li2, c2. splits; auto. destruct Q as [(Q1 & Q2 & Q3)|(Q1 & Q2)]; [left|right]; cbn [length] in Q1; splits; auto; lia.
  Qed.

  Lemma draw_loop_ends : (forall r, ob_sample ob r <> None) -> (forall p r, ob_eval ob p r <> None) ->
    forall fuel p li i r, 21 <= i + fuel -> i <= 20 \/ isinf li = false -> draw_loop fuel ob p li i r <> None.
  Proof.
    intros H1 H2 fuel. induction fuel as [|f IH]; intros p li i r L K; cbn [draw_loop].
    - destruct K as [K|K]; [lia|]. rewrite K. discriminate.
    - destruct (isinf li) eqn:I; [|discriminate]. unfold cbind. specialize (H1 r). destruct (ob_sample ob r) as [[[p1|e] r1]|]; [|discriminate|congruence].
      specialize (H2 p1 r1). destruct (ob_eval ob p1 r1) as [[[[li1 c1]|e] r2]|]; [|discriminate|congruence]. cbn [fst snd].
      destruct (Nat.ltb_spec 20 (S i)); [discriminate|]. apply IH; [lia|auto].
  Qed.
End Draw.

(** At most 21 draws: the result is the first of the first twenty with a likelihood that is not
    infinite (nan counts as such), or the empty chromosome with likelihood -inf; the count is the
    number of draws made. *)
Theorem C82_draw : forall w (ob : objective w) fuel r o k r', 21 <= fuel ->
  (draw fuel ob r = Some (Ok (o, k), r') <-> exists l q, o = Some q /\ drawn ob r l r' /\ k = length l /\ picked 20 l q).
Proof.
  intros w ob fuel r o k r' L. split.
  - intros H. destruct (draw_loop_sound ob fuel None PInf 0 r o k r' (Nat.le_0_l _) eq_refl H) as (l & c & D & E & K & P). exists l, c. splits; auto.
  - intros (l & q & -> & D & -> & P). apply (draw_loop_complete ob l r r' D fuel None PInf 0 q); auto; [lia|].
    destruct P as (l0 & li & c & -> & _ & Q). rewrite app_length. simpl. lia.
Qed.
Print Assumptions C82_draw.

Theorem C82_ends : forall w (ob : objective w) fuel r, 21 <= fuel -> (forall r, ob_sample ob r <> None) -> (forall p r, ob_eval ob p r <> None) ->
  draw fuel ob r <> None.
Proof. intros w ob fuel r L H1 H2. apply (draw_loop_ends ob H1 H2); auto with arith. Qed.
Print Assumptions C82_ends.

(** an objective over [exw] whose k-th draw has value k and likelihood [f k] *)
Definition exl (n : nat) : lchrom exw := l_new (w:=exw) [("a", PZ (Z.of_nat n))].
Definition exob (f : nat -> flt) : objective exw := mkOb (w:=exw)
  (fun r : nat => Some (Ok (exl r), S r)) (fun d r => Some (Ok (l_new d), r))
  (fun c r => Some (Ok (mkL (l_ch c) (Some (Fin 0)) (l_lik c)), r))
  (fun c r => Some (Ok (f r, mkL (l_ch c) (l_prior c) (Some (f r))), r)).

(** The 21st draw is made and thrown away, even if it is the first that would do. *)
Theorem C82_last_draw_lost_refuted : exists (ob : objective exw) l li c, drawn ob 0 (l ++ [(li, c)]) 21 /\ Forall (fun x => isinf (fst x) = true) l
  /\ isinf li = false /\ draw 21 ob 0 = Some (Ok (Some failure, 21), 21).
Proof.
  exists (exob (fun n => if Nat.ltb n 21 then NInf else Fin 1)), (map (fun k => (NInf, mkL (l_ch (exl k)) None (Some NInf))) (seq 0 20)), (Fin 1), (mkL (l_ch (exl 20)) None (Some (Fin 1))).
  split; [|split; [|split; reflexivity]].
  - cbn [seq map app]. repeat (eapply drawn_cons; [reflexivity|reflexivity|]). constructor.
  - apply Forall_forall. intros x Hx. apply in_map_iff in Hx. destruct Hx as (k & <- & _). reflexivity.
Qed.
Print Assumptions C82_last_draw_lost_refuted.

Example C82_example : exists l q, draw 21 (exob (fun n => if Nat.ltb n 3 then PInf else Fin 1)) 0 = Some (Ok (Some q, length l), 3)
  /\ length l = 3 /\ drawn (exob (fun n => if Nat.ltb n 3 then PInf else Fin 1)) 0 l 3 /\ picked 20 l q /\ ch_locus (l_ch q) = [("a", PZ 2)] /\ l_lik q = Some (Fin 1).
Proof.
  assert (E : exists q, draw 21 (exob (fun n => if Nat.ltb n 3 then PInf else Fin 1)) 0 = Some (Ok (Some q, 3), 3) /\ ch_locus (l_ch q) = [("a", PZ 2)] /\ l_lik q = Some (Fin 1)).
  { exists (mkL (l_ch (exl 2)) None (Some (Fin 1))). split; [reflexivity|]. split; reflexivity. }
  destruct E as (q & E & E2 & E3). pose proof E as E0. apply C82_draw in E; [|lia]. destruct E as (l & q' & Eq & D & L & P). injection Eq as <-.
  exists l, q. rewrite <- L. splits; auto.
Qed.

(** ** C83: mutating and drawing *)

Section Mutate.
  Context {w : world} (addv : V w -> R -> res (V w)) (normal : R -> RNG w -> res R * RNG w) (ob : objective w).
  (** one round: the sizes, and either a mutant outside the prior or the likelihood of the mutant *)
  Inductive mround (p0 : lchrom w) (scale : dict R) (r : RNG w) : option flt -> RNG w -> Prop :=
  | mr_invalid : forall sz r1, draw_sizes normal scale r = Some (Ok sz, r1) -> mutate addv p0 sz = Err ValueError -> mround p0 scale r None r1
  | mr_outside : forall sz r1 p q r2 lp, draw_sizes normal scale r = Some (Ok sz, r1) -> mutate addv p0 sz = Ok p ->
      ob_prior ob p r1 = Some (Ok q, r2) -> l_prior q = Some lp -> isinf lp = true -> mround p0 scale r None r2
  | mr_inside : forall sz r1 p q r2 lp li c r3, draw_sizes normal scale r = Some (Ok sz, r1) -> mutate addv p0 sz = Ok p ->
      ob_prior ob p r1 = Some (Ok q, r2) -> l_prior q = Some lp -> isinf lp = false -> ob_eval ob q r2 = Some (Ok (li, c), r3) ->
      mround p0 scale r (Some li) r3.
  Inductive mrounds (p0 : lchrom w) (scale : dict R) : RNG w -> list (option flt) -> RNG w -> Prop :=
  | mrs_nil : forall r, mrounds p0 scale r [] r
  | mrs_cons : forall r x r1 l r', mround p0 scale r x r1 -> mrounds p0 scale r1 l r' -> mrounds p0 scale r (x :: l) r'.
  (** the likelihoods in a list of rounds *)
  Definition liks (l : list (option flt)) : list flt := flat_map (fun x => match x with Some li => [li] | None => [] end) l.

  Lemma mutate_loop_sound : forall fuel p0 scale li i r q k r', i <= 20 -> isinf li = true ->
    mutate_loop addv normal fuel ob p0 scale li i r = Some (Ok (q, k), r') ->
    exists l l0 x, mrounds p0 scale r l r' /\ liks l = l0 ++ [x] /\ Forall (fun li => isinf li = true) l0 /\ k = i + length (liks l)
      /\ ((k <= 20 /\ isinf x = false /\ q = copy_of p0) \/ (k = 21 /\ q = failure)).
  Proof.
    induction fuel as [|f IH]; intros p0 scale li i r q k r' Hi Hl H; cbn [mutate_loop] in H; rewrite Hl in H; [discriminate H|].
    unfold cbind at 1 in H. destruct (draw_sizes normal scale r) as [[[sz|e] r1]|] eqn:E1; [|discriminate H|discriminate H].
    assert (Again : forall x r2, mround p0 scale r x r2 -> liks [x] = [] -> mutate_loop addv normal f ob p0 scale li i r2 = Some (Ok (q, k), r') ->
      exists l l0 x, mrounds p0 scale r l r' /\ liks l = l0 ++ [x] /\ Forall (fun li => isinf li = true) l0 /\ k = i + length (liks l)
      /\ ((k <= 20 /\ isinf x = false /\ q = copy_of p0) \/ (k = 21 /\ q = failure))).
    { intros x r2 M Lx H'. destruct (IH _ _ _ _ _ _ _ _ Hi Hl H') as (l & l0 & y & A1 & A2 & A3 & A4 & A5).
      destruct x as [x|]; [discriminate Lx|]. exists (None :: l), l0, y. splits; auto. econstructor; eauto. }
    destruct (mutate addv p0 sz) as [p|e] eqn:E2; [|destruct e; try discriminate H; eapply Again; [eapply mr_invalid; eauto|reflexivity|exact H]].
    unfold cbind at 1 in H. destruct (ob_prior ob p r1) as [[[c|e] r2]|] eqn:E3; [|discriminate H|discriminate H].
    unfold cbind at 1, cres at 1 in H. destruct (l_prior c) as [lp|] eqn:E4; [|discriminate H]. cbn [getattr] in H.
    destruct (isinf lp) eqn:E5; [eapply Again; [eapply mr_outside; eauto|reflexivity|exact H]|].
    unfold cbind in H. destruct (ob_eval ob c r2) as [[[[x c2]|e] r3]|] eqn:E6; [|discriminate H|discriminate H]. cbn [fst] in H.
    assert (M : mround p0 scale r (Some x) r3) by (eapply mr_inside; eauto).
    destruct (Nat.ltb_spec 20 (S i)) as [L|L].
    - unfold cret in H. injection H as <- <- <-. exists [Some x], [], x. splits; auto; [econstructor; eauto; constructor|simpl; lia|]. right. split; [lia|auto].
    - destruct (isinf x) eqn:I1.
      + destruct (IH _ _ _ (S i) _ _ _ _ L I1 H) as (l & l0 & y & A1 & A2 & A3 & A4 & A5). exists (Some x :: l), (x :: l0), y. splits; auto.
        * econstructor; eauto.
        * cbn [liks flat_map app]. fold (liks l). rewrite A2. reflexivity.
        * cbn [liks flat_map app length]. fold (liks l). lia.
      + destruct f as [|f]; cbn [mutate_loop] in H; rewrite I1 in H; unfold cret in H; injection H as <- <- <-;
          exists [Some x], [], x; splits; auto; try (econstructor; eauto; constructor); try (simpl; lia); left; splits; auto.
  Qed.
End Mutate.

(** mutate_and_draw runs rounds until a likelihood is not infinite or 21 have been computed - and
    then returns a clone of the chromosome it was given, or the empty one: no mutant ever. *)
Theorem C83_never_a_mutant : forall w addv normal (ob : objective w) fuel p0 scale r q k r',
  mutate_and_draw addv normal fuel ob p0 scale r = Some (Ok (q, k), r') ->
  exists l l0 x, mrounds addv normal ob p0 scale r l r' /\ liks l = l0 ++ [x] /\ Forall (fun li => isinf li = true) l0 /\ k = length (liks l)
    /\ ((k <= 20 /\ isinf x = false /\ q = copy_of p0) \/ (k = 21 /\ q = failure)).
Proof. intros w addv normal ob fuel p0 scale r q k r' H. exact (mutate_loop_sound addv normal ob fuel p0 scale PInf 0 r q k r' (Nat.le_0_l _) eq_refl H). Qed.
Print Assumptions C83_never_a_mutant.

(** Rounds without a likelihood do not count: if all mutants are outside the prior, it never ends. *)
Theorem C83_endless : forall w addv normal (ob : objective w) p0 scale, (forall r, exists r', mround addv normal ob p0 scale r None r') ->
  forall fuel r, mutate_and_draw addv normal fuel ob p0 scale r = None.
Proof.
  intros w addv normal ob p0 scale H fuel. unfold mutate_and_draw. induction fuel as [|f IH]; intros r; cbn [mutate_loop isinf]; [reflexivity|].
  destruct (H r) as (r' & M). remember (None : option flt) as x eqn:Ex in M. destruct M as [sz r1 E1 E2|sz r1 p q r2 lp E1 E2 E3 E4 E5|sz r1 p q r2 lp li c r3 E1 E2 E3 E4 E5 E6]; [| |discriminate Ex].
  - unfold cbind. rewrite E1, E2. apply IH.
  - unfold cbind at 1. rewrite E1, E2. unfold cbind at 1. rewrite E3. unfold cbind at 1, cres at 1. rewrite E4. cbn [getattr]. rewrite E5. apply IH.
Qed.
Print Assumptions C83_endless.

Lemma serve_json_fails : forall w (ob : objective w) js r o r', l_serve_from_json ob js r = Some (o, r') -> exists e, o = Err e.
Proof. intros w ob js r o r' H. eapply cbind_fails; [exact H|]. intros a r0. exact I. Qed.

Lemma cmap_length_ok : forall G A B (f : A -> comp G B) l r bs r', cmap f l r = Some (Ok bs, r') -> length bs = length l.
Proof.
  intros G A B f l. induction l as [|a l IH]; intros r bs r' H; cbn [cmap] in H; [unfold cret in H; injection H as <- _; reflexivity|].
  unfold cbind at 1 in H. destruct (f a r) as [[[b|e] r1]|]; [|discriminate H|discriminate H].
  unfold cbind in H. destruct (cmap f l r1) as [[[bs'|e] r2]|] eqn:E; [|discriminate H|discriminate H]. unfold cret in H. injection H as <- _. simpl. f_equal. eauto.
Qed.

Lemma cmap_head_fails : forall G A B (f : A -> comp G B) l r o r', l <> [] -> (forall a r b r', f a r <> Some (Ok b, r')) ->
  cmap f l r = Some (o, r') -> exists e, o = Err e.
Proof.
  intros G A B f l r o r' Hl K H. destruct l as [|a l]; [congruence|]. cbn [cmap] in H. unfold cbind at 1 in H.
  destruct (f a r) as [[[b|e] r1]|] eqn:E; [destruct (K _ _ _ _ E)|injection H as <- _; eauto|discriminate H].
Qed.

Lemma serve_map_fails : forall w (ob : objective w) (l : list (dict (V w) * LP w * nat)) r o r', l <> [] ->
  cmap (fun s => dc p <- l_serve_from_json ob (fst s); cret (p, snd s)) l r = Some (o, r') -> exists e, o = Err e.
Proof.
  intros w ob l r o r' Hl H. eapply cmap_head_fails; [exact Hl| |exact H]. intros a r0 b r1 E. cbv beta in E.
  unfold cbind at 1 in E. destruct (l_serve_from_json ob (fst a) r0) as [[[p|e] r2]|] eqn:E2; [|discriminate E|discriminate E].
  apply serve_json_fails in E2. destruct E2 as [e E2]. discriminate E2.
Qed.

(** The versions for parallel runs can only end with an exception, whatever the objective, unless
    there is nothing to do. *)
Theorem C83_parallel_fails : forall w addv normal (ob : objective w) fuel p0s scale n r o r',
  (mutate_and_draw_parallel addv normal fuel ob p0s scale r = Some (o, r') -> p0s <> [] -> exists e, o = Err e)
  /\ (forall o' r2, draw_parallel fuel ob n r = Some (o', r2) -> 0 < n -> exists e, o' = Err e)
  /\ (forall o' r2, serve_and_evaluate_parallel ob p0s r = Some (o', r2) -> p0s <> [] -> exists e, o' = Err e).
Proof.
  intros w addv normal ob fuel p0s scale n r o r'. splits.
  - intros H Hn. unfold mutate_and_draw_parallel in H. unfold cbind at 1 in H.
    match type of H with match ?x with _ => _ end = _ => destruct x as [[[ps|e] r1]|] eqn:E end; [|injection H as <- _; eauto|discriminate H].
    apply cmap_length_ok in E. eapply serve_map_fails; [|exact H]. intros ->. destruct p0s; [congruence|discriminate E].
  - intros o' r2 H Hn. unfold draw_parallel in H. unfold cbind at 1 in H.
    match type of H with match ?x with _ => _ end = _ => destruct x as [[[ps|e] r1]|] eqn:E end; [|injection H as <- _; eauto|discriminate H].
    apply cmap_length_ok in E. rewrite seq_length in E. eapply serve_map_fails; [|exact H]. intros ->. simpl in E. lia.
  - intros o' r2 H Hn. unfold serve_and_evaluate_parallel in H. unfold cbind at 1 in H.
    match type of H with match ?x with _ => _ end = _ => destruct x as [[[ps|e] r1]|] eqn:E end; [|injection H as <- _; eauto|discriminate H].
    apply cmap_length_ok in E. eapply cmap_head_fails; [| |exact H].
    + intros ->. destruct p0s; [congruence|discriminate E].
    + intros a r0 b r3 E2. apply serve_json_fails in E2. destruct E2 as [e E2]. discriminate E2.
Qed.
Print Assumptions C83_parallel_fails.

(** *** The version for parallel runs *)

Section Serve.
  Context {w : world} (addv : V w -> R -> res (V w)) (normal : R -> RNG w -> res R * RNG w) (ob : objective w).
  (** the values of the mutant: every name that has a size, moved by it, and no other *)
  Definition moved (p0 : dict (V w)) (sz : dict R) (q : dict (V w)) : Prop :=
    Forall2 (fun s kv => fst kv = fst s /\ exists v, dget p0 (fst s) = Some v /\ addv v (snd s) = Ok (snd kv)) sz q.
  (** one round: a mutant that cannot be served, one outside the prior, or one with a likelihood *)
  Inductive sround (p0 : dict (V w)) (scale : dict R) (r : RNG w) : option (flt * lchrom w) -> RNG w -> Prop :=
  | sr_invalid : forall sz r1 q r2, draw_sizes normal scale r = Some (Ok sz, r1) -> moved p0 sz q -> ob_serve ob q r1 = Some (Err ValueError, r2) ->
      sround p0 scale r None r2
  | sr_outside : forall sz r1 q r2 c c' r3 lp, draw_sizes normal scale r = Some (Ok sz, r1) -> moved p0 sz q -> ob_serve ob q r1 = Some (Ok c, r2) ->
      ob_prior ob c r2 = Some (Ok c', r3) -> l_prior c' = Some lp -> isinf lp = true -> sround p0 scale r None r3
  | sr_inside : forall sz r1 q r2 c c' r3 lp x r4, draw_sizes normal scale r = Some (Ok sz, r1) -> moved p0 sz q -> ob_serve ob q r1 = Some (Ok c, r2) ->
      ob_prior ob c r2 = Some (Ok c', r3) -> l_prior c' = Some lp -> isinf lp = false -> ob_eval ob c' r3 = Some (Ok x, r4) ->
      sround p0 scale r (Some x) r4.
  Inductive srounds (p0 : dict (V w)) (scale : dict R) : RNG w -> list (option (flt * lchrom w)) -> RNG w -> Prop :=
  | srs_nil : forall r, srounds p0 scale r [] r
  | srs_cons : forall r x r1 l r', sround p0 scale r x r1 -> srounds p0 scale r1 l r' -> srounds p0 scale r (x :: l) r'.
  (** the mutants with a likelihood in a list of rounds *)
  Definition valued (l : list (option (flt * lchrom w))) : list (flt * lchrom w) := flat_map (fun x => match x with Some y => [y] | None => [] end) l.
  (** how it ends: with the first mutant whose likelihood is not infinite, or as a failure *)
  Definition served_end (p0 : dict (V w)) (scale : dict R) (i : nat) r q k r' : Prop :=
    exists l l0 x, srounds p0 scale r l r' /\ valued l = l0 ++ [x] /\ Forall (fun y => isinf (fst y) = true) l0 /\ k = i + length (valued l)
      /\ ((k <= 20 /\ isinf (fst x) = false /\ q = Some (snd x)) \/ (k = 21 /\ q = Some failure)).

  Lemma moved_ok : forall p0 (sz : dict R) q,
    mapM (fun kv => match dget p0 (fst kv) with Some v => do u <- addv v (snd kv); Ok (fst kv, u) | None => Err KeyError end) sz = Ok q -> moved p0 sz q.
  Proof.
    intros p0 sz q H. apply mapM_ok in H. eapply Verif.ProofNodeSet.Forall2_imp; [|exact H]. intros [k z] [k2 v2] K. cbn [fst snd] in *. cbv beta in K. cbn [fst snd] in K.
    destruct (dget p0 k) as [v|] eqn:D; [|discriminate K]. destruct (addv v z) as [u|e] eqn:A; [|discriminate K]. cbn [bind] in K. injection K as <- <-.
    split; [reflexivity|]. exists v. auto.
  Qed.

  Lemma serve_loop_sound : forall fuel p0 scale p li i r q k r', i <= 20 -> isinf li = true ->
    serve_loop addv normal fuel ob p0 scale p li i r = Some (Ok (q, k), r') -> served_end p0 scale i r q k r'.
  Proof.
    induction fuel as [|f IH]; intros p0 scale p li i r q k r' Hi Hl H; cbn [serve_loop] in H; rewrite Hl in H; [discriminate H|].
    unfold cbind at 1 in H. destruct (draw_sizes normal scale r) as [[[sz|e] r1]|] eqn:E1; [|discriminate H|discriminate H].
    assert (Again : forall p1 r2, sround p0 scale r None r2 -> serve_loop addv normal f ob p0 scale p1 li i r2 = Some (Ok (q, k), r') -> served_end p0 scale i r q k r').
    { intros p1 r2 M H'. destruct (IH _ _ _ _ _ _ _ _ _ Hi Hl H') as (l & l0 & y & A1 & A2 & A3 & A4 & A5).
      exists (None :: l), l0, y. splits; auto. econstructor; eauto. }
    unfold cbind at 1, cres at 1 in H. destruct (mapM _ sz) as [d|e] eqn:E2; [|discriminate H]. apply moved_ok in E2.
    destruct (ob_serve ob d r1) as [[[c|e] r2]|] eqn:E3; [| |discriminate H].
    - unfold cbind at 1 in H. destruct (ob_prior ob c r2) as [[[c1|e] r3]|] eqn:E4; [|discriminate H|discriminate H].
      unfold cbind at 1, cres at 1 in H. destruct (l_prior c1) as [lp|] eqn:E5; [|discriminate H]. cbn [getattr] in H.
      destruct (isinf lp) eqn:E6; [eapply Again; [eapply sr_outside; eauto|exact H]|].
      unfold cbind in H. destruct (ob_eval ob c1 r3) as [[[x|e] r4]|] eqn:E7; [|discriminate H|discriminate H].
      assert (M : sround p0 scale r (Some x) r4) by (eapply sr_inside; eauto).
      destruct (Nat.ltb_spec 20 (S i)) as [L|L].
      + unfold cret in H. injection H as <- <- <-. exists [Some x], [], x. splits; auto; [econstructor; eauto; constructor|simpl; lia|]. right. split; [lia|auto].
      + destruct (isinf (fst x)) eqn:I1.
        * destruct (IH _ _ _ _ (S i) _ _ _ _ L I1 H) as (l & l0 & y & A1 & A2 & A3 & A4 & A5). exists (Some x :: l), (x :: l0), y. splits; auto.
          -- econstructor; eauto.
          -- cbn [valued flat_map app]. fold (valued l). rewrite A2. reflexivity.
          -- cbn [valued flat_map app length]. fold (valued l). lia.
        * destruct f as [|f]; cbn [serve_loop] in H; rewrite I1 in H; unfold cret in H; injection H as <- <- <-;
            exists [Some x], [], x; splits; auto; try (econstructor; eauto; constructor); try (simpl; lia); left; splits; auto.
    - destruct e; try discriminate H. eapply Again; [eapply sr_invalid; eauto|exact H].
  Qed.
End Serve.

(** Before its result is thrown away the version for parallel runs does find mutants: the first one
    whose likelihood is not infinite, among the first twenty that have one. *)
Theorem C83_served : forall w addv normal (ob : objective w) fuel p0 scale r q k r',
  serve_loop addv normal fuel ob p0 scale None PInf 0 r = Some (Ok (q, k), r') -> served_end addv normal ob p0 scale 0 r q k r'.
Proof. intros w addv normal ob fuel p0 scale r q k r' H. exact (serve_loop_sound addv normal ob fuel p0 scale None PInf 0 r q k r' (Nat.le_0_l _) eq_refl H). Qed.
Print Assumptions C83_served.

(** serve_and_evaluate computes a likelihood exactly for the chromosomes whose prior is not infinite:
    the others keep the likelihood they had. *)
Theorem C83_evaluated : forall w (ob : objective w) p r q r',
  (forall p r p1 r1, ob_prior ob p r = Some (Ok p1, r1) -> l_lik p1 = l_lik p) ->
  (forall p r li c r1, ob_eval ob p r = Some (Ok (li, c), r1) -> l_prior c = l_prior p /\ l_lik c = Some li) ->
  serve_and_evaluate ob p r = Some (Ok q, r') ->
  exists lp, l_prior q = Some lp /\ if isinf lp then l_lik q = l_lik p else exists p1 r1 li c, ob_prior ob p r = Some (Ok p1, r1) /\ ob_eval ob p1 r1 = Some (Ok (li, c), r') /\ l_lik q = Some li.
Proof.
  intros w ob p r q r' P V H. unfold serve_and_evaluate in H. unfold cbind at 1 in H.
  destruct (ob_prior ob p r) as [[[p1|e] r1]|] eqn:E1; [|discriminate H|discriminate H].
  unfold cbind at 1, cres in H. destruct (l_prior p1) as [lp|] eqn:E2; [|discriminate H]. cbn [getattr] in H. destruct (isinf lp) eqn:I1.
  - unfold cret in H. injection H as <- <-. exists lp. rewrite I1. split; [exact E2|]. exact (P _ _ _ _ E1).
  - unfold cbind in H. destruct (ob_eval ob p1 r1) as [[[[li c]|e] r2]|] eqn:E3; [|discriminate H|discriminate H]. unfold cret in H. injection H as <- <-. cbn [snd].
    destruct (V _ _ _ _ _ E3) as [V1 V2]. exists lp. rewrite I1. split; [congruence|]. exists p1, r1, li, c. splits; auto.
Qed.
Print Assumptions C83_evaluated.

(** Example: the mutant would have the value 5 + 1, the result has 5 *)
Definition exadd (v : V exw) (s : R) : res (V exw) := match v with PZ z => Ok (PZ (z + 1)) | _ => Err TypeError end.
Definition exnormal (s : R) (r : RNG exw) : res R * RNG exw := (Ok s, S r).
Example C83_example : exists p, mutate exadd (exl 5) [("a", R1)] = Ok p /\ ch_locus (l_ch p) = [("a", PZ 6)]
  /\ mutate_and_draw exadd exnormal 9 (exob (fun n => if Nat.ltb n 3 then NInf else Fin 1)) (exl 5) [("a", R1)] 0 = Some (Ok (exl 5, 3), 3)
  /\ (exists r', draw_parallel 21 (exob (fun _ => Fin 1)) 2 0 = Some (Err KeyError, r')).
Proof. eexists. splits; try reflexivity. eexists. reflexivity. Qed.

(** the version for parallel runs finds the mutant, with the value 6; a point outside the prior is
    not evaluated *)
Example C83_example_served : exists q, serve_loop (w:=exw) exadd exnormal 9 (exob (fun n => if Nat.ltb n 3 then NInf else Fin 1)) [("a", PZ 5)] [("a", R1)] None PInf 0 0
    = Some (Ok (Some q, 3), 3) /\ ch_locus (l_ch q) = [("a", PZ 6)] /\ l_lik q = Some (Fin 1).
Proof. exists (mkL (mkChrom (w:=exw) [("a", PZ 6)] (lp_nan exw)) (Some (Fin 0)) (Some (Fin 1))). split; [vm_compute; reflexivity|]. split; reflexivity. Qed.
Example C83_example_evaluated : (exists q, serve_and_evaluate (exob (fun n => Fin 1)) (exl 5) 0 = Some (Ok q, 0) /\ l_lik q = Some (Fin 1))
  /\ exists q, serve_and_evaluate (mkOb (w:=exw) (fun r : nat => Some (Ok (exl r), S r)) (fun d r => Some (Ok (l_new d), r))
    (fun c r => Some (Ok (mkL (l_ch c) (Some NInf) (l_lik c)), r)) (fun c r => Some (Ok (Fin 1, mkL (l_ch c) (l_prior c) (Some (Fin 1))), r))) (exl 5) 0 = Some (Ok q, 0) /\ l_lik q = None.
Proof. split; eexists; split; reflexivity. Qed.

Example C83_example_endless : forall fuel, mutate_and_draw (w:=exw) exadd exnormal fuel
  (mkOb (w:=exw) (fun r => Some (Ok (exl r), r)) (fun d r => Some (Ok (l_new d), r)) (fun c r => Some (Ok (mkL (l_ch c) (Some NInf) None), r)) base_evaluate)
  (exl 5) [("a", R1)] 0 = None.
Proof.
  intros fuel. apply C83_endless. intros r. exists (S r). eapply mr_outside; [reflexivity|reflexivity|reflexivity|reflexivity|reflexivity].
Qed.

(** ** C84: PriorSampling *)

Section Prior.
  Context {w : world} (ob : objective w).
  (** [n] results of draw, one after the other, with their numbers of evaluations *)
  Inductive draws (fuel : nat) : RNG w -> list (option (lchrom w) * nat) -> RNG w -> Prop :=
  | draws_nil : forall r, draws fuel r [] r
  | draws_cons : forall r x r1 l r', draw fuel ob r = Some (Ok x, r1) -> draws fuel r1 l r' -> draws fuel r (x :: l) r'.

  Lemma collect_serial_draws : forall fuel l r r', draws fuel r l r' -> forall ps k,
    collect_serial fuel ob (length l) ps k r = Some (Ok tt, mkPset (ps ++ map fst l) (Some (k + length l)), r').
  Proof.
    intros fuel l r r' D. induction D as [r|r [p i] r1 l r' E D IH]; intros ps k; cbn [collect_serial length].
    - simpl. rewrite app_nil_r, Nat.add_0_r. reflexivity.
    - rewrite E. rewrite IH. rewrite <- app_assoc. cbn [app map fst]. rewrite Nat.add_succ_r. reflexivity.
  Qed.
End Prior.

(** fit of PriorSampling ends with an exception in every case, for every model and setting. *)
Theorem C84_fails : forall w (ob : objective w) fuel parallel n r o ps r', prior_collect fuel ob parallel n r = Some (o, ps, r') -> exists e, o = Err e.
Proof.
  intros w ob fuel parallel n r o ps r' H. unfold prior_collect in H. destruct parallel.
  - destruct (cmap _ (seq 0 n) r) as [[[l|e] r1]|]; [|injection H as <- _ _; eauto|discriminate H].
    destruct (append_served ob l [] r1) as [[[[u|e] qs] r2]|]; [|injection H as <- _ _; eauto|discriminate H]. injection H as <- _ _. eauto.
  - destruct (collect_serial fuel ob n [] 0 r) as [[[[u|e] qs] r2]|]; cbn [option_map] in H; [|injection H as <- _ _; eauto|discriminate H].
    injection H as <- _ _. eauto.
Qed.
Print Assumptions C84_fails.

(** Without parallel the exception comes at the very end: the collector holds the draws, in order,
    but the note N_Eval is their number and not that of the evaluations. *)
Theorem C84_serial : forall w (ob : objective w) fuel l r r', draws ob fuel r l r' ->
  prior_collect fuel ob false (length l) r = Some (Err AttributeError, mkPset (map fst l) (Some (length l)), r').
Proof. intros w ob fuel l r r' D. unfold prior_collect. rewrite (collect_serial_draws ob fuel l r r' D [] 0). reflexivity. Qed.
Print Assumptions C84_serial.

(** In parallel nothing at all is collected. *)
Theorem C84_parallel : forall w (ob : objective w) fuel n r o ps r', prior_collect fuel ob true n r = Some (o, ps, r') -> ps_particles ps = [].
Proof.
  intros w ob fuel n r o ps r' H. unfold prior_collect in H.
  destruct (cmap _ (seq 0 n) r) as [[[l|e] r1]|]; [|injection H as _ <- _; reflexivity|discriminate H].
  destruct l as [|a l]; cbn [append_served] in H; [injection H as _ <- _; reflexivity|].
  destruct (l_serve_from_json ob (fst a) r1) as [[[p|e] r2]|] eqn:E; [|injection H as _ <- _; reflexivity|discriminate H].
  apply serve_json_fails in E. destruct E as [e E]. discriminate E.
Qed.
Print Assumptions C84_parallel.

Theorem C84_evaluations_refuted : exists (ob : objective exw) fuel l r r', draws ob fuel r l r'
  /\ prior_collect fuel ob false (length l) r = Some (Err AttributeError, mkPset (map fst l) (Some 1), r') /\ nsum (map snd l) = 3.
Proof.
  exists (exob (fun n => if Nat.ltb n 3 then PInf else Fin 1)), 21, [(Some (mkL (l_ch (exl 2)) None (Some (Fin 1))), 3)], 0, 3.
  assert (D : draws (exob (fun n => if Nat.ltb n 3 then PInf else Fin 1)) 21 0 [(Some (mkL (l_ch (exl 2)) None (Some (Fin 1))), 3)] 3)
    by (apply draws_cons with (r1 := 3); [reflexivity|constructor]).
  splits; auto; reflexivity.
Qed.
Print Assumptions C84_evaluations_refuted.

Example C84_example : exists ps, prior_collect 21 (exob (fun _ => Fin 1)) false 2 7 = Some (Err AttributeError, ps, 9)
  /\ map (option_map (fun c => ch_locus (l_ch c))) (ps_particles ps) = [Some [("a", PZ 7)]; Some [("a", PZ 8)]]
  /\ exists r', prior_collect 21 (exob (fun _ => Fin 1)) true 2 7 = Some (Err KeyError, mkPset [] None, r').
Proof.
  exists (mkPset [Some (mkL (l_ch (exl 7)) None (Some (Fin 1))); Some (mkL (l_ch (exl 8)) None (Some (Fin 1)))] (Some 2)).
  split; [reflexivity|]. split; [reflexivity|]. exists 9. reflexivity.
Qed.
