(** * Property C51: resample *)

Require Import Verif.ModelNum Verif.ModelResample Verif.ProofBase Coq.ZArith.ZArith.
Open Scope R_scope.

(** What numpy promises for choice with replacement: as many indices as asked for, each of an
    entry with positive probability. *)
Definition fair (draw : list R -> nat -> list nat) : Prop :=
  forall q n, Forall (fun x => 0 <= x) q -> rsum q = 1 ->
    length (draw q n) = n /\ Forall (fun i => exists x, nth_error q i = Some x /\ 0 < x) (draw q n).

Lemma rsum_pos : forall l, l <> [] -> Forall (fun x => 0 < x) l -> 0 < rsum l.
Proof.
  induction l as [|x l IH]; intros N H; [congruence|]. inversion H; subst. simpl.
  destruct l; simpl in *; [lra|]. assert (0 < r + rsum l) by (apply IH; [discriminate|auto]). unfold rsum in *. lra.
Qed.
Lemma rsum_scale : forall (f : R -> R) k l, rsum (map (fun x => f x * k) l) = rsum (map f l) * k.
Proof. intros f k l. induction l as [|x l IH]; simpl; [lra|]. unfold rsum in *. rewrite IH. lra. Qed.
Lemma exp_pos_all : forall l, Forall (fun x => 0 < x) (map exp l).
Proof. induction l; constructor; auto. apply exp_pos. Qed.

Lemma as_fin_map : forall A (f : A -> R) l, as_fin (map (fun x => Fin (f x)) l) = Some (map f l).
Proof. induction l as [|x l IH]; simpl; auto. rewrite IH. auto. Qed.

Lemma log_probs : forall ws, ws <> [] ->
  as_fin (sel_probs true ws) = Some (map (fun w => exp w * / rsum (map exp ws)) ws).
Proof.
  intros ws N. unfold sel_probs. rewrite as_fin_map. f_equal. apply map_ext. intros w.
  assert (P : 0 < rsum (map exp ws)) by (apply rsum_pos; [destruct ws; [congruence|discriminate]|apply exp_pos_all]).
  unfold Rminus. rewrite exp_plus, exp_Ropp, exp_ln; auto.
Qed.

Lemma lin_probs : forall ws, rsum ws <> 0 -> as_fin (sel_probs false ws) = Some (map (fun w => w * / rsum ws) ws).
Proof.
  intros ws N. unfold sel_probs. rewrite <- as_fin_map. f_equal. apply map_ext. intros w. apply fdiv_fin; auto.
Qed.

Lemma choice_ok : forall draw n p sel, choice draw n p = Ok sel ->
  exists q, as_fin p = Some q /\ Forall (fun x => 0 <= x) q /\ rsum q = 1 /\ sel = draw q n.
Proof.
  intros draw n p sel H. unfold choice in H. destruct (as_fin p) as [q|]; [|discriminate].
  destruct (forallb (rleb 0) q) eqn:E1; simpl in H; [|discriminate]. destruct (reqb (rsum q) 1) eqn:E2; [|discriminate].
  inversion H. exists q. splits; auto; [|apply reqb_true; auto].
  apply Forall_forall. intros x Hx. rewrite forallb_forall in E1. apply rleb_true. auto.
Qed.
Lemma choice_accepts : forall draw n p q, as_fin p = Some q -> Forall (fun x => 0 <= x) q -> rsum q = 1 -> choice draw n p = Ok (draw q n).
Proof.
  intros draw n p q H1 H2 H3. unfold choice. rewrite H1. assert (E : forallb (rleb 0) q = true).
  { apply forallb_forall. intros x Hx. rewrite Forall_forall in H2. apply rleb_true; auto. }
  apply reqb_true in H3. rewrite E, H3. auto.
Qed.

(** With log weights the probabilities are always valid: positive, one per finite weight, summing
    to one, and in the ratio of the exponentiated weights. *)
Theorem C51_log_probabilities : forall ws, ws <> [] ->
  exists q, as_fin (sel_probs true ws) = Some q /\ length q = length ws /\ Forall (fun x => 0 < x) q /\ rsum q = 1
  /\ forall i j wi wj qi qj, nth_error ws i = Some wi -> nth_error ws j = Some wj -> nth_error q i = Some qi -> nth_error q j = Some qj ->
       qi * exp wj = qj * exp wi.
Proof.
  intros ws N. eexists. split; [apply log_probs; auto|].
  assert (P : 0 < rsum (map exp ws)) by (apply rsum_pos; [destruct ws; [congruence|discriminate]|apply exp_pos_all]).
  splits.
  - apply map_length.
  - apply Forall_forall. intros x Hx. apply in_map_iff in Hx. destruct Hx as [w [<- _]].
    apply Rmult_lt_0_compat; [apply exp_pos|apply Rinv_0_lt_compat; auto].
  - rewrite rsum_scale. apply Rinv_r. lra.
  - intros i j wi wj qi qj H1 H2 H3 H4. rewrite nth_error_map in H3, H4. rewrite H1 in H3. rewrite H2 in H4.
    simpl in H3, H4. inversion H3; inversion H4; subst. ring.
Qed.
Print Assumptions C51_log_probabilities.

(** With plain weights that are non-negative and not all zero likewise. *)
Theorem C51_plain_probabilities : forall ws, Forall (fun x => 0 <= x) ws -> 0 < rsum ws ->
  exists q, as_fin (sel_probs false ws) = Some q /\ length q = length ws /\ Forall (fun x => 0 <= x) q /\ rsum q = 1
  /\ forall i w, nth_error ws i = Some w -> nth_error q i = Some (w / rsum ws).
Proof.
  intros ws H P. eexists. split; [apply lin_probs; lra|]. splits.
  - apply map_length.
  - apply Forall_forall. intros x Hx. apply in_map_iff in Hx. destruct Hx as [w [<- Hw]]. rewrite Forall_forall in H.
    apply Rmult_le_pos; auto. apply Rlt_le, Rinv_0_lt_compat; auto.
  - pose proof (rsum_scale (fun x => x) (/ rsum ws) ws) as K. rewrite map_id in K. rewrite K. apply Rinv_r. lra.
  - intros i w Hi. rewrite nth_error_map, Hi. auto.
Qed.
Print Assumptions C51_plain_probabilities.

(** ... and if all are zero it raises. *)
Theorem C51_zero_sum : forall A B draw (hs : list A) (pars : list B) wts n, finite_of wts <> [] -> rsum (finite_of wts) = 0 ->
  resample draw wts hs pars false n = Err ValueError.
Proof.
  intros A B draw hs pars wts n N Z. unfold resample. destruct (finite_of wts) as [|w ws] eqn:E; [congruence|].
  assert (K : choice draw (out_size (length wts) n) (sel_probs false (w :: ws)) = Err ValueError).
  { unfold choice, sel_probs. rewrite Z. cbn [map as_fin].
    assert (F : exists y, fdiv w 0 = y /\ isfinite y = false).
    { unfold fdiv. assert (R0 : reqb 0 0 = true) by (apply reqb_true; auto). rewrite R0.
      destruct (reqb w 0); [|destruct (rltb 0 w)]; eexists; split; reflexivity. }
    destruct F as [y [F1 F2]]. rewrite F1. destruct y; try discriminate F2; reflexivity. }
  rewrite K. reflexivity.
Qed.
Print Assumptions C51_zero_sum.

(** position in the original lists of the i-th finite weight *)
Lemma finite_position : forall X wts (xs : list X) i w x, length xs = length wts ->
  nth_error (finite_of wts) i = Some w -> nth_error (keep (fins wts) xs) i = Some x ->
  forall Y (ys : list Y) y, length ys = length wts -> nth_error (keep (fins wts) ys) i = Some y ->
  exists j, nth_error wts j = Some (Fin w) /\ nth_error xs j = Some x /\ nth_error ys j = Some y.
Proof.
  intros X wts. unfold keep, fins. induction wts as [|v wts IH]; intros xs i w x Hl Hw Hx Y ys y Hm Hy.
  - destruct i; discriminate.
  - destruct xs as [|x0 xs]; [discriminate|]. destruct ys as [|y0 ys]; [discriminate|].
    injection Hl as Hl. injection Hm as Hm. destruct v; cbn in *;
      try (destruct (IH _ _ _ _ Hl Hw Hx _ _ _ Hm Hy) as [j K]; exists (S j); exact K).
    destruct i; simpl in *.
    + exists 0%nat. simpl. inversion Hw; inversion Hx; inversion Hy; subst. auto.
    + destruct (IH _ _ _ _ Hl Hw Hx _ _ _ Hm Hy) as [j K]. exists (S j). exact K.
Qed.
Lemma keep_length : forall X wts (xs : list X), length xs = length wts -> length (keep (fins wts) xs) = length (finite_of wts).
Proof.
  intros X wts. unfold keep, fins. induction wts as [|v wts IH]; intros xs Hl; destruct xs; try discriminate; auto.
  injection Hl as Hl. specialize (IH _ Hl). destruct v; simpl in *; auto.
Qed.
Lemma pick_ok : forall X (xs : list X) sel out, pick xs sel = Ok out ->
  length out = length sel /\ forall k i, nth_error sel k = Some i -> exists x, nth_error out k = Some x /\ nth_error xs i = Some x.
Proof.
  intros X xs sel. unfold pick. induction sel as [|i sel IH]; intros out H; simpl in H.
  - inversion H. split; auto. intros [|]; discriminate.
  - destruct (nth_error xs i) as [x|] eqn:E; simpl in H; [|discriminate].
    destruct (mapM _ sel) as [l|] eqn:F; simpl in H; [|discriminate]. inversion H; subst.
    destruct (IH l eq_refl) as [I1 I2]. split; [simpl; auto|]. intros [|k] j Hj; simpl in *.
    + inversion Hj; subst. eauto.
    + auto.
Qed.
Lemma pick_total : forall X (xs : list X) sel, Forall (fun i => (i < length xs)%nat) sel -> exists out, pick xs sel = Ok out.
Proof.
  intros X xs sel H. unfold pick. induction sel as [|i sel IH]; simpl; [eauto|]. inversion H; subst.
  destruct (nth_error xs i) as [x|] eqn:E; [|apply nth_error_None in E; lia]. simpl.
  destruct (IH ltac:(auto)) as [out ->]. simpl. eauto.
Qed.
Lemma as_fin_length : forall p q, as_fin p = Some q -> length q = length p.
Proof.
  induction p as [|[x| | |] p IH]; simpl; intros q H; try discriminate; [inversion H; auto|].
  destruct (as_fin p) as [r|]; [|discriminate]. inversion H; subst. simpl. auto.
Qed.
Lemma sel_probs_length : forall log ws, length (sel_probs log ws) = length ws.
Proof. intros [] ws; apply map_length. Qed.

(** the number of items asked for: all of them unless a size is given; zero counts as no size, and
    a negative size as one *)
Definition asked (n : option Z) (size k : nat) : Prop :=
  match n with Some 0%Z | None => k = size | Some z => Z.of_nat k = Z.max z 1 end.
Lemma out_size_asked : forall size n, asked n size (out_size size n).
Proof.
  intros size [[|p|p]|]; unfold asked, out_size; auto; cbn [Z.eqb]; apply Z2Nat.id; lia.
Qed.

(** The selection: as many items as asked for, every one taken with its parameters from one
    position of the input that has a finite weight and positive probability.
    Missing: inputs without any finite weight (C51_no_weight_refuted). *)
Theorem C51_selection_partial : forall A B draw (wts : list flt) (hs : list A) (pars : list B) log n hs' pars' ev,
  fair draw -> length hs = length wts -> length pars = length wts -> finite_of wts <> [] ->
  resample draw wts hs pars log n = Ok (hs', pars', ev) ->
  asked n (length wts) (length hs') /\ length pars' = length hs'
  /\ forall k, (k < length hs')%nat -> exists j w h p,
       nth_error wts j = Some (Fin w) /\ nth_error hs j = Some h /\ nth_error pars j = Some p
       /\ nth_error hs' k = Some h /\ nth_error pars' k = Some p /\ (log = false -> w <> 0).
Proof.
  intros A B draw wts hs pars log n hs' pars' ev Fd Lh Lp N H. unfold resample in H.
  destruct (finite_of wts) as [|w0 ws0] eqn:E; [congruence|]. rewrite <- E in *. clear E w0 ws0.
  destruct (choice draw (out_size (length wts) n) (sel_probs log (finite_of wts))) as [sel|] eqn:C; simpl in H; [|discriminate].
  destruct (pick (keep (fins wts) hs) sel) as [h1|] eqn:P1; simpl in H; [|discriminate].
  assert (P2 : pick (keep (fins wts) pars) sel = Ok pars' /\ h1 = hs').
  { destruct pars as [|p0 pars]; [destruct wts; [simpl in N; congruence|discriminate]|].
    destruct (pick _ sel) as [p1|] eqn:Q in H; simpl in H; [|discriminate]. inversion H; subst. auto. }
  destruct P2 as [P2 ->]. clear H.
  destruct (choice_ok _ _ _ _ C) as [q [Q1 [Q2 [Q3 Q4]]]]. destruct (Fd q (out_size (length wts) n) Q2 Q3) as [F1 F2].
  rewrite <- Q4 in F1, F2. destruct (pick_ok _ _ _ _ P1) as [A1 A2]. destruct (pick_ok _ _ _ _ P2) as [B1 B2].
  splits; try congruence; [replace (length hs') with (out_size (length wts) n) by congruence; apply out_size_asked|]. intros k Hk.
  destruct (nth_error sel k) as [i|] eqn:Si; [|apply nth_error_None in Si; lia].
  destruct (A2 k i Si) as [h [H1 H2]]. destruct (B2 k i Si) as [p [H3 H4]].
  rewrite Forall_forall in F2. destruct (F2 i (nth_error_In _ _ Si)) as [x [X1 X2]].
  destruct (nth_error (finite_of wts) i) as [w|] eqn:W.
  2:{ apply nth_error_None in W. assert (i < length q)%nat by (apply nth_error_Some; congruence).
      rewrite (as_fin_length _ _ Q1), sel_probs_length in H. lia. }
  destruct (finite_position _ wts hs i w h Lh W H2 _ pars p Lp H4) as [j [J1 [J2 J3]]].
  exists j, w, h, p. splits; auto. intros -> ->.
  destruct (Req_EM_T (rsum (finite_of wts)) 0) as [Z|Z].
  - assert (K := C51_zero_sum A B draw hs pars wts n N Z). unfold resample in K. destruct (finite_of wts); [congruence|].
    rewrite C in K. simpl in K. rewrite P1 in K. simpl in K. destruct pars; [discriminate|]. rewrite P2 in K. discriminate.
  - rewrite lin_probs in Q1 by auto. inversion Q1; subst q. rewrite nth_error_map, W in X1. simpl in X1. inversion X1. lra.
Qed.
Print Assumptions C51_selection_partial.

(** With log weights it succeeds whenever a finite weight exists. *)
Theorem C51_log_succeeds : forall A B draw (wts : list flt) (hs : list A) (pars : list B) n,
  fair draw -> length hs = length wts -> length pars = length wts -> finite_of wts <> [] ->
  exists k hs' pars', asked n (length wts) k /\
    resample draw wts hs pars true n = Ok (hs', pars', Fin (ln (rsum (map exp (finite_of wts))) - ln (INR k))).
Proof.
  intros A B draw wts hs pars n Fd Lh Lp N. exists (out_size (length wts) n). destruct (C51_log_probabilities _ N) as [q [Q1 [Q2 [Q3 [Q4 _]]]]].
  assert (Q5 : Forall (fun x => 0 <= x) q) by (eapply Forall_impl; [|exact Q3]; intros; simpl in *; lra).
  destruct (Fd q (out_size (length wts) n) Q5 Q4) as [F1 F2].
  assert (I : forall X (xs : list X), length xs = length wts -> exists out, pick (keep (fins wts) xs) (draw q (out_size (length wts) n)) = Ok out).
  { intros X xs L. apply pick_total. eapply Forall_impl; [|exact F2]. intros i [x [K _]]. simpl.
    rewrite keep_length by auto. rewrite <- Q2. apply nth_error_Some. congruence. }
  destruct (I _ hs Lh) as [h K1]. destruct (I _ pars Lp) as [p K2]. unfold resample.
  destruct (finite_of wts) as [|w0 ws0] eqn:E; [congruence|]. rewrite (choice_accepts draw _ _ q Q1 Q5 Q4). cbn [bind].
  rewrite K1. cbn [bind]. destruct pars as [|p0 pars].
  - exists h, []. split; [apply out_size_asked|]. reflexivity.
  - rewrite K2. exists h, p. split; [apply out_size_asked|]. reflexivity.
Qed.
Print Assumptions C51_log_succeeds.

(** Without any finite weight nothing is dropped and the requested size is ignored; the evidence
    of an impossible population is plus infinity. *)
Theorem C51_no_weight_refuted : exists (wts : list flt) (hs : list nat), length hs = length wts /\
  forall draw log, exists ev, resample (B := nat) draw wts hs [] log (Some 5%Z) = Ok (hs, [], ev)
    /\ hs <> [] /\ length hs <> 5%nat /\ Forall (fun w => isfinite w = false) wts /\ ev = PInf.
Proof.
  exists [NInf; NaN], [1%nat; 2%nat]. split; auto. intros draw log. eexists. split; [reflexivity|]. splits; try discriminate.
  - repeat constructor.
  - unfold flog. assert (E1 : rltb 0 0 = false) by (apply rltb_false; lra). assert (E2 : reqb 0 0 = true) by (apply reqb_true; auto).
    rewrite E1, E2. reflexivity.
Qed.
Print Assumptions C51_no_weight_refuted.

(** Plain weights that are all negative are accepted. *)
Theorem C51_negative_weights_refuted : exists ws, Forall (fun x => x < 0) ws /\
  forall draw hs, exists sel, choice draw hs (sel_probs false ws) = Ok sel /\ evidence false ws = NaN.
Proof.
  exists [-1; -3]. split; [repeat constructor; lra|]. intros draw n. eexists. split.
  - eapply choice_accepts; [apply lin_probs; simpl; lra| |].
    + simpl. repeat constructor; replace (-1 + (-3 + 0)) with (-4) by lra; lra.
    + simpl. field.
  - unfold evidence, flog. simpl. assert (E1 : rltb 0 (-1 + (-3 + 0)) = false) by (apply rltb_false; lra).
    assert (E2 : reqb (-1 + (-3 + 0)) 0 = false) by (apply reqb_false; lra). rewrite E1, E2. auto.
Qed.
Print Assumptions C51_negative_weights_refuted.

(** The returned evidence depends on the number of items asked for, not on the number of
    weights: it is the mean weight only when the size is left out. *)
Theorem C51_evidence_refuted : exists wts draw, fair draw /\ exists hs1 hs2 e1 e2,
  resample (A := nat) (B := nat) draw wts [1%nat; 2%nat] [] true None = Ok (hs1, [], Fin e1) /\
  resample (A := nat) (B := nat) draw wts [1%nat; 2%nat] [] true (Some 1%Z) = Ok (hs2, [], Fin e2) /\ e1 < e2.
Proof.
  exists [Fin 0; Fin 0].
  assert (Ex : exists d, fair d).
  { exists (fun q n => match find (fun i => rltb 0 (nth i q 0)) (seq 0 (length q)) with Some i => repeat i n | None => [] end).
    intros q n Hq Hs. destruct (find _ (seq 0 (length q))) as [i|] eqn:E.
    - split; [apply repeat_length|]. apply find_some in E. destruct E as [E1 E2]. apply in_seq in E1. apply rltb_true in E2.
      apply Forall_forall. intros j Hj. apply repeat_spec in Hj. subst. exists (nth i q 0). split; auto.
      apply nth_error_nth'. lia.
    - exfalso. assert (Z : forall l, Forall (fun x => 0 <= x) l -> (forall i, (i < length l)%nat -> nth i l 0 <= 0) -> rsum l = 0).
      { induction l as [|x l IH]; intros Hl Hi; auto. inversion Hl; subst. simpl.
        pose proof (Hi 0%nat ltac:(simpl; lia)) as K. simpl in K. assert (K2 : rsum l = 0).
        { apply IH; auto. intros i Hi'. apply (Hi (S i)). simpl. lia. }
        unfold rsum in *. lra. }
      rewrite (Z q Hq) in Hs; [lra|]. intros i Hi. apply rltb_false. apply (find_none _ _ E i). apply in_seq. lia. }
  destruct Ex as [d Hd]. exists d. split; auto.
  assert (G : forall n, exists k h, asked n 2 k /\ resample (A := nat) (B := nat) d [Fin 0; Fin 0] [1%nat; 2%nat] [] true n =
     Ok (h, [], Fin (ln (rsum (map exp [0; 0])) - ln (INR k)))).
  { intros n. destruct (C51_log_succeeds nat nat d [Fin 0; Fin 0] [1%nat; 2%nat] [3%nat; 4%nat] n Hd eq_refl eq_refl ltac:(discriminate)) as [k [h [p [Ka K]]]].
    exists k, h. split; [exact Ka|]. unfold resample in *. cbn [finite_of] in *. destruct (choice _ _ _) as [sel|]; cbn [bind] in *; [|discriminate].
    destruct (pick (keep _ [1%nat; 2%nat]) sel); cbn [bind] in *; [|discriminate].
    destruct (pick (keep _ [3%nat; 4%nat]) sel) in K; cbn [bind] in *; [|discriminate]. inversion K; subst. do 2 f_equal. simpl. f_equal. assumption. }
  destruct (G None) as [k1 [h1 [A1 K1]]]. destruct (G (Some 1%Z)) as [k2 [h2 [A2 K2]]]. exists h1, h2. eexists _, _. splits; [exact K1|exact K2|].
  simpl in A1, A2. assert (k2 = 1%nat) by lia. subst k1 k2. replace (INR 2) with 2 by (simpl; lra). replace (INR 1) with 1 by (simpl; lra).
  rewrite ln_1. assert (0 < ln 2) by (rewrite <- ln_1; apply ln_increasing; lra). lra.
Qed.
Print Assumptions C51_evidence_refuted.

Example C51_example : resample (fun _ n => repeat 1%nat n) [NaN; Fin 1; Fin 3] ["a"; "b"; "c"]%string [1; 2; 3] false (Some 2%Z)
  = Ok (["c"; "c"]%string, [3; 3], Fin (ln (1 + (3 + 0)) - ln (INR 2))).
Proof.
  unfold resample. cbn [finite_of fins map isfinite]. erewrite choice_accepts; [|apply lin_probs; simpl; lra| |].
  - simpl. unfold flog. assert (E : rltb 0 (1 + (3 + 0)) = true) by (apply rltb_true; lra). rewrite E. reflexivity.
  - simpl. repeat constructor; replace (1 + (3 + 0)) with 4 by lra; lra.
  - simpl. field.
Qed.
