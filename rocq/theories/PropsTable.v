(** * Properties C75-C77: tables of probabilities, transition matrices, tables over time *)

Require Import Verif.ModelTable Verif.ModelFloat Verif.ModelResample Verif.ProofBase Verif.PropsResample Verif.ProofFloat Verif.ProofTable.
Require Import Coq.ZArith.ZArith Lia Sorted Permutation.
Local Open Scope R_scope.

(** ** C75 ConditionalProbabilityTable *)

(** The sampler follows the table: values satisfying [g] come out with the share of the weight of
    the rows that satisfy [g].
    Missing: tables with repeated rows (C75_duplicates_refuted) and values that contain a colon
    (C75_colon_refuted). *)
Theorem C75_table_partial : forall rows ix t g,
  NoDup ix -> complete ix rows -> colon_free ix rows -> distinct ix rows -> total rows <> 0 ->
  cpt_new rows ix = Ok t -> chance t g = Some (mass (fun r => g (part ix r)) rows / total rows).
Proof. intros rows ix t g N C F D T H. apply chance_new; auto. apply keys_from_distinct; auto. Qed.
Print Assumptions C75_table_partial.

(** condition gives the conditional distribution of the other indices. Missing: as above. *)
Theorem C75_condition_partial : forall rows ix t kw t' g,
  NoDup ix -> complete ix rows -> colon_free ix rows -> distinct ix rows -> mass (agrees kw ix) rows <> 0 ->
  cpt_new rows ix = Ok t -> ModelTable.condition t kw = Ok t' ->
  let rest := filter (fun x => negb (dmem x kw)) ix in
  tb_ix t' = rest /\
  chance t' g = Some (mass (fun r => agrees kw ix r && g (part rest r)) rows / mass (agrees kw ix) rows).
Proof.
  intros rows ix t kw t' g N C F D T H H' rest.
  assert (E : tb_rows t = rows /\ tb_ix t = ix).
  { rewrite new_ok in H; auto; [inversion H; auto|apply keys_from_distinct; auto]. }
  destruct E as [E1 E2]. rewrite cond_rows, E1, E2 in H'. fold (rest_ix kw ix) in rest.
  assert (N' : NoDup rest) by (apply NoDup_filter; auto).
  pose proof (complete_strip kw ix rows C) as C'. pose proof (colon_strip kw ix rows F) as F'. pose proof (cond_distinct kw ix rows C D) as D'.
  split.
  - rewrite new_ok in H'; auto; [inversion H'; auto|apply keys_from_distinct; auto].
  - rewrite (C75_table_partial _ _ _ g N' C' F' D'); auto.
    + fold (rest_ix kw ix). unfold rest. rewrite mass_strip, total_map_strip, total_filter. auto.
    + rewrite total_map_strip, total_filter. auto.
Qed.
Print Assumptions C75_condition_partial.

(** marginalise adds up the rows that differ in the dropped index only; here repeated rows do no
    harm. Missing: values that contain a colon. *)
Theorem C75_marginal_partial : forall rows ix t index t' g,
  NoDup ix -> complete ix rows -> colon_free ix rows -> total rows <> 0 ->
  cpt_new rows ix = Ok t -> marginalise t index = Ok t' ->
  let rest := filter (fun x => negb (String.eqb x index)) ix in
  tb_ix t' = rest /\ chance t' g = Some (mass (fun r => g (part rest r)) rows / total rows).
Proof.
  intros rows ix t index t' g N C F T H H' rest.
  assert (E : tb_rows t = rows /\ tb_ix t = ix).
  { unfold cpt_new in H. apply bind_ok in H. destruct H as [gi [_ H]]. inversion H. auto. }
  destruct E as [E1 E2]. unfold marginalise in H'. rewrite E1, E2 in H'. fold rest in H'.
  assert (N' : NoDup rest) by (apply NoDup_filter; auto).
  assert (C' : complete rest rows) by (intros r x Hr Hx; apply C; auto; apply filter_In in Hx; tauto).
  assert (F' : colon_free rest rows) by (intros r x v Hr Hx; apply F; auto; apply filter_In in Hx; tauto).
  assert (H2 : (do gs <- foldM (fun l r => do vs <- row_values rest r; Ok (add_to vs (snd r) l)) rows [];
                cpt_new (map (fun g => (combine rest (fst g), snd g)) gs) rest) = Ok t') by (destruct rest; [discriminate H'|exact H']).
  clear H'. clearbody rest. apply bind_ok in H2. destruct H2 as [gs [Hf Hn]]. destruct (marg_fold _ _ _ _ Hf) as [Ngs [W K]]; [constructor|].
  assert (L : forall e, In e gs -> length rest = length (fst e) /\ Forall (fun v => ~ In ":"%char (list_ascii_of_string v)) (fst e)).
  { intros e He. destruct (proj1 (K (fst e)) (in_map fst _ _ He)) as [[]|[r [Hr Er]]]. rewrite Er. unfold vals. rewrite map_length. split; auto.
    apply Forall_forall. intros v Hv. apply in_map_iff in Hv. destruct Hv as [x [Ev Hx]].
    destruct (dget (fst r) x) as [w|] eqn:Ew; [|exfalso; apply (C' r x); auto]. subst. apply (F' r x); auto. }
  assert (TT : total (map (fun g => (combine rest (fst g), snd g)) gs) = total rows).
  { specialize (W (fun _ => true)). unfold wsum, mass in W. unfold total. rewrite map_map. simpl in *.
    replace (filter (fun _ => true) rows) with rows in W; [unfold rsum in *; lra|].
    clear. induction rows; simpl; auto. f_equal. auto. }
  assert (CC : complete rest (map (fun g => (combine rest (fst g), snd g)) gs)).
  { intros r x Hr Hx. apply in_map_iff in Hr. destruct Hr as [e [<- He]]. apply dget_combine_in; auto. apply L; auto. }
  assert (KK : keys_differ rest (map (fun g => (combine rest (fst g), snd g)) gs)).
  { apply keys_from_distinct; auto.
    - intros r x v Hr Hx Hd. apply in_map_iff in Hr. destruct Hr as [e [<- He]]. apply dget_combine_In in Hd.
      destruct (L e He) as [_ FF]. rewrite Forall_forall in FF. apply FF; auto.
    - unfold distinct. rewrite map_map. apply NoDup_map_inj with (f := fst); auto.
      intros a b Ha Hb E. destruct (L a Ha), (L b Hb). rewrite !part_combine in E; auto. apply combine_inj in E; auto. }
  split.
  - rewrite new_ok in Hn; auto. inversion Hn. auto.
  - rewrite (chance_new _ _ _ g N' CC KK); auto; [|rewrite TT; auto]. rewrite TT. do 2 f_equal.
    specialize (W (fun vs => g (combine rest vs))). unfold wsum in W. rewrite !mass_sum in *. simpl in W. rewrite map_map.
    rewrite Rplus_0_l in W. transitivity (rsum (map (fun r => if g (combine rest (vals rest r)) then snd r else 0) rows)).
    + rewrite <- W. f_equal. apply map_ext_in. intros e He. cbn [fst snd]. rewrite part_combine; auto. apply L; auto.
    + f_equal. apply map_ext_in. intros r Hr. rewrite combine_vals; auto.
Qed.
Print Assumptions C75_marginal_partial.

(** neither operation fails on a complete table, as long as an index is left *)
Theorem C75_operations_defined : forall rows ix, complete ix rows -> exists t, cpt_new rows ix = Ok t.
Proof.
  intros rows ix C. rewrite new_eq.
  enough (G : forall l s, (forall rp x, In rp l -> In x ix -> dget (fst (fst rp)) x <> None) -> exists gi, foldM (nstep ix) l s = Ok gi).
  { destruct (G (map (fun r => (r, fdiv (snd r) (total rows))) rows) ([], [])) as [gi Hgi].
    - intros rp x Hr Hx. apply in_map_iff in Hr. destruct Hr as [r [<- Hr]]. apply C; auto.
    - rewrite Hgi. simpl. eauto. }
  induction l as [|rp l IH]; intros s H; simpl; [eauto|].
  unfold nstep at 1. rewrite row_values_ok; [|intros x Hx; apply (H rp); simpl; auto]. simpl. apply IH. intros rp' x Hr. apply H. simpl; auto.
Qed.
Print Assumptions C75_operations_defined.

(** what the fold of the constructor keeps: every group is the part of a row, the sampler knows
    the same keys, and its weights are shares *)
Lemma new_groups : forall rows ix t, NoDup ix -> cpt_new rows ix = Ok t ->
  dkeys (tb_groups t) = dkeys (tb_inv t) /\
  Forall (fun e => exists r, In r rows /\ snd e = part ix r) (tb_groups t) /\
  Forall (fun e => exists r, In r rows /\ snd e = fdiv (snd r) (total rows)) (tb_inv t) /\ (rows <> [] -> tb_inv t <> []).
Proof.
  intros rows ix t N H. rewrite new_eq in H.
  apply bind_ok in H. destruct H as [[g i] [H E]]. inversion E; subst; clear E. cbn [tb_groups tb_inv].
  assert (G : forall l s g i, (forall rp, In rp l -> exists r, In r rows /\ rp = (r, fdiv (snd r) (total rows))) ->
    foldM (nstep ix) l s = Ok (g, i) ->
    dkeys (fst s) = dkeys (snd s) ->
    Forall (fun e => exists r, In r rows /\ snd e = part ix r) (fst s) ->
    Forall (fun e => exists r, In r rows /\ snd e = fdiv (snd r) (total rows)) (snd s) ->
    dkeys g = dkeys i /\ Forall (fun e => exists r, In r rows /\ snd e = part ix r) g /\
    Forall (fun e => exists r, In r rows /\ snd e = fdiv (snd r) (total rows)) i /\ (l <> [] \/ snd s <> [] -> i <> [])).
  { clear g i H. assert (FS : forall (A : Type) (P : name * A -> Prop) d k v, Forall P d -> (forall k, P (k, v)) -> Forall P (dset d k v)).
    { intros A P d k v F Pv. induction d as [|[k' v'] d IH]; simpl; [repeat constructor; auto|]. inversion F; subst.
      destruct (String.eqb k k'); constructor; auto. }
    induction l as [|rp l IH]; intros s g i R H K G I; simpl in H.
    - inversion H; subst. simpl in *. splits; auto. intros [D|D]; auto.
    - unfold nstep at 1 in H. destruct (row_values ix (fst rp)) as [vs|] eqn:Ev; simpl in H; [|discriminate]. apply row_values_inv in Ev. destruct Ev as [-> Cv].
      destruct (R rp) as [r [Hr Er]]; [simpl; auto|].
      assert (NE : dset (snd s) (join_key (vals ix (fst rp))) (snd rp) <> []).
      { destruct (snd s) as [|[k' v'] d]; simpl; [discriminate|]. destruct (String.eqb (join_key (vals ix (fst rp))) k'); discriminate. }
      apply IH in H; cbn [fst snd] in *.
      + destruct H as [A [B [D E]]]. splits; auto.
      + intros rp' Hr'. apply R. simpl; auto.
      + rewrite !dkeys_dset, K. auto.
      + apply FS; auto. intros k. exists r. split; auto. cbn [snd]. rewrite group_part; auto. subst rp. auto.
      + apply FS; auto. intros k. exists r. split; auto. subst rp. auto. }
  apply G in H; cbn [fst snd]; auto.
  - destruct H as [A [B [D E]]]. splits; auto. intros Hn. apply E. left. destruct rows; [congruence|discriminate].
  - intros rp Hr. apply in_map_iff in Hr. destruct Hr as [r [<- Hr]]. eauto.
Qed.

(** whatever a table returns is the part of one of its rows *)
Theorem C75_returns_a_row : forall rows ix t draw d, NoDup ix -> cpt_new rows ix = Ok t -> cpt_call draw t = Ok d ->
  exists r, In r rows /\ d = part ix r.
Proof.
  intros rows ix t draw d N H Hc. destruct (new_groups rows ix t N H) as [_ [G _]]. unfold cpt_call in Hc.
  apply bind_ok in Hc. destruct Hc as [k [_ Hk]]. unfold dgetE in Hk. destruct (dget (tb_groups t) k) eqn:E; [|discriminate]. inversion Hk; subst.
  apply dget_in_pair in E. rewrite Forall_forall in G. destruct (G _ E) as [r [Hr Er]]. eauto.
Qed.
Print Assumptions C75_returns_a_row.

(** with a fair source of randomness and weights that are not negative the call succeeds, and
    returns the row whose position was drawn. Missing: as for C75_table_partial. *)
Theorem C75_call_partial : forall rows ix t draw,
  NoDup ix -> complete ix rows -> colon_free ix rows -> distinct ix rows -> Forall (fun r => 0 <= snd r) rows -> total rows <> 0 ->
  fair draw -> cpt_new rows ix = Ok t ->
  exists i r, hd_error (draw (map (fun r => snd r / total rows) rows) 1%nat) = Some i /\ nth_error rows i = Some r /\ 0 < snd r /\
    cpt_call draw t = Ok (part ix r).
Proof.
  intros rows ix t draw N C F D P T Hd H. pose proof (keys_from_distinct _ _ C F D) as KD. rewrite new_ok in H; auto. inversion H; subst; clear H.
  set (q := map (fun r : row => snd r / total rows) rows).
  assert (Tp : 0 < total rows).
  { assert (0 <= total rows); [|lra]. apply rsum_nonneg. apply Forall_forall. intros x Hx. apply in_map_iff in Hx. destruct Hx as [r [<- Hr]].
    rewrite Forall_forall in P. apply P; auto. }
  assert (Q1 : Forall (fun x => 0 <= x) q).
  { apply Forall_forall. intros x Hx. apply in_map_iff in Hx. destruct Hx as [r [<- Hr]]. rewrite Forall_forall in P.
    unfold Rdiv. apply Rmult_le_pos; [apply P; auto|]. left. apply Rinv_0_lt_compat. auto. }
  assert (Q2 : rsum q = 1).
  { unfold q. rewrite <- (map_map (fun r : row => snd r) (fun x => x / total rows)), rsum_div.
    change (rsum (map (fun r : row => snd r) rows)) with (total rows). field. auto. }
  destruct (Hd q 1%nat Q1 Q2) as [L FA]. destruct (draw q 1%nat) as [|i [|j l]] eqn:Eq; try discriminate L.
  inversion FA as [|? ? [x [Hx Px]] _]; subst. unfold q in Hx. rewrite nth_error_map in Hx. destruct (nth_error rows i) as [r|] eqn:Er; [|discriminate].
  simpl in Hx. inversion Hx; subst. exists i, r. splits; auto.
  - change (hd_error (draw q 1%nat) = Some i). rewrite Eq. auto.
  - apply Rmult_lt_reg_r with (/ total rows); [apply Rinv_0_lt_compat; auto|]. unfold Rdiv in Px. lra.
  - unfold cpt_call, cat_call. cbn [tb_inv tb_groups]. rewrite inv_probs; auto.
    rewrite (choice_accepts draw 1 _ q); auto; [|apply as_fin_map]. simpl. rewrite Eq, nth_error_map, Er. simpl.
    unfold dgetE. pose proof (dget_map_key _ _ (fun r => join_key (vals ix r)) (part ix) rows r KD (nth_error_In _ _ Er)) as E.
    cbv beta in E. match goal with |- match ?e with _ => _ end = _ => replace e with (Some (part ix r)) by (symmetry; exact E) end. auto.
Qed.
Print Assumptions C75_call_partial.

(** a table without weight - such as the result of conditioning on an impossible value - raises
    ValueError when called *)
Lemma nonfin_sum : forall l a, Forall (fun x => isfinite x = false) l -> isfinite a = false -> isfinite (fold_left fadd l a) = false.
Proof.
  induction l as [|x l IH]; intros a F H; simpl; auto. inversion F; subst. apply IH; auto. destruct a, x; try discriminate; auto.
Qed.
Theorem C75_impossible : forall rows ix t draw, NoDup ix -> total rows = 0 -> cpt_new rows ix = Ok t -> cpt_call draw t = Err ValueError.
Proof.
  intros rows ix t draw N T H. destruct (new_groups rows ix t N H) as [_ [_ [I NE]]].
  assert (Z : forall w, isfinite (fdiv w 0) = false).
  { intros w. unfold fdiv. assert (reqb 0 0 = true) as -> by (apply reqb_true; auto). destruct (reqb w 0); auto. destruct (rltb 0 w); auto. }
  unfold cpt_call, cat_call, choice, cat_probs. destruct (tb_inv t) as [|e l].
  - simpl. assert (reqb 0 1 = false) as -> by (apply reqb_false; lra). auto.
  - set (s := fsum (map snd (e :: l))).
    assert (S : isfinite s = false).
    { unfold s, fsum. rewrite Forall_forall in I. assert (J : forall e', In e' (e :: l) -> isfinite (snd e') = false).
      { intros e' He'. destruct (I e' He') as [r [_ Er]]. rewrite Er, T. apply Z. }
      simpl. apply nonfin_sum.
      - apply Forall_forall. intros x Hx. apply in_map_iff in Hx. destruct Hx as [e' [<- He']]. apply J. simpl; auto.
      - specialize (J e (or_introl eq_refl)). destruct (snd e); try discriminate; auto. }
    inversion I as [|? ? [r [Hr Er]] _]; subst. cbn [map as_fin]. rewrite Er, T. specialize (Z (snd r)).
    destruct (fdiv (snd r) 0); try discriminate; destruct s; try discriminate; auto.
Qed.
Print Assumptions C75_impossible.

(** only the proportions of the weights count *)
Theorem C75_scale : forall rows ix k, k <> 0 ->
  match cpt_new rows ix, cpt_new (map (fun r => (fst r, k * snd r)) rows) ix with
  | Ok t, Ok t' => tb_groups t' = tb_groups t /\ (total rows <> 0 -> tb_inv t' = tb_inv t)
  | Err e, Err e' => e = e'
  | _, _ => False
  end.
Proof.
  intros rows ix k Hk. rewrite !new_eq.
  assert (TT : total (map (fun r => (fst r, k * snd r)) rows) = k * total rows).
  { unfold total. rewrite map_map. simpl. induction rows as [|r rows IH]; simpl; [lra|]. unfold rsum in *. simpl. rewrite IH. lra. }
  rewrite TT, map_map. cbn [fst snd].
  assert (G : forall l s s', fst s = fst s' -> (total rows <> 0 -> snd s = snd s') ->
     match foldM (nstep ix) (map (fun x : row => (x, fdiv (snd x) (total rows))) l) s, foldM (nstep ix) (map (fun x => ((fst x, k * snd x), fdiv (k * snd x) (k * total rows))) l) s' with
     | Ok a, Ok b => fst b = fst a /\ (total rows <> 0 -> snd b = snd a) | Err e, Err e' => e = e' | _, _ => False end).
  { induction l as [|r l IH]; intros s s' E1 E2; simpl; [split; [|intros; symmetry]; auto|].
    assert (NS : forall s r' p, nstep ix s (r', p) = do vs <- row_values ix r'; Ok (dset (fst s) (join_key vs) (dupdate [] (combine ix vs)), dset (snd s) (join_key vs) p)) by reflexivity.
    rewrite !NS. change (row_values ix (fst r, k * snd r)) with (row_values ix r).
    destruct (row_values ix r) as [vs|e]; cbn [bind]; auto. apply IH; cbn [fst snd].
    - rewrite E1. auto.
    - intros T. rewrite E2; auto. f_equal. rewrite !fdiv_fin; auto. f_equal. field. auto. }
  specialize (G rows ([], []) ([], []) eq_refl (fun _ => eq_refl)). unfold row in *.
  match type of G with match ?x with _ => _ end => destruct x as [a|e] end;
    match type of G with match ?x with _ => _ end => destruct x as [b|e'] end; simpl; auto.
Qed.
Print Assumptions C75_scale.

(** *** A table of two indices *)
Definition exrows : list row :=
  [([("sex", "f"); ("age", "young")], 1); ([("sex", "f"); ("age", "old")], 2);
   ([("sex", "m"); ("age", "young")], 4); ([("sex", "m"); ("age", "old")], 1)]%string.
Definition exix : list name := ["sex"; "age"]%string.
Definition is_val (x : name) (v : string) (d : dict string) : bool := match dget d x with Some u => String.eqb u v | None => false end.

Ltac cfree := intros r x v Hr Hx Hd K; simpl in Hr, Hx;
  repeat (let H := fresh in destruct Hr as [H|Hr]; [rewrite <- H in *|]); try contradiction;
  repeat (let H := fresh in destruct Hx as [H|Hx]; [rewrite <- H in *|]); try contradiction;
  simpl in Hd; inversion Hd as [Hv]; rewrite <- Hv in K; simpl in K; intuition discriminate.
Example C75_example : exists t tc tm, cpt_new exrows exix = Ok t /\ ModelTable.condition t [("sex", "f")]%string = Ok tc /\ marginalise t "sex" = Ok tm /\
  chance t (is_val "age" "young") = Some (5 / 8) /\ chance tc (is_val "age" "young") = Some (1 / 3) /\ chance tm (is_val "age" "old") = Some (3 / 8).
Proof.
  assert (N : NoDup exix) by (repeat constructor; simpl; intuition discriminate).
  assert (C : complete exix exrows).
  { intros r x Hr Hx. simpl in Hr, Hx. intuition subst; discriminate. }
  assert (F : colon_free exix exrows).
  { cfree. }
  assert (D : distinct exix exrows).
  { unfold distinct. repeat constructor; simpl; intuition discriminate. }
  assert (T : total exrows = 8) by (unfold total; simpl; lra).
  destruct (C75_operations_defined exrows exix C) as [t Ht].
  assert (E : tb_rows t = exrows /\ tb_ix t = exix) by (rewrite new_ok in Ht; auto; [inversion Ht; auto|apply keys_from_distinct; auto]).
  destruct E as [E1 E2].
  destruct (C75_operations_defined (map (strip ["sex"%string]) (filter (agrees [("sex", "f")]%string exix) exrows)) ["age"%string]) as [tc Htc].
  { apply (complete_strip [("sex", "f")]%string exix exrows). auto. }
  assert (Hc : ModelTable.condition t [("sex", "f")]%string = Ok tc).
  { rewrite cond_rows, E1, E2. exact Htc. }
  assert (Hm : exists tm, marginalise t "sex" = Ok tm).
  { unfold marginalise. rewrite E1, E2. simpl. eexists. reflexivity. }
  destruct Hm as [tm Hm]. exists t, tc, tm. splits; auto.
  - rewrite (C75_table_partial _ _ _ _ N C F D) by (auto; rewrite T; lra). rewrite T. unfold mass. simpl. f_equal. lra.
  - refine (eq_trans (proj2 (C75_condition_partial _ _ _ _ _ (is_val "age" "young") N C F D _ Ht Hc)) _).
    + unfold mass. simpl. lra.
    + unfold mass. simpl. f_equal. lra.
  - refine (eq_trans (proj2 (C75_marginal_partial _ _ _ _ _ (is_val "age" "old") N C F _ Ht Hm)) _).
    + rewrite T. lra.
    + rewrite T. unfold mass. simpl. f_equal. lra.
Qed.

(** *** Findings *)

(** A row that occurs twice is counted once: two rows of weight 1 for x and one of weight 2 for y
    give x the chance 1/3 in place of 1/2. *)
Theorem C75_duplicates_refuted : exists rows ix t g,
  NoDup ix /\ complete ix rows /\ colon_free ix rows /\ Forall (fun r => 0 <= snd r) rows /\ total rows <> 0 /\
  cpt_new rows ix = Ok t /\ chance t g <> Some (mass (fun r => g (part ix r)) rows / total rows).
Proof.
  set (rows := [([("a", "x")], 1); ([("a", "x")], 1); ([("a", "y")], 2)]%string : list row).
  set (ix := ["a"%string] : list name).
  assert (T : total rows = 4) by (unfold total; simpl; lra).
  destruct (cpt_new rows ix) as [t|] eqn:Ht; [|exfalso; simpl in Ht; discriminate Ht].
  exists rows, ix, t, (is_val "a" "x"). splits.
  - repeat constructor; simpl; tauto.
  - intros r x Hr Hx. simpl in Hr, Hx. intuition subst; discriminate.
  - cfree.
  - unfold rows. repeat constructor; simpl; lra.
  - rewrite T. lra.
  - auto.
  - unfold cpt_new in Ht. fold (total rows) in Ht. rewrite T in Ht. unfold rows in Ht. cbn [map combine snd] in Ht.
    rewrite !fdiv_fin in Ht by lra. simpl in Ht. inversion Ht; subst; clear Ht. unfold chance, cat_probs, fsum. simpl.
    rewrite !fdiv_fin by lra. simpl. unfold mass. simpl. fold rows. rewrite T. intros E. inversion E as [E']. lra.
Qed.
Print Assumptions C75_duplicates_refuted.

(** Two different rows whose joined values read alike: ("p:q", "r") and ("p", "q:r") are one
    group; the first row is never drawn. *)
Theorem C75_colon_refuted : exists rows ix t g,
  NoDup ix /\ complete ix rows /\ distinct ix rows /\ Forall (fun r => 0 <= snd r) rows /\ total rows <> 0 /\
  cpt_new rows ix = Ok t /\ mass (fun r => g (part ix r)) rows / total rows = 1 / 2 /\ chance t g = Some 0.
Proof.
  set (rows := [([("a", "p:q"); ("b", "r")], 1); ([("a", "p"); ("b", "q:r")], 1)]%string : list row).
  set (ix := ["a"; "b"]%string : list name).
  assert (T : total rows = 2) by (unfold total; simpl; lra).
  destruct (cpt_new rows ix) as [t|] eqn:Ht; [|exfalso; simpl in Ht; discriminate Ht].
  exists rows, ix, t, (is_val "a" "p:q"). splits.
  - repeat constructor; simpl; intuition discriminate.
  - intros r x Hr Hx. simpl in Hr, Hx. intuition subst; discriminate.
  - unfold distinct. repeat constructor; simpl; intuition discriminate.
  - unfold rows. repeat constructor; simpl; lra.
  - rewrite T. lra.
  - auto.
  - rewrite T. unfold mass. simpl. lra.
  - unfold cpt_new in Ht. fold (total rows) in Ht. rewrite T in Ht. unfold rows in Ht. cbn [map combine snd] in Ht.
    rewrite !fdiv_fin in Ht by lra. simpl in Ht. inversion Ht; subst; clear Ht. unfold chance, cat_probs, fsum. simpl.
    rewrite !fdiv_fin by lra. simpl. f_equal. lra.
Qed.
Print Assumptions C75_colon_refuted.

(** ** C76 TransitionMatrix *)

(** A call with a state draws the next one from the normalised weights of its row. *)
Theorem C76_call : forall draw (m : tmat) n (kv : dict R), dget m n = Some kv -> fair draw ->
  Forall (fun e => 0 <= snd e) kv -> rsum (map snd kv) <> 0 ->
  exists i e, hd_error (draw (map (fun e => snd e / rsum (map snd kv)) kv) 1%nat) = Some i /\ nth_error kv i = Some e /\ 0 < snd e /\
    tm_call draw m (KName n) = Ok (fst e).
Proof.
  intros draw m n kv Hm Hd P T. set (S := rsum (map snd kv)) in *. set (q := map (fun e : name * R => snd e / S) kv).
  assert (Tp : 0 < S).
  { assert (0 <= S); [|lra]. apply rsum_nonneg. apply Forall_forall. intros x Hx. apply in_map_iff in Hx. destruct Hx as [r [<- Hr]].
    rewrite Forall_forall in P. apply P; auto. }
  assert (Q1 : Forall (fun x => 0 <= x) q).
  { apply Forall_forall. intros x Hx. apply in_map_iff in Hx. destruct Hx as [r [<- Hr]]. rewrite Forall_forall in P.
    unfold Rdiv. apply Rmult_le_pos; [apply P; auto|]. left. apply Rinv_0_lt_compat. auto. }
  assert (Q2 : rsum q = 1).
  { unfold q. rewrite <- (map_map (fun e : name * R => snd e) (fun x => x / S)), rsum_div.
    change (rsum (map (fun e : name * R => snd e) kv)) with S. field. auto. }
  destruct (Hd q 1%nat Q1 Q2) as [L FA]. destruct (draw q 1%nat) as [|i [|j l]] eqn:Eq; try discriminate L.
  inversion FA as [|? ? [x [Hx Px]] _]; subst. unfold q in Hx. rewrite nth_error_map in Hx. destruct (nth_error kv i) as [e|] eqn:Er; [|discriminate].
  simpl in Hx. inversion Hx; subst. exists i, e. splits; auto.
  - apply Rmult_lt_reg_r with (/ S); [apply Rinv_0_lt_compat; auto|]. unfold Rdiv in Px. lra.
  - unfold tm_call, tm_get, dgetE. rewrite Hm. simpl. unfold cat_call, cat_probs. rewrite !map_map. cbn [snd].
    replace (fsum (map (fun x : name * R => Fin (snd x)) kv)) with (Fin S).
    + rewrite (choice_accepts draw 1 _ q); auto.
      * simpl. rewrite Eq, nth_error_map, Er. auto.
      * unfold q. rewrite <- as_fin_map. f_equal. apply map_ext. intros e'. unfold fdivf. rewrite fdiv_fin; auto.
    + unfold S. rewrite <- fsum_fin, map_map. auto.
Qed.
Print Assumptions C76_call.

Theorem C76_unknown : forall draw m n, ~ In n (dkeys m) -> tm_call draw m (KName n) = Err KeyError.
Proof. intros draw m n H. unfold tm_call, tm_get, dgetE. apply dget_None in H. rewrite H. auto. Qed.
Print Assumptions C76_unknown.

(** sample never draws anything: TypeError for one draw, KeyError for several; the only value it
    ever returns is the empty list, for currents=[]. *)
Theorem C76_sample : forall draw m n current currents,
  match tm_sample draw m n current currents with
  | Ok l => l = [] /\ currents = Some [] /\ n <> 1%Z
  | Err e => (e = TypeError /\ n = 1%Z) \/ (e = KeyError /\ n <> 1%Z)
  end.
Proof.
  intros draw m n current currents. unfold tm_sample. destruct (Z.eqb n 1) eqn:E.
  - apply Z.eqb_eq in E. simpl. auto.
  - apply Z.eqb_neq in E. assert (G : forall ks, ks <> [] -> mapM (fun ik : nat * name => tm_call draw m (KPair (fst ik) (snd ik))) (combine (seq 0 (Nat.max (Z.to_nat n) (length ks))) ks) = Err KeyError).
    { intros [|k ks] Hk; [congruence|]. replace (Nat.max (Z.to_nat n) (length (k :: ks))) with (S (Nat.pred (Nat.max (Z.to_nat n) (length (k :: ks))))) by (simpl length; lia).
      simpl. auto. }
    destruct currents as [ks|]; [|destruct current as [k|]]; cbn [bind].
    + destruct ks as [|k ks]; [|rewrite G; auto; discriminate]. destruct (seq 0 _); simpl; auto.
    + rewrite G; auto. discriminate.
    + auto.
Qed.
Print Assumptions C76_sample.

Example C76_example : forall draw, fair draw ->
  let m := [("well", [("well", 3); ("ill", 1)]); ("ill", [("ill", 2)])]%string : tmat in
  tm_call draw m (KName "ill") = Ok "ill"%string /\ tm_sample draw m 5 (Some "ill"%string) None = Err KeyError /\
  tm_call draw m (KName "dead") = Err KeyError /\
  exists y, tm_call draw m (KName "well") = Ok y /\ (y = "well"%string \/ y = "ill"%string).
Proof.
  intros draw Hd m. splits.
  - destruct (C76_call draw m "ill"%string [("ill"%string, 2)] eq_refl Hd) as [i [e [_ [Hi [_ ->]]]]].
    + repeat constructor; simpl; lra.
    + simpl. lra.
    + destruct i as [|[|i]]; simpl in Hi; try discriminate. inversion Hi. auto.
  - simpl. auto.
  - apply C76_unknown. simpl. intuition discriminate.
  - destruct (C76_call draw m "well"%string [("well", 3); ("ill", 1)]%string eq_refl Hd) as [i [e [_ [Hi [_ ->]]]]].
    + repeat constructor; simpl; lra.
    + simpl. lra.
    + exists (fst e). split; auto. destruct i as [|[|[|i]]]; simpl in Hi; try discriminate; inversion Hi; auto.
Qed.

(** ** C77 Tables over time *)

Definition by_time {X : Type} (a b : R * X) : Prop := fst a <= fst b.
(** [x] belongs to a row of [rows] whose time is as close to [t] as any *)
Definition closest {X : Type} (rows : list (R * X)) (t : R) (x : X) : Prop :=
  exists r, In r rows /\ snd r = x /\ forall r', In r' rows -> Rabs (t - fst r) <= Rabs (t - fst r').

Lemma tins_perm : forall X (r : R * X) l, Permutation (r :: l) (tins r l).
Proof.
  intros X r l. induction l as [|y l IH]; simpl; auto. destruct (rleb (fst r) (fst y)); auto.
  rewrite perm_swap. constructor. auto.
Qed.
Lemma tsort_perm : forall X (l : list (R * X)), Permutation l (tsort l).
Proof. intros X l. induction l as [|x l IH]; simpl; auto. rewrite <- tins_perm. constructor. auto. Qed.
Lemma tins_sorted : forall X (r : R * X) l, StronglySorted by_time l -> StronglySorted by_time (tins r l).
Proof.
  intros X r l H. induction l as [|y l IH]; simpl; [repeat constructor|]. inversion H; subst.
  destruct (rleb (fst r) (fst y)) eqn:E.
  - apply rleb_true in E. constructor; auto. constructor; auto. apply Forall_forall. intros z Hz.
    rewrite Forall_forall in H3. specialize (H3 z Hz). unfold by_time in *. lra.
  - apply rleb_false in E. constructor; auto. apply Forall_forall. intros z Hz.
    apply (Permutation_in _ (Permutation_sym (tins_perm X r l))) in Hz. rewrite Forall_forall in H3. destruct Hz as [<-|Hz]; auto. unfold by_time. lra.
Qed.
Lemma tsort_sorted : forall X (l : list (R * X)), StronglySorted by_time (tsort l).
Proof. intros X l. induction l as [|x l IH]; simpl; [constructor|]. apply tins_sorted; auto. Qed.
Lemma tsort_id : forall X (l : list (R * X)), StronglySorted by_time l -> tsort l = l.
Proof.
  intros X l H. induction l as [|x l IH]; simpl; auto. inversion H; subst. rewrite IH; auto. destruct l as [|y l]; simpl; auto.
  inversion H3; subst. unfold by_time in H4. apply rleb_true in H4. rewrite H4. auto.
Qed.
Lemma nearest_closest : forall X (d : X) s t, s <> [] -> StronglySorted by_time s -> closest s t (nearest d s t).
Proof.
  intros X d s t. induction s as [|[a x] s IH]; intros N H; [congruence|]. destruct s as [|[b y] s].
  - exists (a, x). simpl. splits; auto. intros r' [<-|[]]. simpl. lra.
  - inversion H; subst. change (closest ((a, x) :: (b, y) :: s) t (if rleb t (a / 2 + b / 2) then x else nearest d ((b, y) :: s) t)).
    assert (B : a <= b) by (inversion H3; subst; auto).
    destruct (rleb t (a / 2 + b / 2)) eqn:E.
    + apply rleb_true in E. exists (a, x). splits; simpl; auto. intros r' [<-|Hr]; [simpl; lra|].
      assert (C : b <= fst r') by (destruct Hr as [<-|Hr]; [simpl; lra|]; destruct (StronglySorted_inv H2) as [_ F2]; rewrite Forall_forall in F2; apply (F2 r'); auto).
      unfold Rabs. destruct (Rcase_abs (t - a)), (Rcase_abs (t - fst r')); lra.
    + apply rleb_false in E. destruct IH as [r [Hr [Er C]]]; [discriminate|auto|]. exists r. splits; auto.
      * right. auto.
      * intros r' [<-|Hr']; auto. eapply Rle_trans; [apply (C (b, y)); simpl; auto|]. simpl.
        unfold Rabs. destruct (Rcase_abs (t - a)), (Rcase_abs (t - b)); lra.
Qed.
Lemma closest_perm : forall X (l l' : list (R * X)) t x, Permutation l l' -> closest l t x -> closest l' t x.
Proof.
  intros X l l' t x P [r [Hr [E C]]]. exists r. splits; auto.
  - apply (Permutation_in _ P); auto.
  - intros r' Hr'. apply C. apply (Permutation_in _ (Permutation_sym P)). auto.
Qed.
Lemma sorted_last : forall X (l : list (R * X)) d r, StronglySorted by_time l -> In r l -> fst r <= fst (last l d).
Proof.
  intros X l d r H. induction l as [|x l IH]; intros Hr; [destruct Hr|]. destruct (StronglySorted_inv H) as [S F]. destruct l as [|y l].
  - destruct Hr as [<-|[]]. simpl. lra.
  - change (last (x :: y :: l) d) with (last (y :: l) d). destruct Hr as [<-|Hr]; [|apply IH; auto].
    rewrite Forall_forall in F. assert (L : In (last (y :: l) d) (y :: l)).
    { rewrite (app_removelast_last d (l := y :: l)) at 2 by discriminate. apply in_or_app. simpl; auto. }
    apply (F _ L).
Qed.
Lemma last_In : forall X (l : list X) d, l <> [] -> In (last l d) l.
Proof. intros X l d H. rewrite (app_removelast_last d H) at 2. apply in_or_app. simpl; auto. Qed.

(** For a table in the order of time, every time gives the value of the closest row. *)
Theorem C77_closest : forall X (rows : list (R * X)) t, rows <> [] -> StronglySorted by_time rows ->
  exists x, ts_call rows t = Ok x /\ closest rows t x.
Proof.
  intros X rows t N S. unfold ts_call. rewrite tsort_id; auto. destruct rows as [|r0 rows]; [congruence|]. cbn [hd].
  assert (F : forall r, In r (r0 :: rows) -> fst r0 <= fst r).
  { intros r [<-|Hr]; [lra|]. inversion S; subst. rewrite Forall_forall in H2. apply (H2 r); auto. }
  destruct (rltb t (fst r0)) eqn:E1.
  - apply rltb_true in E1. eexists. split; [auto|]. exists r0. splits; simpl; auto. intros r' Hr'. specialize (F r' Hr').
    unfold Rabs. destruct (Rcase_abs (t - fst r0)), (Rcase_abs (t - fst r')); lra.
  - destruct (rltb (fst (last (r0 :: rows) r0)) t) eqn:E2.
    + apply rltb_true in E2. eexists. split; [auto|]. exists (last (r0 :: rows) r0). splits; auto; [apply last_In; discriminate|].
      intros r' Hr'. pose proof (sorted_last X (r0 :: rows) r0 r' S Hr').
      unfold Rabs. destruct (Rcase_abs (t - fst (last (r0 :: rows) r0))), (Rcase_abs (t - fst r')); lra.
    + eexists. split; [auto|]. apply nearest_closest; auto.
Qed.
Print Assumptions C77_closest.

(** Between the first and the last time this holds for a table in any order. *)
Theorem C77_inside : forall X (rows : list (R * X)) t lo hi, In lo rows -> In hi rows -> fst lo <= t <= fst hi ->
  exists x, ts_call rows t = Ok x /\ closest rows t x.
Proof.
  intros X rows t lo hi Hl Hh B. unfold ts_call. destruct rows as [|r0 rows]; [destruct Hl|].
  set (s := tsort (r0 :: rows)). pose proof (tsort_perm X (r0 :: rows)) as P. fold s in P. pose proof (tsort_sorted X (r0 :: rows)) as S. fold s in S.
  assert (N : s <> []) by (intros E; rewrite E in P; apply Permutation_sym in P; apply Permutation_nil in P; discriminate).
  clearbody s.
  assert (E1 : rltb t (fst (hd r0 s)) = false).
  { apply rltb_false. apply (Permutation_in _ P) in Hl. destruct s as [|y s]; [congruence|]. simpl. destruct Hl as [<-|Hl]; [lra|].
    inversion S; subst. rewrite Forall_forall in H2. specialize (H2 lo Hl). unfold by_time in H2. lra. }
  assert (E2 : rltb (fst (last s r0)) t = false).
  { apply rltb_false. apply (Permutation_in _ P) in Hh. pose proof (sorted_last X s r0 hi S Hh). lra. }
  rewrite E1, E2. eexists. split; [auto|]. apply (closest_perm X s); [apply Permutation_sym; auto|]. apply nearest_closest; auto.
Qed.
Print Assumptions C77_inside.

(** Outside, a table that is not in order gives the value of whatever row comes first (or last)
    in the table. *)
Theorem C77_outside_refuted : exists (rows : list (R * name)) t x, NoDup (map fst rows) /\ ts_call rows t = Ok x /\ ~ closest rows t x.
Proof.
  exists [(2, "b"); (1, "a")]%string, 0, "b"%string. splits.
  - repeat constructor; simpl; intuition lra.
  - unfold ts_call. simpl. assert (rleb 2 1 = false) as -> by (apply rleb_false; lra). simpl.
    assert (rltb 0 1 = true) as -> by (apply rltb_true; lra). auto.
  - intros [r [Hr [Er C]]]. simpl in Hr. destruct Hr as [<-|[<-|[]]]; [|discriminate Er].
    specialize (C (1, "a"%string)). simpl in C. specialize (C (or_intror (or_introl eq_refl))).
    unfold Rabs in C. destruct (Rcase_abs (0 - 2)), (Rcase_abs (0 - 1)); lra.
Qed.
Print Assumptions C77_outside_refuted.

Example C77_example : exists x, ts_call [(0, "a"); (1, "b"); (4, "c")]%string 2 = Ok x /\ x = "b"%string.
Proof.
  destruct (C77_closest name [(0, "a"); (1, "b"); (4, "c")]%string 2) as [x [E [r [Hr [Er C]]]]].
  - discriminate.
  - repeat constructor; unfold by_time; simpl; lra.
  - exists x. split; auto. subst x. specialize (C (1, "b"%string) (or_intror (or_introl eq_refl))). simpl in Hr, C.
    destruct Hr as [<-|[<-|[<-|[]]]]; auto; exfalso; simpl in C; unfold Rabs in C;
      repeat match type of C with context [Rcase_abs ?z] => destruct (Rcase_abs z) end; lra.
Qed.

(** A table of probabilities over time always finds a table, and for rows in the order of time it
    is the last one with the closest time. *)
Lemma last_find : forall X (f : X -> bool) l, (exists x, In x l /\ f x = true) ->
  exists x l1 l2, find f (rev l) = Some x /\ l = l1 ++ x :: l2 /\ f x = true /\ forall y, In y l2 -> f y = false.
Proof.
  intros X f l. induction l as [|a l IH]; intros [x [Hx Fx]]; [destruct Hx|].
  assert (FA : forall (l1 l2 : list X), find f (l1 ++ l2) = match find f l1 with Some y => Some y | None => find f l2 end).
  { induction l1 as [|z l1 IHl]; intros l2; simpl; auto. destruct (f z); auto. }
  simpl. rewrite FA. destruct (find f (rev l)) as [y|] eqn:E.
  - destruct IH as [z [l1 [l2 [E1 [E2 [E3 E4]]]]]].
    { exists y. apply find_some in E. split; [apply in_rev|]; tauto. }
    inversion E1; subst. exists z, (a :: l1), l2. splits; auto.
  - pose proof (find_none _ _ E) as NN. simpl. assert (f a = true).
    { destruct Hx as [->|Hx]; auto. exfalso. rewrite (NN x) in Fx; [discriminate|]. apply -> in_rev. auto. }
    rewrite H. exists a, [], l. splits; auto. intros y Hy. apply NN. apply -> in_rev. auto.
Qed.
Lemma ts_call_some : forall X (rows : list (R * X)) t, rows <> [] -> exists x, ts_call rows t = Ok x /\ In x (map snd rows).
Proof.
  intros X rows t N. unfold ts_call. destruct rows as [|r0 rows]; [congruence|].
  set (s := tsort (r0 :: rows)). pose proof (tsort_perm X (r0 :: rows)) as P. fold s in P. pose proof (tsort_sorted X (r0 :: rows)) as S. fold s in S.
  assert (Ns : s <> []) by (intros E; rewrite E in P; apply Permutation_sym in P; apply Permutation_nil in P; discriminate).
  clearbody s. destruct (rltb t (fst (hd r0 s))); [eexists; split; [auto|left; auto]|].
  destruct (rltb (fst (last s r0)) t); [eexists; split; [auto|apply in_map, last_In; discriminate]|].
  eexists; split; [auto|]. destruct (nearest_closest X (snd r0) s t Ns S) as [r [Hr [<- _]]]. apply in_map.
  apply (Permutation_in _ (Permutation_sym P)). auto.
Qed.
Lemma StronglySorted_map : forall X Y (f : X -> Y) (l : list (R * X)) (g : R * X -> Y),
  StronglySorted by_time l -> StronglySorted by_time (map (fun r => (fst r, g r)) l).
Proof.
  intros X Y f l g H. induction H; simpl; constructor; auto. apply Forall_forall. intros z Hz. apply in_map_iff in Hz.
  destruct Hz as [w [<- Hw]]. rewrite Forall_forall in H0. apply (H0 w Hw).
Qed.
Theorem C77_tables : forall X (rows : list (R * X)) t, rows <> [] ->
  exists r l1 l2, rows = l1 ++ r :: l2 /\ tp_rows rows t = Ok (snd r) /\ (forall r', In r' l2 -> fst r' <> fst r) /\
    (StronglySorted by_time rows -> forall r', In r' rows -> Rabs (t - fst r) <= Rabs (t - fst r')).
Proof.
  intros X rows t N. unfold tp_rows.
  destruct (ts_call_some R (map (fun r => (fst r, fst r)) rows) t) as [ti [E Hi]]; [destruct rows; [congruence|discriminate]|].
  rewrite map_map in Hi. cbn [snd] in Hi. rewrite E. cbn [bind]. unfold tp_find.
  destruct (last_find _ (fun r : R * X => reqb (fst r) ti) rows) as [r [l1 [l2 [E1 [E2 [E3 E4]]]]]].
  { apply in_map_iff in Hi. destruct Hi as [r [Er Hr]]. exists r. split; auto. apply reqb_true; auto. }
  rewrite E1. apply reqb_true in E3. exists r, l1, l2. splits; auto.
  - intros r' Hr' Eq. specialize (E4 r' Hr'). apply reqb_false in E4. congruence.
  - intros S r' Hr'. destruct (C77_closest R (map (fun r => (fst r, fst r)) rows) t) as [x [Ex [w [Hw [Ew C]]]]].
    + destruct rows; [congruence|discriminate].
    + apply (StronglySorted_map X R (fun _ => 0) rows fst). auto.
    + rewrite E in Ex. apply in_map_iff in Hw. destruct Hw as [w' [Ew' _]]. subst w. cbn [fst snd] in Ew, C.
      assert (EE : fst w' = fst r) by (injection Ex as Ex; congruence).
      specialize (C (fst r', fst r')). cbn [fst] in C. rewrite <- EE. apply C. apply (in_map (fun r => (fst r, fst r))). auto.
Qed.
Print Assumptions C77_tables.

(** LeeCarter: the rate of every age is exp(alpha + kappa * beta) with the kappa of the time, and
    so positive. *)
Lemma dupdate_new : forall (A : Type) (l : list (name * A)), NoDup (map fst l) -> dupdate [] l = l.
Proof. intros A l H. rewrite dupdate_NoDup; auto. Qed.
Theorem C77_lee_carter : forall kappa ages t, kappa <> [] -> NoDup (map fst ages) ->
  exists k d, ts_call kappa t = Ok k /\ lc_call kappa ages t = Ok d /\ dkeys d = map fst ages /\
    forall a al be, In (a, (al, be)) ages -> dget d a = Some (exp (al + k * be)) /\ 0 < exp (al + k * be).
Proof.
  intros kappa ages t N D. destruct (ts_call_some R kappa t N) as [k [Ek _]].
  exists k, (map (fun e => (fst e, exp (fst (snd e) + k * snd (snd e)))) ages).
  assert (L : forall (f : R * R -> R) a v, In (a, v) ages -> dget (lc_dict f ages) a = Some (f v)).
  { intros f a v Ha. unfold lc_dict. rewrite dupdate_new; [|rewrite map_map; auto]. apply in_pair_dget.
    - unfold dkeys. rewrite map_map. auto.
    - apply (in_map (fun e => (fst e, f (snd e))) ages (a, v)). auto. }
  splits; auto.
  - unfold lc_call. replace (mapM (fun e => do r <- lc_rate kappa ages t (fst e); Ok (fst e, r)) ages)
      with (Ok (map (fun e => (fst e, exp (fst (snd e) + k * snd (snd e)))) ages)).
    + cbn [bind]. rewrite dupdate_new; auto. rewrite map_map. auto.
    + assert (G : forall l, (forall e, In e l -> In e ages) ->
        mapM (fun e : name * (R * R) => do r <- lc_rate kappa ages t (fst e); Ok (fst e, r)) l = Ok (map (fun e => (fst e, exp (fst (snd e) + k * snd (snd e)))) l)).
      { induction l as [|[a v] l IH]; intros Hl; simpl; auto. unfold lc_rate at 1, dgetE. rewrite !(L _ a v) by (apply Hl; simpl; auto).
        rewrite Ek. simpl. rewrite IH; auto. intros e He. apply Hl. simpl; auto. }
      rewrite G; auto.
  - unfold dkeys. rewrite map_map. auto.
  - intros a al be Ha. split; [|apply exp_pos]. apply in_pair_dget.
    + unfold dkeys. rewrite map_map. auto.
    + apply (in_map (fun e => (fst e, exp (fst (snd e) + k * snd (snd e)))) ages (a, (al, be))). auto.
Qed.
Print Assumptions C77_lee_carter.

Example C77_example_tables : exists d, lc_call [(2000, 1); (2010, 2)] [("0-4", (1, 3)); ("5-9", (2, 1))]%string 2009 = Ok d /\ dget d "0-4"%string = Some (exp (1 + 2 * 3)) /\
  exists kv, tp_rows [(2000, [("a", 1)]); (2010, [("b", 1)])]%string 2009 = Ok kv /\ kv = [("b", 1)]%string.
Proof.
  destruct (C77_lee_carter [(2000, 1); (2010, 2)] [("0-4", (1, 3)); ("5-9", (2, 1))]%string 2009) as [k [d [Ek [Ed [_ H]]]]].
  - discriminate.
  - repeat constructor; simpl; intuition discriminate.
  - assert (k = 2) as ->.
    { destruct (C77_closest R [(2000, 1); (2010, 2)] 2009) as [x [E [r [Hr [Er C]]]]]; [discriminate|repeat constructor; unfold by_time; simpl; lra|].
      rewrite Ek in E. inversion E; subst. specialize (C (2010, 2) (or_intror (or_introl eq_refl))). simpl in Hr, C.
      destruct Hr as [<-|[<-|[]]]; auto; exfalso; simpl in C; unfold Rabs in C;
      repeat match type of C with context [Rcase_abs ?z] => destruct (Rcase_abs z) end; lra. }
    exists d. splits; auto.
    + apply H. simpl; auto.
    + destruct (C77_tables (dict R) [(2000, [("a", 1)]); (2010, [("b", 1)])]%string 2009) as [r [l1 [l2 [E [Er [_ C]]]]]]; [discriminate|].
      eexists. split; [exact Er|]. assert (Hr : In r [(2000, [("a", 1)]); (2010, [("b", 1)])]%string) by (rewrite E; apply in_or_app; simpl; auto).
      specialize (C ltac:(repeat constructor; unfold by_time; simpl; lra) (2010, [("b", 1)]%string) (or_intror (or_introl eq_refl))).
      destruct Hr as [<-|[<-|[]]]; auto; exfalso; simpl in C; unfold Rabs in C;
      repeat match type of C with context [Rcase_abs ?z] => destruct (Rcase_abs z) end; lra.
Qed.
