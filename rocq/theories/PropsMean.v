(** * Property C115: tables and means of chromosomes *)

Require Import Coq.Reals.Reals Coq.micromega.Lra Coq.Sorting.Permutation Coq.ZArith.ZArith.
Require Import Verif.Base Verif.World Verif.ModelSample Verif.ModelNum Verif.ModelFloat Verif.ModelFitBase Verif.ModelExport Verif.ModelMean
        Verif.ProofBase Verif.ProofFloat Verif.PropsChrom Verif.PropsExport Verif.ExWorld.
Local Open Scope nat_scope.

Section Spec.
  Context {w : world} (num : V w -> option flt).
  (** the numbers the genes have under a name, one after the other; nan is not among them *)
  Definition values (genes : list (chrom w)) (c : name) : list R :=
    flat_map (fun g => match dget (ch_locus g) c with
                       | Some v => match num v with Some (Fin x) => [x] | _ => [] end
                       | None => [] end) genes.
  (** all values are numbers, none infinite *)
  Definition numeric (genes : list (chrom w)) : Prop :=
    forall g c v, In g genes -> dget (ch_locus g) c = Some v -> exists x, num v = Some x /\ x <> PInf /\ x <> NInf.

  Lemma split_frame : forall (l : list (dict (V w))) cs, split_columns cs (map (fun d => map (dget d) cs) l) = map (fun c => (c, map (fun d => dget d c) l)) cs.
  Proof.
    intros l cs. induction cs as [|c cs IH]; cbn [split_columns map]; auto. rewrite !map_map. cbn [hd tl]. rewrite IH. auto.
  Qed.
  Lemma mean_cols : forall genes, ch_mean num genes =
    mapM (fun c => do m <- column_mean num (map (fun g => dget (ch_locus g) c) genes); Ok (c, m)) (frame_columns (map (@ch_locus w) genes)).
  Proof.
    intros genes. unfold ch_mean, make_frame. cbn [f_columns f_rows]. rewrite split_frame. generalize (frame_columns (map (@ch_locus w) genes)).
    induction l as [|c cs IH]; auto. cbn [map mapM fst snd]. rewrite IH, map_map. auto.
  Qed.
  Lemma column_values : forall genes c, (forall g v, In g genes -> dget (ch_locus g) c = Some v -> exists x, num v = Some x /\ x <> PInf /\ x <> NInf) ->
    exists xs, mapM (fun v => match num v with Some x => Ok x | None => Err TypeError end) (present (map (fun g => dget (ch_locus g) c) genes)) = Ok xs
      /\ filter not_nan xs = map Fin (values genes c).
  Proof.
    intros genes c. induction genes as [|g genes IH]; intros H; [exists []; auto|].
    destruct IH as [xs [I1 I2]]; [intros g' v K; apply H; right; auto|]. unfold present, values in *. cbn [map flat_map].
    destruct (dget (ch_locus g) c) as [v|] eqn:D; cbn [app]; [|exists xs; auto].
    destruct (H g v (or_introl eq_refl) D) as [x [N [P1 P2]]]. cbn [mapM]. rewrite N. cbn [bind]. rewrite I1. cbn [bind].
    exists (x :: xs). split; auto. cbn [filter]. destruct x; try congruence; cbn [not_nan]; rewrite I2; auto.
  Qed.
  Lemma column_avg : forall genes c, (forall g v, In g genes -> dget (ch_locus g) c = Some v -> exists x, num v = Some x /\ x <> PInf /\ x <> NInf) ->
    column_mean num (map (fun g => dget (ch_locus g) c) genes) =
    Ok (match values genes c with [] => NaN | xs => Fin (rsum xs / INR (length xs)) end).
  Proof.
    intros genes c H. destruct (column_values genes c H) as [xs [I1 I2]]. unfold column_mean. rewrite I1. cbn [bind]. rewrite I2, fsum_fin, map_length.
    destruct (values genes c) as [|y ys] eqn:E; cbn [fdivf].
    - unfold fdiv. cbn [length INR]. replace (reqb 0 0) with true by (symmetry; apply reqb_true; auto). cbn [rsum fold_right].
      replace (reqb 0 0) with true by (symmetry; apply reqb_true; auto). auto.
    - rewrite fdiv_fin; auto. apply not_0_INR. discriminate.
  Qed.
  Lemma mapM_pairs : forall (f : name -> flt) (h : name -> res flt) cs, (forall c, In c cs -> h c = Ok (f c)) ->
    mapM (fun c => do m <- h c; Ok (c, m)) cs = Ok (map (fun c => (c, f c)) cs).
  Proof.
    intros f h. induction cs as [|c cs IH]; intros H; auto. cbn [mapM map]. rewrite (H c (or_introl eq_refl)). cbn [bind].
    rewrite IH; [auto|]. intros; apply H; right; auto.
  Qed.
  Lemma dget_graph : forall (f : name -> flt) cs c, dget (map (fun c => (c, f c)) cs) c = if mem c cs then Some (f c) else None.
  Proof.
    intros f cs c. induction cs as [|x cs IH]; auto. cbn [map dget]. unfold mem in *. cbn [existsb].
    destruct (String.eqb_spec c x) as [->|N]; auto.
  Qed.
End Spec.

(** mean gives, under every name any gene has, the average of the numbers found there; genes
    without the name and nan do not count, and nan is the mean of nothing. *)
Theorem C115_mean : forall w num (genes : list (chrom w)), numeric num genes ->
  exists d, ch_mean num genes = Ok d /\ NoDup (dkeys d)
  /\ (forall c, In c (dkeys d) <-> exists g, In g genes /\ In c (dkeys (ch_locus g)))
  /\ forall c, In c (dkeys d) -> dget d c = Some (match values num genes c with [] => NaN | xs => Fin (rsum xs / INR (length xs)) end).
Proof.
  intros w num genes H. rewrite mean_cols.
  rewrite (mapM_pairs (fun c => match values num genes c with [] => NaN | xs => Fin (rsum xs / INR (length xs)) end)).
  2:{ intros c _. apply column_avg. intros g v. apply H. }
  destruct (C111_cells w (map (@ch_locus w) genes)) as (N & C & _). unfold make_frame in N, C. cbn [f_columns] in N, C.
  eexists. split; [reflexivity|]. unfold dkeys at 1 2 4. rewrite !map_map. cbn [fst]. rewrite map_id. splits; auto.
  - intros c. rewrite C. split.
    + intros (d & I & K). apply in_map_iff in I. destruct I as [g [<- I]]. eauto.
    + intros (g & I & K). exists (ch_locus g). split; auto. apply in_map. auto.
  - intros c K. rewrite (dget_graph (fun c => match values num genes c with [] => NaN | xs => Fin (rsum xs / INR (length xs)) end)).
    replace (mem c (frame_columns (map (@ch_locus w) genes))) with true by (symmetry; apply mem_In; auto). auto.
Qed.
Print Assumptions C115_mean.

(** It lies between any bounds of the numbers averaged. *)
Theorem C115_bounds : forall w num (genes : list (chrom w)) d c a b, numeric num genes -> ch_mean num genes = Ok d ->
  (exists g v x, In g genes /\ dget (ch_locus g) c = Some v /\ num v = Some (Fin x)) ->
  (forall g v x, In g genes -> dget (ch_locus g) c = Some v -> num v = Some (Fin x) -> (a <= x <= b)%R) ->
  exists m, dget d c = Some (Fin m) /\ (a <= m <= b)%R.
Proof.
  intros w num genes d c a b N E [g [v [x [G [D X]]]]] H. destruct (C115_mean w num genes N) as [d' [E' [_ [K V]]]].
  rewrite E in E'. injection E' as <-. specialize (V c). rewrite K in V.
  specialize (V ltac:(exists g; split; auto; apply dget_In; eauto)).
  assert (I : In x (values num genes c)). { unfold values. apply in_flat_map. exists g. rewrite D, X. split; auto. left; auto. }
  assert (F : Forall (fun y => (a <= y <= b)%R) (values num genes c)).
  { apply Forall_forall. intros y Y. unfold values in Y. apply in_flat_map in Y. destruct Y as [g' [G' Y]].
    destruct (dget (ch_locus g') c) as [v'|] eqn:D'; [|destruct Y]. destruct (num v') as [[z| | |]|] eqn:Z; try destruct Y as [].
    subst z. eapply H; eauto. inversion H0. }
  destruct (values num genes c) as [|y ys] eqn:W; [destruct I|]. eexists. split; [exact V|].
  assert (B : forall l, Forall (fun y => (a <= y <= b)%R) l -> (a * INR (length l) <= rsum l <= b * INR (length l))%R).
  { induction l as [|z l IH]; intros Q; [simpl; lra|]. inversion Q; subst. specialize (IH H3). cbn [length]. rewrite S_INR.
    unfold rsum in *. cbn [fold_right]. lra. }
  specialize (B _ F). assert (P : (0 < INR (length (y :: ys)))%R) by (apply lt_0_INR; simpl; apply Nat.lt_0_succ).
  split; [apply Rmult_le_reg_r with (INR (length (y :: ys)))|apply Rmult_le_reg_r with (INR (length (y :: ys)))]; auto;
    unfold Rdiv; rewrite Rmult_assoc, Rinv_l by lra; lra.
Qed.
Print Assumptions C115_bounds.

(** The order of the genes does not matter. *)
Theorem C115_order : forall w num (genes genes' : list (chrom w)) d d', Permutation genes genes' -> numeric num genes ->
  ch_mean num genes = Ok d -> ch_mean num genes' = Ok d' -> forall c, dget d c = dget d' c.
Proof.
  intros w num genes genes' d d' P N E E' c.
  assert (N' : numeric num genes') by (intros g k v G; apply N; eapply Permutation_in; [apply Permutation_sym; eauto|auto]).
  destruct (C115_mean w num genes N) as [x [Ex [_ [K V]]]]. rewrite E in Ex. injection Ex as <-.
  destruct (C115_mean w num genes' N') as [x [Ex [_ [K' V']]]]. rewrite E' in Ex. injection Ex as <-.
  assert (Q : Permutation (values num genes c) (values num genes' c)) by (apply Permutation_flat_map; auto).
  assert (S : forall l l', Permutation l l' -> rsum l = rsum l').
  { intros l l' Z. induction Z; unfold rsum in *; simpl; try lra. }
  assert (KK : In c (dkeys d) <-> In c (dkeys d')).
  { rewrite K, K'. split; intros [g [G1 G2]]; exists g; (split; [|auto]).
    - exact (Permutation_in _ P G1).
    - exact (Permutation_in _ (Permutation_sym P) G1). }
  destruct (dget d c) as [m|] eqn:D.
  - assert (I : In c (dkeys d)) by (apply dget_In; eauto). rewrite V in D by auto. rewrite V' by (apply KK; auto). rewrite <- D. f_equal.
    destruct (values num genes c) as [|y ys] eqn:W, (values num genes' c) as [|y' ys'] eqn:W'; auto.
    + apply Permutation_nil in Q. discriminate.
    + apply Permutation_sym, Permutation_nil in Q. discriminate.
    + cbv zeta. rewrite (S _ _ Q), (Permutation_length Q). auto.
  - destruct (dget d' c) as [m|] eqn:D'; auto. assert (I : In c (dkeys d)) by (apply KK, dget_In; eauto). apply dget_In in I. destruct I; congruence.
Qed.
Print Assumptions C115_order.

(** It fails, with TypeError, exactly if some gene has a value that is not a number. *)
Theorem C115_type : forall w num (genes : list (chrom w)),
  ((exists g c v, In g genes /\ dget (ch_locus g) c = Some v /\ num v = None) <-> ch_mean num genes = Err TypeError)
  /\ forall e, ch_mean num genes = Err e -> e = TypeError.
Proof.
  intros w num genes.
  assert (T : forall e, ch_mean num genes = Err e -> e = TypeError /\ exists g c v, In g genes /\ dget (ch_locus g) c = Some v /\ num v = None).
  { intros e H. rewrite mean_cols in H. apply mapM_err in H. destruct H as [c [_ H]]. unfold column_mean in H.
    destruct (mapM _ (present _)) as [xs|x] eqn:M; cbn [bind] in H; [discriminate|]. injection H as <-.
    apply mapM_err in M. destruct M as [v [I M]]. unfold present in I. apply in_flat_map in I. destruct I as [o [I O]].
    apply in_map_iff in I. destruct I as [g [<- G]]. destruct (dget (ch_locus g) c) as [v'|] eqn:D; [|destruct O]. destruct O as [<-|[]].
    destruct (num v') eqn:N; [discriminate|]. split; [congruence|]. exists g, c, v'. auto. }
  split; [|intros e H; apply T; auto]. split; [|intros H; apply T in H; apply H].
  intros (g & c & v & G & D & N). destruct (ch_mean num genes) as [d|e] eqn:E; [|destruct (T e eq_refl) as [-> _]; auto]. exfalso.
  rewrite mean_cols in E. apply mapM_ok in E.
  assert (I : In c (frame_columns (map (@ch_locus w) genes))).
  { destruct (C111_cells w (map (@ch_locus w) genes)) as (_ & C & _). apply C. exists (ch_locus g). split; [apply in_map; auto|apply dget_In; eauto]. }
  assert (X : exists y, column_mean num (map (fun g => dget (ch_locus g) c) genes) = Ok y).
  { clear - E I. induction E; [destruct I|]. destruct I as [->|I]; auto. apply bind_ok in H. destruct H as [m [H _]]. eauto. }
  destruct X as [y X]. unfold column_mean in X. apply bind_ok in X. destruct X as [xs [X _]]. apply mapM_ok in X.
  assert (J : In v (present (map (fun g => dget (ch_locus g) c) genes))).
  { unfold present. apply in_flat_map. exists (Some v). split; [|left; auto]. apply in_map_iff. exists g. auto. }
  clear - X J N. induction X; [destruct J|]. destruct J as [->|J]; auto. rewrite N in H. discriminate.
Qed.
Print Assumptions C115_type.

(** The table has a row per gene with its values, and LogProb exactly for the genes evaluated; a
    node named LogProb is hidden in those. *)
Theorem C115_table : forall w inj (genes : list (chrom w)), let f := genes_frame inj genes in
  length (f_rows f) = length genes
  /\ (forall c, In c (f_columns f) <-> exists g, In g genes /\ (In c (dkeys (ch_locus g)) \/ c = "LogProb"%string /\ ch_evaluated g = true))
  /\ (forall i c g, nth_error genes i = Some g -> In c (f_columns f) ->
      has_cell f i c (if (c =? "LogProb")%string && ch_evaluated g then Some (inj (ch_lp g)) else dget (ch_locus g) c)).
Proof.
  intros w inj genes f. destruct (C111_cells w (map (ch_to_data inj) genes)) as (_ & C & L & X). fold (genes_frame inj genes) in *. fold f in C, L, X.
  assert (T : forall (g : chrom w) c, In c (dkeys (ch_to_data inj g)) <-> In c (dkeys (ch_locus g)) \/ c = "LogProb"%string /\ ch_evaluated g = true).
  { intros g c. rewrite <- dget_In, C40_to_data. destruct (ch_evaluated g) eqn:V.
    - destruct (String.eqb_spec c "LogProb") as [->|N].
      + split; [intros _; right; auto|]. intros _. eexists. reflexivity.
      + cbn [andb]. rewrite dget_In. split; [auto|]. intros [K|[K _]]; [auto|congruence].
    - cbn [andb]. rewrite dget_In. split; [auto|]. intros [K|[_ K]]; [auto|discriminate]. }
  splits.
  - rewrite L. apply map_length.
  - intros c. rewrite C. split.
    + intros (d & I & K). apply in_map_iff in I. destruct I as [g [<- I]]. exists g. split; auto. apply T. auto.
    + intros (g & I & K). exists (ch_to_data inj g). split; [apply in_map; auto|apply T; auto].
  - intros i c g I K. apply X. split; auto. exists (ch_to_data inj g). rewrite nth_error_map, I. split; auto.
    rewrite C40_to_data. destruct (String.eqb_spec c "LogProb") as [->|N]; destruct (ch_evaluated g); auto.
Qed.
Print Assumptions C115_table.

Example C115_example :
  let num v := match v with PZ z => Some (Fin (IZR z)) | _ => None end in
  let genes := [mkChrom (w:=exw) [("a", PZ 1); ("b", PZ 2)] (LZ 3); mkChrom (w:=exw) [("a", PZ 3)] (lp_nan exw)] in
  numeric (w:=exw) num genes /\ values (w:=exw) num genes "a" = [IZR 1; IZR 3]
  /\ (exists d, ch_mean (w:=exw) num genes = Ok d /\ dkeys d = ["a"; "b"])
  /\ ch_mean (w:=exw) num (mkChrom (w:=exw) [("a", PNone)] (LZ 1) :: genes) = Err TypeError
  /\ genes_frame (w:=exw) (fun p => match p with LZ z => PZ z | _ => PNone end) genes =
     mkFrame (w:=exw) ["a"; "b"; "LogProb"] [[Some (PZ 1); Some (PZ 2); Some (PZ 3)]; [Some (PZ 3); None; None]].
Proof.
  cbv zeta. splits.
  - intros g c v [<-|[<-|[]]]; cbn [ch_locus dget].
    + destruct (String.eqb c "a"); [intros K; injection K as <-; eexists; splits; [reflexivity|discriminate|discriminate]|].
      destruct (String.eqb c "b"); [intros K; injection K as <-; eexists; splits; [reflexivity|discriminate|discriminate]|discriminate].
    + destruct (String.eqb c "a"); [intros K; injection K as <-; eexists; splits; [reflexivity|discriminate|discriminate]|discriminate].
  - reflexivity.
  - eexists. split; reflexivity.
  - reflexivity.
  - reflexivity.
Qed.
