(** * Facts about ModelTable *)

Require Import Verif.ModelTable Verif.ModelFloat Verif.ModelResample Verif.ProofBase Verif.PropsResample Verif.ProofFloat Coq.ZArith.ZArith Lia Permutation.
Local Open Scope R_scope.

(** ** Specification: the distribution a table stands for *)

(** what a row says about the columns [ix] *)
Definition part (ix : list name) (r : row) : dict string :=
  flat_map (fun x => match dget (fst r) x with Some v => [(x, v)] | None => [] end) ix.
(** the weight of the rows that satisfy [f] *)
Definition mass (f : row -> bool) (rows : list row) : R := rsum (map snd (filter f rows)).
Definition total (rows : list row) : R := rsum (map snd rows).
Definition complete (ix : list name) (rows : list row) : Prop := forall r x, In r rows -> In x ix -> dget (fst r) x <> None.
Definition colon_free (ix : list name) (rows : list row) : Prop :=
  forall r x v, In r rows -> In x ix -> dget (fst r) x = Some v -> ~ In ":"%char (list_ascii_of_string v).
Definition distinct (ix : list name) (rows : list row) : Prop := NoDup (map (part ix) rows).
(** the row has the values asked for in the columns [ix] *)
Definition agrees (kw : dict string) (ix : list name) (r : row) : bool :=
  forallb (fun x => match dget kw x, dget (fst r) x with Some b, Some a => String.eqb a b | Some _, None => false | None, _ => true end) ix.

(** the probability that a call of the table returns values satisfying [g]: the probabilities the
    sampler holds are finite numbers, and those whose group satisfies [g] are added up *)
Definition chance (t : table) (g : dict string -> bool) : option R :=
  match as_fin (cat_probs (tb_inv t)) with
  | Some ps => Some (rsum (map (fun kp => match dget (tb_groups t) (fst (fst kp)) with
                                          | Some d => if g d then snd kp else 0
                                          | None => 0 end) (combine (tb_inv t) ps)))
  | None => None
  end.

(** ** Joined keys *)

Lemma split_colon : forall a b s u, ~ In ":"%char (list_ascii_of_string a) -> ~ In ":"%char (list_ascii_of_string b) ->
  (a ++ ":" ++ s)%string = (b ++ ":" ++ u)%string -> a = b /\ s = u.
Proof.
  induction a as [|c a IH]; intros b s u Ha Hb E; destruct b as [|c' b]; simpl in *.
  - inversion E. auto.
  - inversion E. exfalso. apply Hb. left. auto.
  - inversion E. exfalso. apply Ha. left. auto.
  - inversion E; subst. destruct (IH b s u) as [-> ->]; auto.
Qed.

Lemma join_inj : forall vs us, length vs = length us ->
  Forall (fun v => ~ In ":"%char (list_ascii_of_string v)) vs -> Forall (fun v => ~ In ":"%char (list_ascii_of_string v)) us ->
  join_key vs = join_key us -> vs = us.
Proof.
  induction vs as [|v vs IH]; intros us L Hv Hu E; destruct us as [|u us]; try discriminate L; auto.
  inversion Hv; inversion Hu; subst. simpl in L. injection L as L.
  destruct vs as [|v' vs]; destruct us as [|u' us]; try discriminate L.
  - unfold join_key in E. simpl in E. subst. auto.
  - unfold join_key in *. change (v ++ ":" ++ String.concat ":" (v' :: vs) = u ++ ":" ++ String.concat ":" (u' :: us))%string in E.
    apply split_colon in E; auto. destruct E as [-> E]. f_equal. apply IH; auto.
Qed.

(** ** The constructor *)

Definition vals (ix : list name) (r : row) : list string := map (fun x => match dget (fst r) x with Some v => v | None => "" end) ix.

Lemma row_values_ok : forall ix r, (forall x, In x ix -> dget (fst r) x <> None) -> row_values ix r = Ok (vals ix r).
Proof.
  intros ix r. unfold row_values, vals, dgetE. induction ix as [|x ix IH]; intros H; simpl; auto.
  destruct (dget (fst r) x) eqn:E; [|exfalso; apply (H x); simpl; auto]. simpl. rewrite IH; auto. intros y Hy. apply H. simpl. auto.
Qed.
Lemma row_values_inv : forall ix r vs, row_values ix r = Ok vs -> vs = vals ix r /\ forall x, In x ix -> dget (fst r) x <> None.
Proof.
  intros ix r. unfold row_values, vals. induction ix as [|x ix IH]; intros vs H; simpl in H.
  - inversion H. split; [auto|intros x []].
  - unfold dgetE at 1 in H. destruct (dget (fst r) x) as [v|] eqn:E; simpl in H; [|discriminate].
    destruct (mapM (dgetE (fst r)) ix) as [ws|] eqn:Em; simpl in H; [|discriminate]. inversion H; subst.
    destruct (IH ws eq_refl) as [-> K]. split.
    + simpl. rewrite E. auto.
    + intros y [->|Hy]; [congruence|auto].
Qed.

Lemma combine_vals : forall ix r, (forall x, In x ix -> dget (fst r) x <> None) -> combine ix (vals ix r) = part ix r.
Proof.
  intros ix r. unfold part, vals. induction ix as [|x ix IH]; intros H; simpl; auto.
  destruct (dget (fst r) x) eqn:E; [|exfalso; apply (H x); simpl; auto]. simpl. f_equal. apply IH. intros y Hy. apply H. simpl; auto.
Qed.

Lemma dset_fresh : forall (A : Type) (d : dict A) k v, ~ In k (dkeys d) -> dset d k v = d ++ [(k, v)].
Proof.
  intros A d k v. induction d as [|[k' v'] d IH]; intros H; simpl; auto. simpl in H.
  destruct (String.eqb k k') eqn:E; [apply String.eqb_eq in E; subst; tauto|]. rewrite IH; auto.
Qed.
Lemma dupdate_NoDup : forall (A : Type) (e d : dict A), NoDup (dkeys (d ++ e)) -> dupdate d e = d ++ e.
Proof.
  intros A e. induction e as [|[k v] e IH]; intros d H; simpl; [rewrite app_nil_r; auto|].
  change (dupdate d ((k, v) :: e)) with (dupdate (dset d k v) e). unfold dkeys in *. rewrite map_app in H. simpl in H.
  rewrite dset_fresh.
  - rewrite IH; rewrite <- app_assoc; auto. simpl. unfold dkeys. rewrite map_app. auto.
  - apply NoDup_remove_2 in H. intros K. apply H. apply in_or_app. auto.
Qed.
Lemma dkeys_part : forall ix r, (forall x, In x ix -> dget (fst r) x <> None) -> dkeys (part ix r) = ix.
Proof.
  intros ix r. unfold part, dkeys. induction ix as [|x ix IH]; intros H; simpl; auto.
  destruct (dget (fst r) x) eqn:E; [|exfalso; apply (H x); simpl; auto]. simpl. f_equal. apply IH. intros y Hy. apply H. simpl; auto.
Qed.
Lemma group_part : forall ix r, NoDup ix -> (forall x, In x ix -> dget (fst r) x <> None) -> dupdate [] (combine ix (vals ix r)) = part ix r.
Proof. intros ix r N H. rewrite combine_vals; auto. rewrite dupdate_NoDup; auto. simpl. rewrite dkeys_part; auto. Qed.

Lemma map_combine_fst : forall (A B : Type) (f : A -> B) l, map fst (combine l (map f l)) = l.
Proof. intros A B f l. induction l; simpl; auto. f_equal. auto. Qed.
Lemma combine_map_self : forall (A B : Type) (f : A -> B) l, combine l (map f l) = map (fun x => (x, f x)) l.
Proof. intros A B f l. induction l; simpl; auto. f_equal. auto. Qed.

Definition nstep (ix : list name) (s : dict (dict string) * dict flt) (rp : row * flt) : res (dict (dict string) * dict flt) :=
  do vs <- row_values ix (fst rp); Ok (dset (fst s) (join_key vs) (dupdate [] (combine ix vs)), dset (snd s) (join_key vs) (snd rp)).
Lemma new_eq : forall rows ix, cpt_new rows ix =
  do gi <- foldM (nstep ix) (map (fun r => (r, fdiv (snd r) (total rows))) rows) ([], []);
  Ok (mkTab rows ix (map (fun r => fdiv (snd r) (total rows)) rows) (fst gi) (snd gi)).
Proof.
  intros rows ix. unfold cpt_new. fold (total rows). rewrite combine_map_self. reflexivity.
Qed.
Lemma new_fold : forall ix l g i, NoDup ix ->
  (forall rp x, In rp l -> In x ix -> dget (fst (fst rp)) x <> None) ->
  NoDup (map (fun rp : row * flt => join_key (vals ix (fst rp))) l) ->
  (forall rp, In rp l -> ~ In (join_key (vals ix (fst rp))) (dkeys g)) -> dkeys i = dkeys g ->
  foldM (nstep ix) l (g, i)
  = Ok (g ++ map (fun rp => (join_key (vals ix (fst rp)), part ix (fst rp))) l, i ++ map (fun rp => (join_key (vals ix (fst rp)), snd rp)) l).
Proof.
  intros ix l. induction l as [|rp l IH]; intros g i N C D F K; simpl; [rewrite !app_nil_r; auto|].
  unfold nstep at 1. rewrite row_values_ok; [|intros x Hx; apply (C rp); simpl; auto]. simpl. inversion D; subst.
  rewrite group_part; auto; [|intros x Hx; apply (C rp); simpl; auto].
  assert (F0 : ~ In (join_key (vals ix (fst rp))) (dkeys g)) by (apply F; simpl; auto).
  rewrite !dset_fresh; auto; [|rewrite K; auto]. rewrite IH; auto.
  - rewrite <- !app_assoc. auto.
  - intros; apply (C rp0); simpl; auto.
  - intros rp0 H0 H3. unfold dkeys in H3. rewrite map_app in H3. simpl in H3. apply in_app_or in H3. destruct H3 as [H3|[H3|[]]].
    + apply (F rp0); simpl; auto.
    + apply H1. rewrite H3. apply (in_map (fun rp1 => join_key (vals ix (fst rp1)))). auto.
  - unfold dkeys in *. rewrite !map_app. simpl. f_equal. auto.
Qed.

Definition keys_differ (ix : list name) (rows : list row) : Prop := NoDup (map (fun r => join_key (vals ix r)) rows).

Lemma new_ok : forall rows ix, NoDup ix -> complete ix rows -> keys_differ ix rows ->
  cpt_new rows ix = Ok (mkTab rows ix (map (fun r => fdiv (snd r) (total rows)) rows)
                          (map (fun r => (join_key (vals ix r), part ix r)) rows)
                          (map (fun r => (join_key (vals ix r), fdiv (snd r) (total rows))) rows)).
Proof.
  intros rows ix N C D. rewrite new_eq, new_fold; auto.
  - simpl. rewrite !map_map. auto.
  - intros rp x H Hx. apply in_map_iff in H. destruct H as [r [<- Hr]]. apply C; auto.
  - rewrite map_map. auto.
Qed.

Lemma keys_from_distinct : forall ix rows, complete ix rows -> colon_free ix rows -> distinct ix rows -> keys_differ ix rows.
Proof.
  intros ix rows C F D. unfold distinct, keys_differ in *. induction rows as [|r rows IH]; simpl; [constructor|].
  simpl in D. inversion D; subst. constructor.
  - intros H. apply in_map_iff in H. destruct H as [r' [E Hr']]. apply H1. apply in_map_iff. exists r'. split; auto.
    rewrite <- !combine_vals; [|intros; apply C; simpl; auto|intros; apply C; simpl; auto]. f_equal.
    assert (FF : forall s, In s (r :: rows) -> Forall (fun v => ~ In ":"%char (list_ascii_of_string v)) (vals ix s)).
    { intros s Hs. apply Forall_forall. intros v Hv. unfold vals in Hv. apply in_map_iff in Hv. destruct Hv as [x [Ev Hx]].
      destruct (dget (fst s) x) as [w|] eqn:Ew; [|exfalso; apply (C s x); auto]. subst. apply (F s x); auto. }
    apply join_inj; auto; try (apply FF; simpl; auto). unfold vals. rewrite !map_length. auto.
  - apply IH; auto.
    + intros s x Hs. apply C. simpl; auto.
    + intros s x v Hs. apply F. simpl; auto.
Qed.

Lemma dget_map_key : forall (A B : Type) (k : A -> name) (f : A -> B) l a, NoDup (map k l) -> In a l -> dget (map (fun x => (k x, f x)) l) (k a) = Some (f a).
Proof.
  intros A B k f l a N H. apply in_pair_dget.
  - unfold dkeys. rewrite map_map. auto.
  - apply (in_map (fun x => (k x, f x))). auto.
Qed.

Lemma mass_sum : forall f rows, mass f rows = rsum (map (fun r => if f r then snd r else 0) rows).
Proof.
  intros f rows. unfold mass. induction rows as [|r rows IH]; simpl; auto. unfold rsum in *. destruct (f r); simpl; rewrite IH; lra.
Qed.

Lemma inv_probs : forall (k : row -> name) rows, total rows <> 0 ->
  cat_probs (map (fun r => (k r, fdiv (snd r) (total rows))) rows) = map (fun r => Fin (snd r / total rows)) rows.
Proof.
  intros k rows H. unfold cat_probs. rewrite map_map. cbn [snd].
  assert (S : fsum (map (fun r : row => fdiv (snd r) (total rows)) rows) = Fin 1).
  { replace (map (fun r : row => fdiv (snd r) (total rows)) rows) with (map Fin (map (fun r : row => snd r / total rows) rows)).
    - rewrite fsum_fin. f_equal. rewrite <- (map_map (fun r : row => snd r) (fun x => x / total rows)), rsum_div. change (rsum (map (fun r : row => snd r) rows)) with (total rows). field. auto.
    - rewrite map_map. apply map_ext. intros r. rewrite fdiv_fin; auto. }
  rewrite map_map. cbn [snd]. rewrite S. apply map_ext. intros r. rewrite fdiv_fin; auto. unfold fdivf. rewrite fdiv_fin; [|lra]. f_equal. field. auto.
Qed.

(** the sampler of a table whose keys differ *)
Lemma chance_new : forall rows ix t g, NoDup ix -> complete ix rows -> keys_differ ix rows -> total rows <> 0 ->
  cpt_new rows ix = Ok t -> chance t g = Some (mass (fun r => g (part ix r)) rows / total rows).
Proof.
  intros rows ix t g N C D T H. rewrite new_ok in H; auto. inversion H; subst; clear H. unfold chance. simpl.
  rewrite inv_probs; auto. rewrite as_fin_map. f_equal.
  rewrite mass_sum, <- rsum_div, map_map. f_equal.
  match goal with |- map ?f ?c = _ =>
    replace c with (map (fun r : row => ((join_key (vals ix r), fdiv (snd r) (total rows)), snd r / total rows)) rows) end.
  - rewrite map_map. apply map_ext_in. intros r Hr. cbn [fst snd].
    match goal with |- match ?e with _ => _ end = _ => replace e with (Some (part ix r)) by (symmetry; exact (dget_map_key _ _ (fun r => join_key (vals ix r)) (part ix) rows r D Hr)) end. destruct (g (part ix r)); lra.
  - clear. generalize (total rows). intros z. induction rows as [|r l IH]; simpl; auto. f_equal. apply IH.
Qed.

(** ** condition *)

Lemma fold_filter : forall (ks : list name) (f : name -> row -> bool) rows,
  fold_left (fun rows k => filter (f k) rows) ks rows = filter (fun r => forallb (fun k => f k r) ks) rows.
Proof.
  intros ks f. induction ks as [|k ks IH]; intros rows; simpl.
  - induction rows; simpl; auto. f_equal; auto.
  - rewrite IH. induction rows as [|r rows IHr]; simpl; auto. destruct (f k r) eqn:E; simpl; rewrite ?IHr; auto.
Qed.
Lemma agrees_filter : forall kw ix r, forallb (fun k => row_is kw k r) (filter (fun x => dmem x kw) ix) = agrees kw ix r.
Proof.
  intros kw ix r. unfold agrees. induction ix as [|x ix IH]; simpl; auto. destruct (dmem x kw) eqn:E; simpl; rewrite IH; clear IH.
  - apply dmem_In in E. unfold row_is. destruct (dget kw x) eqn:Ek; [|apply dget_None in Ek; contradiction]. destruct (dget (fst r) x); auto.
  - unfold dmem in E. destruct (dget kw x); [discriminate|auto].
Qed.
Lemma part_ext : forall ix r s, (forall x, In x ix -> dget (fst r) x = dget (fst s) x) -> part ix r = part ix s.
Proof.
  intros ix r s. unfold part. induction ix as [|x ix IH]; intros H; simpl; auto. rewrite (H x), IH; simpl; auto. intros; apply H; simpl; auto.
Qed.
Lemma part_inj : forall ix r s, (forall x, In x ix -> dget (fst r) x <> None) -> (forall x, In x ix -> dget (fst s) x <> None) ->
  part ix r = part ix s -> forall x, In x ix -> dget (fst r) x = dget (fst s) x.
Proof.
  intros ix r s. unfold part. induction ix as [|y ix IH]; intros Hr Hs E x []; simpl in E.
  - subst. destruct (dget (fst r) x) eqn:E1; [|exfalso; apply (Hr x); simpl; auto].
    destruct (dget (fst s) x) eqn:E2; [|exfalso; apply (Hs x); simpl; auto]. inversion E. auto.
  - destruct (dget (fst r) y) eqn:E1; [|exfalso; apply (Hr y); simpl; auto].
    destruct (dget (fst s) y) eqn:E2; [|exfalso; apply (Hs y); simpl; auto]. inversion E. apply IH; auto; intros; [apply Hr|apply Hs]; simpl; auto.
Qed.
Lemma NoDup_map_inj : forall (A B C : Type) (f : A -> B) (g : A -> C) l,
  (forall a b, In a l -> In b l -> g a = g b -> f a = f b) -> NoDup (map f l) -> NoDup (map g l).
Proof.
  intros A B C f g l H N. induction l as [|a l IH]; simpl in *; [constructor|]. inversion N; subst. constructor.
  - intros K. apply in_map_iff in K. destruct K as [b [E Hb]]. apply H2. apply in_map_iff. exists b. split; auto.
  - apply IH; auto.
Qed.
Lemma NoDup_map_filter : forall (A B : Type) (f : A -> B) p l, NoDup (map f l) -> NoDup (map f (filter p l)).
Proof.
  intros A B f p l N. induction l as [|a l IH]; simpl in *; [constructor|]. inversion N; subst.
  destruct (p a); simpl; auto. constructor; auto. intros K. apply in_map_iff in K. destruct K as [b [E Hb]]. apply filter_In in Hb.
  apply H1. apply in_map_iff. exists b. tauto.
Qed.

Definition strip (ixc : list name) (r : row) : row := (dfilter (fun k => negb (mem k ixc)) (fst r), snd r).
Lemma dget_strip : forall ixc r x, ~ In x ixc -> dget (fst (strip ixc r)) x = dget (fst r) x.
Proof. intros ixc r x H. unfold strip. simpl. rewrite dget_dfilter. apply mem_false in H. rewrite H. auto. Qed.

Definition rest_ix (kw : dict string) (ix : list name) : list name := filter (fun x => negb (dmem x kw)) ix.
Lemma rest_eq : forall kw ix, filter (fun x => negb (mem x (filter (fun x => dmem x kw) ix))) ix = rest_ix kw ix.
Proof.
  intros kw ix. unfold rest_ix. apply filter_ext_in. intros x Hx. f_equal. destruct (dmem x kw) eqn:E.
  - apply mem_In. apply filter_In. auto.
  - apply mem_false. intros K. apply filter_In in K. destruct K. congruence.
Qed.

Lemma cond_rows : forall t kw, ModelTable.condition t kw =
  cpt_new (map (strip (filter (fun x => dmem x kw) (tb_ix t))) (filter (agrees kw (tb_ix t)) (tb_rows t))) (rest_ix kw (tb_ix t)).
Proof.
  intros t kw. unfold ModelTable.condition. cbv zeta. rewrite rest_eq. f_equal. unfold strip. f_equal.
  rewrite fold_filter. apply filter_ext. intros r. apply agrees_filter.
Qed.

Lemma total_map_strip : forall ixc rows, total (map (strip ixc) rows) = total rows.
Proof. intros. unfold total. rewrite map_map. auto. Qed.

Lemma rest_not_in : forall kw ix x, In x (rest_ix kw ix) -> ~ In x (filter (fun x => dmem x kw) ix).
Proof. intros kw ix x H K. apply filter_In in H. apply filter_In in K. destruct H as [_ H], K as [_ K]. rewrite K in H. discriminate. Qed.

Lemma cond_distinct : forall kw ix rows, complete ix rows -> distinct ix rows ->
  distinct (rest_ix kw ix) (map (strip (filter (fun x => dmem x kw) ix)) (filter (agrees kw ix) rows)).
Proof.
  intros kw ix rows C D. unfold distinct in *. rewrite map_map. apply NoDup_map_inj with (f := part ix).
  - intros r s Hr Hs E. apply filter_In in Hr. apply filter_In in Hs. destruct Hr as [Hr Ar], Hs as [Hs As].
    apply part_ext. intros x Hx. destruct (dmem x kw) eqn:Ek.
    + unfold agrees in Ar, As. rewrite forallb_forall in Ar, As. specialize (Ar x Hx). specialize (As x Hx).
      apply dmem_In in Ek. destruct (dget kw x) eqn:Ev; [|apply dget_None in Ev; contradiction].
      destruct (dget (fst r) x); [|discriminate]. destruct (dget (fst s) x); [|discriminate].
      apply String.eqb_eq in Ar. apply String.eqb_eq in As. congruence.
    + assert (Hx' : In x (rest_ix kw ix)) by (apply filter_In; rewrite Ek; auto).
      pose proof (part_inj (rest_ix kw ix) (strip (filter (fun x => dmem x kw) ix) r) (strip (filter (fun x => dmem x kw) ix) s)) as P.
      rewrite <- (dget_strip (filter (fun x => dmem x kw) ix) r), <- (dget_strip (filter (fun x => dmem x kw) ix) s); try (apply rest_not_in; auto).
      apply P; auto; intros y Hy; rewrite dget_strip; try (apply rest_not_in; auto); apply C; auto; apply filter_In in Hy; tauto.
  - apply NoDup_map_filter. auto.
Qed.

Lemma complete_strip : forall kw ix rows, complete ix rows ->
  complete (rest_ix kw ix) (map (strip (filter (fun x => dmem x kw) ix)) (filter (agrees kw ix) rows)).
Proof.
  intros kw ix rows C r x Hr Hx. apply in_map_iff in Hr. destruct Hr as [s [<- Hs]]. apply filter_In in Hs.
  rewrite dget_strip; [|apply rest_not_in; auto]. apply C; [tauto|]. apply filter_In in Hx. tauto.
Qed.
Lemma colon_strip : forall kw ix rows, colon_free ix rows ->
  colon_free (rest_ix kw ix) (map (strip (filter (fun x => dmem x kw) ix)) (filter (agrees kw ix) rows)).
Proof.
  intros kw ix rows C r x v Hr Hx. apply in_map_iff in Hr. destruct Hr as [s [<- Hs]]. apply filter_In in Hs.
  rewrite dget_strip; [|apply rest_not_in; auto]. apply C; [tauto|]. apply filter_In in Hx. tauto.
Qed.

Lemma mass_strip : forall kw ix g rows,
  mass (fun r => g (part (rest_ix kw ix) r)) (map (strip (filter (fun x => dmem x kw) ix)) (filter (agrees kw ix) rows))
  = mass (fun r => agrees kw ix r && g (part (rest_ix kw ix) r)) rows.
Proof.
  intros kw ix g rows. rewrite !mass_sum, map_map. induction rows as [|r rows IH]; [auto|]. cbn [filter map].
  destruct (agrees kw ix r) eqn:E; cbn [map andb]; unfold rsum in *; cbn [fold_right]; rewrite IH; [|lra].
  rewrite (part_ext (rest_ix kw ix) (strip (filter (fun x => dmem x kw) ix) r) r); auto.
  intros x Hx. apply dget_strip. apply rest_not_in; auto.
Qed.
Lemma total_filter : forall f rows, total (filter f rows) = mass f rows.
Proof. auto. Qed.

(** ** marginalise *)

Definition wsum (f : list string -> bool) (l : list (list string * R)) : R := rsum (map (fun e => if f (fst e) then snd e else 0) l).
Lemma add_to_wsum : forall f vs p l, wsum f (add_to vs p l) = wsum f l + (if f vs then p else 0).
Proof.
  intros f vs p l. unfold wsum. induction l as [|[us q] l IH]; simpl; [lra|].
  destruct (list_eq_dec string_dec vs us) as [->|N]; simpl; unfold rsum in *; [destruct (f us); lra|]. rewrite IH. lra.
Qed.
Lemma add_to_keys : forall vs p l, map fst (add_to vs p l) = if in_dec (list_eq_dec string_dec) vs (map fst l) then map fst l else map fst l ++ [vs].
Proof.
  intros vs p l. induction l as [|[us q] l IH]; simpl; auto.
  destruct (list_eq_dec string_dec vs us) as [->|N]; simpl.
  - destruct (list_eq_dec string_dec us us); [auto|congruence].
  - rewrite IH. destruct (list_eq_dec string_dec us vs) as [E|N']; [congruence|].
    destruct (in_dec (list_eq_dec string_dec) vs (map fst l)); auto.
Qed.
Lemma marg_fold : forall ix rows l0 gs,
  foldM (fun l r => do vs <- row_values ix r; Ok (add_to vs (snd r) l)) rows l0 = Ok gs -> NoDup (map fst l0) ->
  NoDup (map fst gs) /\ (forall f, wsum f gs = wsum f l0 + mass (fun r => f (vals ix r)) rows)
  /\ (forall vs, In vs (map fst gs) <-> In vs (map fst l0) \/ exists r, In r rows /\ vs = vals ix r).
Proof.
  intros ix rows. induction rows as [|r rows IH]; intros l0 gs H N; simpl in H.
  - inversion H; subst. split; [|split]; auto.
    + intros f. unfold mass. simpl. lra.
    + intros vs. split; [auto|intros [K|[r [[] _]]]; auto].
  - destruct (row_values ix r) as [vs|] eqn:E; simpl in H; [|discriminate].
    apply row_values_inv in E. destruct E as [-> C].
    assert (N' : NoDup (map fst (add_to (vals ix r) (snd r) l0))).
    { rewrite add_to_keys. destruct (in_dec _ _ _) as [i|n]; auto.
      apply (Permutation_NoDup (l := vals ix r :: map fst l0)); [apply Permutation_cons_append|constructor; auto]. }
    destruct (IH _ _ H N') as [A [B D]]. split; [|split]; auto.
    + intros f. rewrite B, add_to_wsum, !mass_sum. simpl. unfold rsum in *. lra.
    + intros vs. rewrite D, add_to_keys. split.
      * intros [K|[s [Hs Es]]]; [|right; exists s; simpl; auto].
        destruct (in_dec _ _ _) as [i|n]; auto. apply in_app_or in K. destruct K as [K|[K|[]]]; auto. right. exists r. simpl; auto.
      * intros [K|[s [[->|Hs] Es]]].
        -- left. destruct (in_dec _ _ _); auto. apply in_or_app. auto.
        -- left. subst vs. destruct (in_dec _ _ _); auto. apply in_or_app. simpl; auto.
        -- right. exists s. auto.
Qed.

Lemma marg_fold_ok : forall ix rows l0, complete ix rows ->
  exists gs, foldM (fun l r => do vs <- row_values ix r; Ok (add_to vs (snd r) l)) rows l0 = Ok gs.
Proof.
  intros ix rows. induction rows as [|r rows IH]; intros l0 C; simpl; [eauto|].
  rewrite row_values_ok; [|intros; apply C; simpl; auto]. simpl. apply IH. intros s x Hs. apply C. simpl; auto.
Qed.

Lemma dget_combine_in : forall (A : Type) ks (vs : list A) x, length ks = length vs -> In x ks -> dget (combine ks vs) x <> None.
Proof.
  intros A ks. induction ks as [|k ks IH]; intros vs x L [] ; destruct vs as [|v vs]; try discriminate L; simpl.
  - subst. rewrite String.eqb_refl. discriminate.
  - destruct (String.eqb x k); [discriminate|]. apply IH; auto.
Qed.
Lemma dget_combine_In : forall (A : Type) ks (vs : list A) x v, dget (combine ks vs) x = Some v -> In v vs.
Proof. intros A ks vs x v H. apply dget_in_pair in H. apply in_combine_r in H. auto. Qed.
Lemma part_combine : forall ix vs q, NoDup ix -> length ix = length vs -> part ix (combine ix vs, q) = combine ix vs.
Proof.
  intros ix vs q N L. rewrite <- (combine_vals ix (combine ix vs, q)); [|intros; apply dget_combine_in; auto].
  f_equal. unfold vals. simpl. revert vs L. induction ix as [|x ix IH]; intros vs L; destruct vs as [|v vs]; try discriminate L; auto.
  simpl. rewrite String.eqb_refl. f_equal. inversion N; subst. etransitivity; [|apply (IH H2 vs); auto]. apply map_ext_in.
  intros y Hy. destruct (String.eqb y x) eqn:E; auto. apply String.eqb_eq in E. subst. contradiction.
Qed.
Lemma combine_inj : forall (ix : list name) (vs us : list string), length ix = length vs -> length ix = length us -> combine ix vs = combine ix us -> vs = us.
Proof.
  induction ix as [|x ix IH]; intros vs us L1 L2 E; destruct vs, us; try discriminate; auto.
  simpl in E. inversion E. f_equal. apply IH; auto.
Qed.
