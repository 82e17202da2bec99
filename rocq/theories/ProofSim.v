(** * Lemmas on the heap of parameter cores *)

Require Import Verif.Base Verif.World Verif.ModelGraph Verif.ModelExpr Verif.ModelLoci Verif.ModelBN Verif.ModelSample
        Verif.ModelSim Verif.Spec Verif.SpecBN Verif.SpecSample Verif.SpecSim Verif.ProofBase Verif.ProofBN Verif.ProofSample.

Section ProofSim.
  Context {w : world}.
  Implicit Types h : cores w.

  Lemma kupd_length : forall h i f, length (kupd h i f) = length h.
  Proof. induction h as [|c h IH]; intros [|i] f; simpl; auto. Qed.
  Lemma kupd_nth : forall h i f j, nth_error (kupd h i f) j = if Nat.eqb j i then option_map f (nth_error h j) else nth_error h j.
  Proof.
    induction h as [|c h IH]; intros [|i] f [|j]; simpl; auto. destruct (Nat.eqb j i); auto.
  Qed.
  Lemma kupd_other : forall h i f j, j <> i -> nth_error (kupd h i f) j = nth_error h j.
  Proof. intros h i f j N. rewrite kupd_nth. apply Nat.eqb_neq in N. rewrite N. auto. Qed.
  Lemma kupd_same : forall h i f c, at_ h i c -> at_ (kupd h i f) i (f c).
  Proof. intros h i f c H. unfold at_ in *. rewrite kupd_nth, Nat.eqb_refl, H. auto. Qed.
  Lemma at_length : forall h i c, at_ h i c -> i < length h.
  Proof. intros h i c H. apply nth_error_Some. unfold at_ in H. congruence. Qed.
  Lemma at_exists : forall h i, i < length h -> exists c, at_ h i c.
  Proof. intros h i H. unfold at_. destruct (nth_error h i) eqn:E; eauto. apply nth_error_None in E. lia. Qed.

  (** ** shape: everything but values, probabilities and actors *)

  Definition shape_of (c : core w) := (k_nick c, k_group c, k_parent c, k_children c).
  Definition same_shape h h' : Prop := forall i, option_map shape_of (nth_error h i) = option_map shape_of (nth_error h' i).

  Lemma shape_refl : forall h, same_shape h h.
  Proof. intros h i. auto. Qed.
  Lemma shape_trans : forall a b c, same_shape a b -> same_shape b c -> same_shape a c.
  Proof. intros a b c H K i. rewrite H. auto. Qed.
  Lemma shape_sym : forall a b, same_shape a b -> same_shape b a.
  Proof. intros a b H i. auto. Qed.
  Lemma shape_kupd : forall h i f, (forall c, shape_of (f c) = shape_of c) -> same_shape h (kupd h i f).
  Proof.
    intros h i f H j. rewrite kupd_nth. destruct (Nat.eqb j i); auto. destruct (nth_error h j); simpl; auto. rewrite H. auto.
  Qed.
  Lemma shape_at : forall h h' i c, same_shape h h' -> at_ h i c -> exists c', at_ h' i c' /\ shape_of c' = shape_of c.
  Proof.
    intros h h' i c S H. specialize (S i). unfold at_ in *. rewrite H in S. destruct (nth_error h' i) as [c'|]; simpl in S; [|discriminate].
    exists c'. split; auto. congruence.
  Qed.
  Lemma shape_fields : forall c c' : core w, shape_of c' = shape_of c ->
    k_nick c' = k_nick c /\ k_group c' = k_group c /\ k_parent c' = k_parent c /\ k_children c' = k_children c.
  Proof. unfold shape_of. intros c c' H. inversion H. auto. Qed.
  Lemma shape_length : forall h h', same_shape h h' -> length h = length h'.
  Proof.
    intros h h' S. destruct (Nat.lt_trichotomy (length h) (length h')) as [L|[L|L]]; auto; exfalso.
    - specialize (S (length h)). assert (E : nth_error h (length h) = None) by (apply nth_error_None; lia). rewrite E in S.
      destruct (at_exists h' (length h) L) as [c Hc]. unfold at_ in Hc. rewrite Hc in S. discriminate.
    - specialize (S (length h')). assert (E : nth_error h' (length h') = None) by (apply nth_error_None; lia). rewrite E in S.
      destruct (at_exists h (length h') L) as [c Hc]. unfold at_ in Hc. rewrite Hc in S. discriminate.
  Qed.
  Lemma shape_forest : forall h h', same_shape h h' -> forest h -> forest h'.
  Proof.
    intros h h' S F. apply shape_sym in S. constructor.
    - intros i c p H P. destruct (shape_at _ _ _ _ S H) as [c' [H' E]]. apply shape_fields in E. destruct E as [_ [_ [E _]]].
      eapply (fo_parent _ F); eauto. congruence.
    - intros i c k j H P. destruct (shape_at _ _ _ _ S H) as [c' [H' E]]. apply shape_fields in E. destruct E as [_ [_ [_ E]]].
      rewrite <- E in P. destruct (fo_child _ F _ _ _ _ H' P) as [cj [A [B C]]]. apply shape_sym in S.
      destruct (shape_at _ _ _ _ S A) as [c2 [A2 E2]]. apply shape_fields in E2. destruct E2 as [E3 [_ [E4 _]]].
      exists c2. splits; auto; congruence.
    - intros i c H. destruct (shape_at _ _ _ _ S H) as [c' [H' E]]. apply shape_fields in E. destruct E as [_ [_ [_ E]]].
      rewrite <- E. eapply fo_keys; eauto.
  Qed.

  (** ** lookup *)

  Lemma look_enough : forall h, forest h -> forall f f' i x, i < f -> i < f' -> look f h i x = look f' h i x.
  Proof.
    intros h F. induction f as [|f IH]; intros f' i x L L'; [lia|]. destruct f' as [|f']; [lia|]. simpl.
    destruct (nth_error h i) as [c|] eqn:E; auto. destruct (dget (k_locus c) x); auto.
    destruct (k_parent c) as [p|] eqn:P; auto. pose proof (fo_parent _ F _ _ _ E P). apply IH; lia.
  Qed.
  Lemma lookup_eq : forall h i c x, forest h -> at_ h i c ->
    lookup h i x = match dget (k_locus c) x with
                   | Some v => Some v
                   | None => match k_parent c with Some p => lookup h p x | None => None end
                   end.
  Proof.
    intros h i c x F H. unfold lookup. change (look (S i) h i x) with
      (match nth_error h i with
       | None => None
       | Some c => match dget (k_locus c) x with
                   | Some v => Some v
                   | None => match k_parent c with Some p => look i h p x | None => None end
                   end
       end). unfold at_ in H. rewrite H. destruct (dget (k_locus c) x); auto.
    destruct (k_parent c) as [p|] eqn:P; auto. pose proof (fo_parent _ F _ _ _ H P). apply look_enough; auto.
  Qed.

  Lemma lookup_nearest : forall h, forest h -> forall i x v, lookup h i x = Some v <-> nearest h i x v.
  Proof.
    intros h F. induction i as [i IH] using lt_wf_ind. intros x v. split.
    - intros H. destruct (nth_error h i) as [c|] eqn:E; [|unfold lookup in H; simpl in H; rewrite E in H; discriminate].
      rewrite (lookup_eq _ _ _ _ F E) in H. destruct (dget (k_locus c) x) eqn:D.
      + inversion H; subst. eapply nr_own; eauto.
      + destruct (k_parent c) as [p|] eqn:P; [|discriminate]. eapply nr_up; eauto; [apply dget_None; auto|].
        apply IH; auto. eapply fo_parent; eauto.
    - intros H. inversion H; subst.
      + rewrite (lookup_eq _ _ _ _ F H0), H1. auto.
      + rewrite (lookup_eq _ _ _ _ F H0). apply dget_None in H1. rewrite H1, H2. apply IH; auto. eapply fo_parent; eauto.
  Qed.
  Lemma lookup_none : forall h, forest h -> forall i x, i < length h ->
    (lookup h i x = None <-> forall j c, above h i j -> at_ h j c -> ~ In x (dkeys (k_locus c))).
  Proof.
    intros h F. induction i as [i IH] using lt_wf_ind. intros x L. destruct (at_exists _ _ L) as [c H].
    rewrite (lookup_eq _ _ _ _ F H). split.
    - intros E j cj A Hj. inversion A; subst.
      + unfold at_ in *. assert (cj = c) by congruence. subst. apply dget_None. destruct (dget (k_locus c) x); congruence.
      + assert (c0 = c) by (unfold at_ in *; congruence). subst. rewrite H1 in E. destruct (dget (k_locus c) x); [discriminate|].
        assert (P : p < i) by (eapply fo_parent; eauto). apply (proj1 (IH p P x ltac:(lia)) E j cj); auto.
    - intros N. assert (D : dget (k_locus c) x = None) by (apply dget_None, (N i c); auto; eapply above_self; eauto).
      rewrite D. destruct (k_parent c) as [p|] eqn:P; auto. assert (Q : p < i) by (eapply fo_parent; eauto).
      apply IH; auto; [lia|]. intros j cj A. apply N. eapply above_up; eauto.
  Qed.

  (** lookups depend only on the values held along the way up *)
  Lemma lookup_ext : forall h h' x, forest h -> same_shape h h' -> forall i,
    (forall j c c', above h i j -> at_ h j c -> at_ h' j c' -> dget (k_locus c) x = dget (k_locus c') x) ->
    lookup h i x = lookup h' i x.
  Proof.
    intros h h' x F S. pose proof (shape_forest _ _ S F) as F'. induction i as [i IH] using lt_wf_ind. intros K.
    destruct (nth_error h i) as [c|] eqn:E.
    - destruct (shape_at _ _ _ _ S E) as [c' [E' Q]]. apply shape_fields in Q. destruct Q as [_ [_ [Q _]]].
      rewrite (lookup_eq _ _ _ _ F E), (lookup_eq _ _ _ _ F' E'), Q.
      rewrite (K i c c') by (auto; eapply above_self; eauto). destruct (dget (k_locus c') x); auto.
      destruct (k_parent c) as [p|] eqn:P; auto. apply IH; [eapply fo_parent; eauto|]. intros j d d' A. apply K. eapply above_up; eauto.
    - specialize (S i). rewrite E in S. unfold lookup. simpl. rewrite E. destruct (nth_error h' i); [discriminate|]. auto.
  Qed.

  (** a longer heap *)
  Lemma at_app : forall h h2 i c, at_ h i c -> at_ (h ++ h2) i c.
  Proof. intros h h2 i c H. unfold at_. rewrite nth_error_app1; auto. eapply at_length; eauto. Qed.
  Lemma at_app_last : forall h c, at_ (h ++ [c]) (length h) c.
  Proof. intros h c. unfold at_. rewrite nth_error_app2, Nat.sub_diag; auto. Qed.
  Lemma at_app_inv : forall h c i d, at_ (h ++ [c]) i d -> at_ h i d \/ (i = length h /\ d = c).
  Proof.
    intros h c i d H. unfold at_ in *. destruct (Nat.lt_ge_cases i (length h)) as [L|L]; [rewrite nth_error_app1 in H; auto|].
    right. rewrite nth_error_app2 in H by auto. destruct (i - length h) as [|m] eqn:M; simpl in H.
    - split; [lia|congruence].
    - destruct m; discriminate.
  Qed.
  Lemma forest_app : forall h c, forest h -> (forall p, k_parent c = Some p -> p < length h) -> k_children c = [] -> forest (h ++ [c]).
  Proof.
    intros h c F P C. constructor.
    - intros i d p H K. apply at_app_inv in H. destruct H as [H|[-> ->]]; auto. eapply fo_parent; eauto.
    - intros i d k j H K. apply at_app_inv in H. destruct H as [H|[-> ->]]; [|rewrite C in K; discriminate].
      destruct (fo_child _ F _ _ _ _ H K) as [cj [A B]]. exists cj. split; auto. apply at_app; auto.
    - intros i d H. apply at_app_inv in H. destruct H as [H|[-> ->]]; [eapply fo_keys; eauto|]. rewrite C. constructor.
  Qed.
  Lemma lookup_app : forall h c, forest h -> forall i x, i < length h -> lookup (h ++ [c]) i x = lookup h i x.
  Proof.
    intros h c F. unfold lookup. intros i x L.
    assert (G : forall f i, i < length h -> look f (h ++ [c]) i x = look f h i x); [|apply G; auto].
    clear i L. induction f as [|f IH]; intros i L; simpl; auto. rewrite nth_error_app1 by auto.
    destruct (nth_error h i) as [d|] eqn:E; auto. destruct (dget (k_locus d) x); auto. destruct (k_parent d) as [p|] eqn:P; auto.
    apply IH. pose proof (fo_parent _ F _ _ _ E P). lia.
  Qed.

  (** ** generate and breed *)

  Lemma generate_cases : forall sc g nick par exo h r o h' r', generate sc g nick par exo h r = (o, h', r') ->
    match o with
    | Err _ => h' = h
    | Ok i => i = length h /\ exists c, h' = h ++ [c] /\ k_nick c = nick /\ k_group c = g_name g /\ k_parent c = par
               /\ k_children c = [] /\ k_actors c = None /\ k_chactors c = None /\ k_prior c = None
    end.
  Proof.
    intros sc g nick par exo h r o h' r' H. unfold generate in H.
    destruct (gen_exo _ h par (g_exo g) exo r) as [[vs|e] r1]; [|inversion H; auto].
    destruct (gen_fixed _ (g_fixed g) vs (lp_zero w) r1) as [[[vs' prior]|e] r2]; inversion H; subst; auto.
    split; auto. eexists. splits; try reflexivity.
  Qed.
  Lemma sg_breed_cases : forall sc i nick g exo h r o h' r', sg_breed sc i nick g exo h r = (o, h', r') ->
    match o with
    | Err _ => h' = h
    | Ok j => j = length h /\ exists c, h' = h ++ [c] /\ k_nick c = nick /\ k_parent c = Some i
               /\ k_children c = [] /\ k_actors c = None /\ k_chactors c = None /\ k_prior c = None /\ i < length h
    end.
  Proof.
    intros sc i nick g exo h r o h' r' H. unfold sg_breed, group_of in H.
    destruct (nth_error h i) as [ci|] eqn:E; [|inversion H; auto].
    destruct (dget (sc_groups sc) (k_group ci)) as [gi|]; [|inversion H; auto].
    destruct (negb (mem g (g_children gi))); [inversion H; auto|].
    destruct (dget (sc_groups sc) g) as [g'|]; [|inversion H; auto].
    apply generate_cases in H. destruct o; auto. destruct H as [-> [c [-> [A [B [C [D [E1 [E2 E3]]]]]]]]].
    split; auto. exists c. splits; auto. eapply at_length; eauto.
  Qed.

  Lemma forest_breed : forall h i c k j cj, forest h -> at_ h i c -> ~ In k (dkeys (k_children c)) ->
    at_ h j cj -> k_parent cj = Some i -> k_nick cj = k ->
    forest (kupd h i (fun c => set_children c (dset (k_children c) k j))).
  Proof.
    intros h i c k j cj F Hi N Hj P K.
    assert (G : forall m d, at_ (kupd h i (fun c => set_children c (dset (k_children c) k j))) m d ->
      exists d0, at_ h m d0 /\ k_nick d = k_nick d0 /\ k_parent d = k_parent d0
        /\ (k_children d = k_children d0 \/ (m = i /\ k_children d = dset (k_children d0) k j))).
    { intros m d H. unfold at_ in *. rewrite kupd_nth in H. destruct (Nat.eqb_spec m i) as [->|].
      - rewrite Hi in H. simpl in H. inversion H; subst. exists c. splits; auto.
      - exists d. splits; auto. }
    assert (G2 : forall m d0, at_ h m d0 -> exists d, at_ (kupd h i (fun c => set_children c (dset (k_children c) k j))) m d
      /\ k_nick d = k_nick d0 /\ k_parent d = k_parent d0).
    { intros m d0 H. unfold at_ in *. rewrite kupd_nth. destruct (Nat.eqb_spec m i) as [->|].
      - rewrite H. simpl. eexists. splits; eauto.
      - exists d0. splits; auto. }
    constructor.
    - intros m d p H Q. destruct (G _ _ H) as [d0 [A [_ [B _]]]]. eapply fo_parent; eauto. congruence.
    - intros m d k' j' H Q. destruct (G _ _ H) as [d0 [A [_ [_ [B|[-> B]]]]]]; rewrite B in Q.
      + destruct (fo_child _ F _ _ _ _ A Q) as [cm [C1 [C2 C3]]]. destruct (G2 _ _ C1) as [d2 [D1 [D2 D3]]].
        exists d2. splits; auto; congruence.
      + rewrite dget_dset in Q. destruct (String.eqb_spec k' k) as [->|].
        * inversion Q; subst. destruct (G2 _ _ Hj) as [d2 [D1 [D2 D3]]]. exists d2. splits; auto; congruence.
        * destruct (fo_child _ F _ _ _ _ A Q) as [cm [C1 [C2 C3]]]. destruct (G2 _ _ C1) as [d2 [D1 [D2 D3]]].
          exists d2. splits; auto; congruence.
    - intros m d H. destruct (G _ _ H) as [d0 [A [_ [_ [B|[-> B]]]]]]; rewrite B; [eapply fo_keys; eauto|].
      rewrite dkeys_dset. apply sadd_NoDup. eapply fo_keys; eauto.
  Qed.

  Lemma breed_forest : forall sc i nick g exo h r o h' r', forest h -> breed sc i nick g exo h r = (o, h', r') -> forest h'.
  Proof.
    intros sc i nick g exo h r o h' r' F H. unfold breed in H. destruct (nth_error h i) as [c|] eqn:E; [|inversion H; subst; auto].
    destruct (dmem nick (k_children c)) eqn:D; [inversion H; subst; auto|].
    destruct (sg_breed sc i nick g exo h r) as [[[j|e] h1] r1] eqn:B; apply sg_breed_cases in B; inversion H; subst; auto.
    destruct B as [-> [cj [-> [B1 [B2 [B3 [_ [_ [_ B4]]]]]]]]].
    assert (F1 : forest (h ++ [cj])) by (apply forest_app; auto; intros p Hp; rewrite B2 in Hp; inversion Hp; subst; auto).
    eapply forest_breed; eauto; [apply at_app; eauto| |apply at_app_last].
    intros I. apply dmem_In in I. congruence.
  Qed.
  Lemma sg_breed_forest : forall sc i nick g exo h r o h' r', forest h -> sg_breed sc i nick g exo h r = (o, h', r') -> forest h'.
  Proof.
    intros sc i nick g exo h r o h' r' F H. apply sg_breed_cases in H. destruct o; subst; auto.
    destruct H as [_ [cj [-> [B1 [B2 [B3 [_ [_ [_ B4]]]]]]]]]. apply forest_app; auto.
    intros p Hp. rewrite B2 in Hp. inversion Hp; subst; auto.
  Qed.
  Lemma generate_forest : forall sc g nick exo h r o h' r', forest h -> generate sc g nick None exo h r = (o, h', r') -> forest h'.
  Proof.
    intros sc g nick exo h r o h' r' F H. apply generate_cases in H. destruct o; subst; auto.
    destruct H as [_ [c [-> [_ [_ [P [C _]]]]]]]. apply forest_app; auto. intros p Hp. congruence.
  Qed.

  (** ** removing and detaching *)

  Lemma NoDup_ddel : forall A (d : dict A) k, NoDup (dkeys d) -> NoDup (dkeys (ddel d k)).
  Proof. intros A d k H. rewrite dkeys_ddel. apply NoDup_filter_name; auto. Qed.

  Lemma remove_forest : forall h i k, forest h -> forest (remove_children h i k).
  Proof.
    intros h i k F. unfold remove_children.
    assert (G : forall m d, at_ (kupd h i (fun c => set_children c (ddel (k_children c) k))) m d ->
      exists d0, at_ h m d0 /\ k_parent d = k_parent d0
        /\ (k_children d = k_children d0 \/ k_children d = ddel (k_children d0) k)).
    { intros m d H. unfold at_ in *. rewrite kupd_nth in H. destruct (Nat.eqb_spec m i) as [->|].
      - destruct (nth_error h i) as [c|] eqn:E; [|discriminate]. simpl in H. inversion H; subst. exists c. splits; auto.
      - exists d. splits; auto. }
    assert (G2 : forall m d0, at_ h m d0 -> exists d, at_ (kupd h i (fun c => set_children c (ddel (k_children c) k))) m d
      /\ k_nick d = k_nick d0 /\ k_parent d = k_parent d0).
    { intros m d0 H. unfold at_ in *. rewrite kupd_nth. destruct (Nat.eqb_spec m i) as [->|].
      - rewrite H. simpl. eexists. splits; eauto.
      - exists d0. splits; auto. }
    constructor.
    - intros m d p H Q. destruct (G _ _ H) as [d0 [A [B _]]]. eapply fo_parent; eauto. congruence.
    - intros m d k' j H Q. destruct (G _ _ H) as [d0 [A [_ B]]].
      assert (Q' : dget (k_children d0) k' = Some j).
      { destruct B as [B|B]; rewrite B in Q; auto. rewrite dget_ddel in Q. destruct (String.eqb k' k); [discriminate|auto]. }
      destruct (fo_child _ F _ _ _ _ A Q') as [cm [C1 [C2 C3]]]. destruct (G2 _ _ C1) as [d2 [D1 [D2 D3]]].
      exists d2. splits; auto; congruence.
    - intros m d H. destruct (G _ _ H) as [d0 [A [_ [B|B]]]]; rewrite B; [eapply fo_keys; eauto|]. apply NoDup_ddel. eapply fo_keys; eauto.
  Qed.

  Lemma kset_shape : forall h i x v, same_shape h (kset h i x v).
  Proof. intros. apply shape_kupd. intros []. auto. Qed.
  Lemma fold_kset_shape : forall i l h, same_shape h (fold_left (fun h kv => kset h i (fst kv) (snd kv)) l h).
  Proof.
    induction l as [|kv l IH]; intros h; simpl; [apply shape_refl|]. eapply shape_trans; [apply kset_shape|apply IH].
  Qed.

  Lemma detach_forest : forall h i col o h', forest h -> detach h i col = (o, h') -> forest h'.
  Proof.
    intros h i col o h' F H. unfold detach in H. destruct (nth_error h i) as [c|] eqn:E; [|inversion H; subst; auto].
    destruct (k_parent c) as [p|] eqn:P; [|inversion H; subst; auto].
    pose proof (remove_forest h p (k_nick c) F) as F1. set (h1 := remove_children h p (k_nick c)) in *.
    destruct col; inversion H; subst; [eapply shape_forest; [apply fold_kset_shape|exact F1]|]. clear H.
    assert (Pi : p < i) by exact (fo_parent _ F _ _ _ E P).
    assert (Ei : at_ h1 i c) by (unfold at_, h1, remove_children; rewrite kupd_other; auto; lia).
    assert (NC : forall m d k, at_ h1 m d -> dget (k_children d) k <> Some i).
    { intros m d k Hd Q. destruct (fo_child _ F1 _ _ _ _ Hd Q) as [ci [A [B C]]]. assert (ci = c) by (unfold at_ in *; congruence). subst.
      assert (m = p) by congruence. subst. unfold at_, h1, remove_children in Hd. rewrite kupd_nth, Nat.eqb_refl in Hd.
      destruct (nth_error h p) as [cp|]; [|discriminate]. simpl in Hd. inversion Hd; subst. simpl in Q. rewrite dget_ddel, String.eqb_refl in Q.
      discriminate. }
    assert (G : forall m d, at_ (kupd h1 i (fun c => set_parent c None)) m d ->
      exists d0, at_ h1 m d0 /\ k_nick d = k_nick d0 /\ k_children d = k_children d0 /\ (m <> i -> d = d0) /\ (m = i -> k_parent d = None)).
    { intros m d Hd. unfold at_ in *. rewrite kupd_nth in Hd. destruct (Nat.eqb_spec m i) as [->|].
      - rewrite Ei in Hd. simpl in Hd. inversion Hd; subst. exists c. splits; auto; congruence.
      - exists d. splits; auto; congruence. }
    constructor.
    - intros m d q Hd Q. destruct (G _ _ Hd) as [d0 [A [_ [_ [B C]]]]]. destruct (Nat.eq_dec m i) as [->|N]; [rewrite (C eq_refl) in Q; discriminate|].
      rewrite (B N) in Q. exact (fo_parent _ F1 _ _ _ A Q).
    - intros m d k j Hd Q. destruct (G _ _ Hd) as [d0 [A [_ [B _]]]]. rewrite B in Q.
      destruct (fo_child _ F1 _ _ _ _ A Q) as [cj [C1 C2]]. exists cj. split; auto. unfold at_. rewrite kupd_other; auto.
      intros ->. exact (NC _ _ _ A Q).
    - intros m d Hd. destruct (G _ _ Hd) as [d0 [A [_ [B _]]]]. rewrite B. eapply fo_keys; eauto.
  Qed.

  (** ** actors and interventions keep the shape *)

  Lemma put_actor_shape : forall h p a, same_shape h (put_actor h p a).
  Proof.
    intros h [i k|i g k] a; apply shape_kupd; intros c.
    - destruct (k_actors c); auto.
    - destruct (k_chactors c) as [d|]; auto. destruct (dget d g); auto.
  Qed.
  Lemma update_at_shape : forall h p i r o h' r', update_at h p i r = (o, h', r') -> same_shape h h'.
  Proof.
    intros h p i r o h' r' H. unfold update_at in H. destruct (actor_at h p) as [a|]; [|inversion H; apply shape_refl].
    destruct (a_update a (lookup h i) r) as [[a'|e] r1]; inversion H; subst; [apply put_actor_shape|apply shape_refl].
  Qed.
  Lemma new_sampler_shape : forall h p i r o h' r', new_sampler h p i r = (o, h', r') -> same_shape h h'.
  Proof.
    intros h p i r o h' r' H. unfold new_sampler in H. destruct (actor_at h p) as [a|]; [|inversion H; apply shape_refl].
    destruct (is_frozen a); [eapply update_at_shape; eauto|inversion H; apply shape_refl].
  Qed.
  Lemma get_actors_shape : forall sc h i s r o h' r', get_actors sc h i s r = (o, h', r') -> same_shape h h'.
  Proof.
    intros sc h i s r o h' r' H. unfold get_actors in H. destruct (nth_error h i) as [c|]; [|inversion H; apply shape_refl].
    destruct (group_of sc h i) as [g|]; [|inversion H; apply shape_refl].
    destruct (if s then k_parent c else None) as [p|].
    - destruct (nth_error h p) as [pc|]; [|inversion H; apply shape_refl].
      destruct (match k_chactors pc with Some d => dget d (k_group c) | None => None end); [inversion H; apply shape_refl|].
      destruct (make_actors (sc_bn sc) (lookup h p) (g_shared g) r) as [[acts|e] r1]; inversion H; subst; [|apply shape_refl].
      apply shape_kupd. intros []; auto.
    - destruct (k_actors c) as [d|]; [inversion H; apply shape_refl|].
      destruct (make_actors (sc_bn sc) (lookup h i) (g_local g) r) as [[acts|e] r1]; inversion H; subst; [|apply shape_refl].
      apply shape_kupd. intros []; auto.
  Qed.

  Lemma resp_fixed_shape : forall b imp sh i ds prior h r o h' r', resp_fixed b imp sh i ds prior h r = (o, h', r') -> same_shape h h'.
  Proof.
    intros b imp sh i. induction ds as [|d ds IH]; intros prior h r o h' r' H; cbn [resp_fixed] in H; [inversion H; apply shape_refl|].
    destruct (bget b d) as [l|e]; [|inversion H; apply shape_refl].
    destruct (dget imp d) as [v|].
    - set (h1 := kupd h i _) in *. assert (S : same_shape h h1) by (apply shape_kupd; intros []; auto).
      destruct (evaluate l (lookup h1 i)); [eapply shape_trans; eauto|inversion H; subst; auto].
    - destruct (mem d sh).
      + destruct (render l (lookup h i) r) as [[v r1]|e]; [|inversion H; apply shape_refl].
        pose proof (kset_shape h i (loci_name l) v) as S.
        destruct (evaluate l (lookup (kset h i (loci_name l) v) i)); [eapply shape_trans; eauto|inversion H; subst; auto].
      + destruct (evaluate l (lookup h i)); [eauto|inversion H; apply shape_refl].
  Qed.
  Lemma resp_actors_shape : forall i ps h r o h' r', resp_actors i ps h r = (o, h', r') -> same_shape h h'.
  Proof.
    intros i. induction ps as [|p ps IH]; intros h r o h' r' H; simpl in H; [inversion H; apply shape_refl|].
    destruct (update_at h p i r) as [[[[]|e] h1] r1] eqn:E; apply update_at_shape in E; [|inversion H; subst; auto].
    eapply shape_trans; eauto.
  Qed.
  Lemma each_child_shape : forall (f : nat -> cores w -> RNG w -> res unit * cores w * RNG w) js,
    (forall j h r o h' r', f j h r = (o, h', r') -> same_shape h h') ->
    forall h r o h' r', each_child f js h r = (o, h', r') -> same_shape h h'.
  Proof.
    intros f js K. induction js as [|j js IH]; intros h r o h' r' H; simpl in H; [inversion H; apply shape_refl|].
    destruct (f j h r) as [[[[]|e] h1] r1] eqn:E; apply K in E; [|inversion H; subst; auto]. eapply shape_trans; eauto.
  Qed.
  Lemma respond_shape : forall f sc imp sh i h r o h' r', respond f sc imp sh i h r = (o, h', r') -> same_shape h h'.
  Proof.
    induction f as [|f IH]; intros sc imp sh i h r o h' r' H; cbn [respond] in H; [inversion H; apply shape_refl|].
    destruct (nth_error h i) as [c|]; [|inversion H; apply shape_refl].
    destruct (group_of sc h i) as [g|]; [|inversion H; apply shape_refl].
    destruct (resp_fixed _ _ _ _ _ _ _ _) as [[[prior|e] h1] r1] eqn:E1; apply resp_fixed_shape in E1; [|inversion H; subst; auto].
    set (h1p := kupd h1 i _) in *. assert (S1 : same_shape h1 h1p) by (apply shape_kupd; intros []; auto).
    destruct (resp_actors _ _ _ _) as [[[[]|e] h2] r2] eqn:E2; apply resp_actors_shape in E2;
      [|inversion H; subst; eapply shape_trans; [eauto|eapply shape_trans; eauto]].
    destruct (each_child _ _ _ _) as [[[[]|e] h3] r3] eqn:E3;
      (apply each_child_shape in E3; [|intros j ha ra oa hb rb Hj; eapply IH; eauto]).
    - assert (S3 : same_shape h h3) by (repeat (eapply shape_trans; [eassumption|]); auto; apply shape_refl).
      inversion H; subst. destruct (filter _ _); auto. eapply shape_trans; [exact S3|]. apply shape_kupd. intros []; auto.
    - inversion H; subst. repeat (eapply shape_trans; [eassumption|]). apply shape_refl.
  Qed.

  Lemma history_forest : forall sc h, history sc h -> forest h.
  Proof.
    intros sc h H. induction H.
    - constructor; intros i c; unfold at_; destruct i; discriminate.
    - unfold sc_generate in H0. destruct (dget _ _); [eapply generate_forest; eauto|inversion H0; subst; auto].
    - eapply breed_forest; eauto.
    - unfold get_sibling in H0. destruct (nth_error h i) as [c|]; [|inversion H0; subst; auto].
      destruct (k_parent c); [eapply breed_forest; eauto|inversion H0; subst; auto].
    - eapply sg_breed_forest; eauto.
    - apply remove_forest; auto.
    - eapply detach_forest; eauto.
    - unfold clone_core in H0. destruct (nth_error h i) as [c|]; [|inversion H0; subst; auto].
      destruct (k_parent c); [inversion H0; subst; auto|]. destruct (group_of sc h i) as [g|]; [|inversion H0; subst; auto].
      destruct (generate sc g (k_nick c) None (k_locus c) h r) as [[[j|e] h1] r1] eqn:E; apply generate_forest in E; auto; inversion H0; subst; auto.
    - eapply shape_forest; [apply kset_shape|auto].
    - eapply shape_forest; [eapply get_actors_shape; eauto|auto].
    - eapply shape_forest; [eapply new_sampler_shape; eauto|auto].
    - unfold impulse_core in H0. destruct (downstream _ _); [|inversion H0; subst; auto].
      eapply shape_forest; [eapply respond_shape; eauto|auto].
    - unfold impulse_list in H0. destruct (downstream _ _); [|inversion H0; subst; auto].
      eapply shape_forest; [eapply respond_shape; eauto|auto].
  Qed.
End ProofSim.
