(** * Pseudo parameter cores (C101) *)

Require Import Coq.ZArith.ZArith.
Require Import Verif.Base Verif.World Verif.ModelGraph Verif.ModelExpr Verif.ModelLoci Verif.ModelBN Verif.ModelSample Verif.ModelSim
        Verif.Spec Verif.SpecBN Verif.SpecSample Verif.SpecSim Verif.ProofBase Verif.ProofSim Verif.ExWorld Verif.PropsBN Verif.PropsSim Verif.ModelGhost.
Local Open Scope nat_scope.

Section Spec.
  Context {w : world}.

  Definition qat (h : ghosts w) (i : nat) (c : ghost w) : Prop := nth_error h i = Some c.

  (** one call of a method, whether it raises or not *)
  Inductive qstep : ghosts w -> ghosts w -> Prop :=
  | qs_new : forall h nick g j h', q_new nick g h = (j, h') -> qstep h h'
  | qs_breed : forall h i nick g o h', q_breed h i nick g = (o, h') -> qstep h h'
  | qs_sibling : forall h i nick o h', q_sibling h i nick = (o, h') -> qstep h h'
  | qs_duplicate : forall h i nick o h', q_duplicate h i nick = (o, h') -> qstep h h'
  | qs_prototype : forall h i g o h', q_prototype h i g = (o, h') -> qstep h h'
  | qs_remove : forall h i k o h', q_remove h i k = (o, h') -> qstep h h'
  | qs_detach : forall h i, qstep h (q_detach h i)
  | qs_set : forall h i x v, qstep h (q_set h i x v)
  | qs_impulse : forall h i imp, qstep h (q_impulse h i imp).
  Inductive qsteps : ghosts w -> ghosts w -> Prop :=
  | qss_none : forall h, qsteps h h
  | qss_more : forall h h1 h2, qsteps h h1 -> qstep h1 h2 -> qsteps h h2.
  Definition qhistory (h : ghosts w) : Prop := qsteps [] h.

  (** some core has [j] among its Children *)
  Definition is_child (h : ghosts w) (j : nat) : Prop := exists i c k, qat h i c /\ dget (q_children c) k = Some j.

  (** a family of pseudo cores: no core knows a parent, children are younger, they are stored once,
      under their own nickname *)
  Record family (h : ghosts w) : Prop := mkFamily {
    fa_parent : forall i c, qat h i c -> q_parent c = None;
    fa_child : forall i c k j, qat h i c -> dget (q_children c) k = Some j -> i < j /\ exists cj, qat h j cj /\ q_nick cj = k;
    fa_keys : forall i c, qat h i c -> NoDup (dkeys (q_children c));
    fa_once : forall i c k i' c' k' j, qat h i c -> qat h i' c' -> dget (q_children c) k = Some j -> dget (q_children c') k' = Some j ->
      i = i' /\ k = k'
  }.

  (** the same calls made on a heap of real cores and on a heap of pseudo cores: a call is repeated
      on the pseudo cores if it returned; constructing, breeding, taking prototypes, removing
      children, setting values, asking for actors and interventions *)
  Inductive twin (sc : simcore w) : cores w -> ghosts w -> Prop :=
  | tw_none : twin sc [] []
  | tw_root : forall h q nick g exo r j h' r', twin sc h q -> sc_generate sc nick exo h r = (Ok j, h', r') ->
      twin sc h' (snd (q_new (if String.eqb nick "" then b_name (sc_bn sc) else nick) g q))
  | tw_breed : forall h q i nick g exo r j h' r', twin sc h q -> breed sc i nick g exo h r = (Ok j, h', r') ->
      twin sc h' (snd (q_breed q i nick g))
  | tw_prototype : forall h q i g exo r j h' r', twin sc h q -> get_prototype sc i g exo h r = (Ok j, h', r') ->
      twin sc h' (snd (q_prototype q i g))
  | tw_remove : forall h q i k, twin sc h q -> twin sc (remove_children h i k) (snd (q_remove q i k))
  | tw_set : forall h q i x v, twin sc h q -> twin sc (kset h i x v) (q_set q i x v)
  | tw_actors : forall h q i s r o h' r', twin sc h q -> get_actors sc h i s r = (o, h', r') -> twin sc h' q
  | tw_sampler : forall h q p i r o h' r', twin sc h q -> new_sampler h p i r = (o, h', r') -> twin sc h' q
  | tw_impulse : forall h q imp i r o h' r', twin sc h q -> impulse_core sc imp i h r = (o, h', r') -> twin sc h' (q_impulse q i imp)
  | tw_impulse_list : forall h q imp i r o h' r', twin sc h q -> impulse_list sc imp i h r = (o, h', r') -> twin sc h' q.
End Spec.

Section Proofs.
  Context {w : world}.
  Implicit Types h : ghosts w.

  Lemma qupd_length : forall h i f, length (qupd h i f) = length h.
  Proof. induction h; destruct i; simpl; auto. Qed.
  Lemma qupd_nth : forall h i f j, nth_error (qupd h i f) j = if Nat.eqb j i then option_map f (nth_error h j) else nth_error h j.
  Proof.
    induction h as [|c h IH]; intros i f j; simpl.
    - destruct j; destruct (Nat.eqb _ i); reflexivity.
    - destruct i, j; simpl; auto.
  Qed.
  Lemma qat_length : forall h i c, qat h i c -> i < length h.
  Proof. intros h i c H. apply nth_error_Some. unfold qat in H. congruence. Qed.
  Lemma qat_app_inv : forall h c i d, qat (h ++ [c]) i d -> qat h i d \/ (i = length h /\ d = c).
  Proof.
    intros h c i d H. pose proof (qat_length _ _ _ H) as L. rewrite app_length in L. simpl in L. unfold qat in *.
    destruct (Nat.eq_dec i (length h)) as [->|N].
    - right. rewrite nth_error_app2 in H by lia. rewrite Nat.sub_diag in H. simpl in H. inversion H. auto.
    - left. rewrite nth_error_app1 in H by lia. auto.
  Qed.
  Lemma qat_app : forall h c i d, qat h i d -> qat (h ++ [c]) i d.
  Proof. intros h c i d H. unfold qat in *. rewrite nth_error_app1; auto. eapply qat_length; eauto. Qed.
  Lemma qat_app_last : forall h c, qat (h ++ [c]) (length h) c.
  Proof. intros h c. unfold qat. rewrite nth_error_app2, Nat.sub_diag by lia. reflexivity. Qed.
  Lemma qat_upd : forall h i f j d, qat (qupd h i f) j d ->
    exists d0, qat h j d0 /\ ((j = i /\ d = f d0) \/ (j <> i /\ d = d0)).
  Proof.
    intros h i f j d H. unfold qat in *. rewrite qupd_nth in H. destruct (Nat.eqb_spec j i) as [->|N].
    - destruct (nth_error h i) as [d0|]; [|discriminate]. simpl in H. inversion H; subst. exists d0. auto.
    - exists d. auto.
  Qed.
  Lemma qat_upd_to : forall h i f j d0, qat h j d0 -> qat (qupd h i f) j (if Nat.eqb j i then f d0 else d0).
  Proof. intros h i f j d0 H. unfold qat in *. rewrite qupd_nth, H. destruct (Nat.eqb j i); reflexivity. Qed.

  Lemma family_new : forall h nick g, family h -> family (h ++ [ghost_new nick g]).
  Proof.
    intros h nick g F. constructor.
    - intros i c H. apply qat_app_inv in H. destruct H as [H|[-> ->]]; [eapply fa_parent; eauto|reflexivity].
    - intros i c k j H K. apply qat_app_inv in H. destruct H as [H|[-> ->]]; [|discriminate].
      destruct (fa_child _ F _ _ _ _ H K) as [L [cj [A B]]]. split; auto. exists cj. split; auto. apply qat_app; auto.
    - intros i c H. apply qat_app_inv in H. destruct H as [H|[-> ->]]; [eapply fa_keys; eauto|constructor].
    - intros i c k i' c' k' j H H' K K'. apply qat_app_inv in H. apply qat_app_inv in H'.
      destruct H as [H|[-> ->]]; [|discriminate]. destruct H' as [H'|[-> ->]]; [|discriminate]. eapply fa_once; eauto.
  Qed.
  (** changing only values, or taking children away *)
  Lemma family_upd : forall h i f, family h -> (forall c, q_nick (f c) = q_nick c) -> (forall c, q_parent c = None -> q_parent (f c) = None) ->
    (forall c k j, NoDup (dkeys (q_children c)) -> dget (q_children (f c)) k = Some j -> dget (q_children c) k = Some j) ->
    (forall c, NoDup (dkeys (q_children c)) -> NoDup (dkeys (q_children (f c)))) -> family (qupd h i f).
  Proof.
    intros h i f F N P C D.
    assert (G : forall m d, qat (qupd h i f) m d -> exists d0, qat h m d0 /\ q_nick d = q_nick d0 /\ q_parent d = None
      /\ NoDup (dkeys (q_children d)) /\ forall k j, dget (q_children d) k = Some j -> dget (q_children d0) k = Some j).
    { intros m d H. apply qat_upd in H. destruct H as [d0 [H [[-> ->]|[_ ->]]]]; exists d0; split; auto.
      - splits; auto; [apply P; eapply fa_parent; eauto|apply D; eapply fa_keys; eauto|intros k j; apply C; eapply fa_keys; eauto].
      - splits; auto; [eapply fa_parent; eauto|eapply fa_keys; eauto]. }
    constructor.
    - intros m d H. destruct (G _ _ H) as [d0 X]. apply X.
    - intros m d k j H K. destruct (G _ _ H) as [d0 [A [_ [_ [_ X]]]]]. destruct (fa_child _ F _ _ _ _ A (X _ _ K)) as [L [cj [B E]]].
      split; auto. exists (if Nat.eqb j i then f cj else cj). split; [apply qat_upd_to; auto|]. destruct (Nat.eqb j i); [rewrite N|]; auto.
    - intros m d H. destruct (G _ _ H) as [d0 X]. apply X.
    - intros m d k m' d' k' j H H' K K'. destruct (G _ _ H) as [d0 [A [_ [_ [_ X]]]]]. destruct (G _ _ H') as [d0' [A' [_ [_ [_ X']]]]].
      eapply fa_once; eauto.
  Qed.
  Lemma ddel_get : forall A (d : dict A) k k' v, NoDup (dkeys d) -> dget (ddel d k) k' = Some v -> dget d k' = Some v.
  Proof.
    intros A d k k' v. induction d as [|[a b] d IH]; intros N H; simpl in *; auto. inversion N; subst.
    destruct (String.eqb_spec k a) as [->|]; simpl in H.
    - destruct (String.eqb_spec k' a) as [->|]; auto. exfalso. apply H2. apply dget_In. exists v. apply IH; auto.
    - destruct (String.eqb k' a); auto.
  Qed.
  Lemma family_breed : forall h i c k g, family h -> qat h i c -> ~ In k (dkeys (q_children c)) ->
    family (qupd (h ++ [ghost_new k g]) i (fun c => q_set_children c (dset (q_children c) k (length h)))).
  Proof.
    intros h i c k g F Hi N. pose proof (family_new h k g F) as F1.
    assert (L : i < length h) by (eapply qat_length; eauto).
    assert (Old : forall m d k' j, qat (h ++ [ghost_new k g]) m d -> dget (q_children d) k' = Some j -> j < length h).
    { intros m d k' j H K. apply qat_app_inv in H. destruct H as [H|[-> ->]]; [|discriminate].
      destruct (fa_child _ F _ _ _ _ H K) as [_ [cj [A _]]]. eapply qat_length; eauto. }
    assert (G : forall m d k' j, qat (qupd (h ++ [ghost_new k g]) i (fun c => q_set_children c (dset (q_children c) k (length h)))) m d ->
      dget (q_children d) k' = Some j ->
      (m = i /\ k' = k /\ j = length h) \/ (j < length h /\ exists d0, qat (h ++ [ghost_new k g]) m d0 /\ dget (q_children d0) k' = Some j)).
    { intros m d k' j H K. apply qat_upd in H. destruct H as [d0 [H [[-> ->]|[_ ->]]]].
      - simpl in K. rewrite dget_dset in K. destruct (String.eqb_spec k' k) as [->|].
        + inversion K. auto.
        + right. split; eauto.
      - right. split; eauto. }
    constructor.
    - intros m d H. apply qat_upd in H. destruct H as [d0 [H [[-> ->]|[_ ->]]]]; [simpl|]; eapply fa_parent; eauto.
    - intros m d k' j H K. destruct (G _ _ _ _ H K) as [[-> [-> ->]]|[Lj [d0 [A B]]]].
      + split; auto. eexists. split; [apply qat_upd_to, qat_app_last|]. destruct (Nat.eqb (length h) i); reflexivity.
      + destruct (fa_child _ F1 _ _ _ _ A B) as [L' [cj [C E]]]. split; auto. eexists. split; [apply qat_upd_to, C|].
        destruct (Nat.eqb j i); auto.
    - intros m d H. apply qat_upd in H. destruct H as [d0 [H [[-> ->]|[_ ->]]]]; [simpl|]; [|eapply fa_keys; eauto].
      rewrite dkeys_dset. apply sadd_NoDup. eapply fa_keys; eauto.
    - intros m d k1 m' d' k2 j H H' K K'. destruct (G _ _ _ _ H K) as [[-> [-> ->]]|[Lj [d0 [A B]]]];
      destruct (G _ _ _ _ H' K') as [[-> [-> E]]|[Lj' [d0' [A' B']]]]; auto; try lia. eapply fa_once; eauto.
  Qed.
  Lemma detach_none : forall h i, family h -> q_detach h i = h.
  Proof.
    intros h i F. unfold q_detach. destruct (nth_error h i) as [c|] eqn:E; auto. rewrite (fa_parent _ F _ _ E). reflexivity.
  Qed.
  Lemma breed_cases : forall h i nick g o h', q_breed h i nick g = (o, h') ->
    (h' = h /\ exists e, o = Err e) \/ (exists c, qat h i c /\ ~ In nick (dkeys (q_children c)) /\ o = Ok (length h)
      /\ h' = qupd (h ++ [ghost_new nick g]) i (fun c => q_set_children c (dset (q_children c) nick (length h)))).
  Proof.
    intros h i nick g o h' H. unfold q_breed in H. destruct (nth_error h i) as [c|] eqn:E; [|inversion H; eauto].
    destruct (dmem nick (q_children c)) eqn:D; [inversion H; eauto|]. simpl in H. inversion H; subst. right. exists c. splits; auto.
    intros I. apply dmem_In in I. congruence.
  Qed.
  Lemma step_family : forall h h', family h -> qstep h h' -> family h'.
  Proof.
    intros h h' F S. destruct S.
    - unfold q_new in H. inversion H; subst. apply family_new; auto.
    - apply breed_cases in H. destruct H as [[-> _]|[c [A [B [_ ->]]]]]; auto. eapply family_breed; eauto.
    - unfold q_sibling in H. destruct (nth_error h i); simpl in H; inversion H; subst; auto. apply family_new; auto.
    - unfold q_duplicate, q_sibling in H. destruct (nth_error h i); simpl in H; inversion H; subst; auto. apply family_new; auto.
    - unfold q_prototype in H. destruct (nth_error h i); simpl in H; inversion H; subst; auto. apply family_new; auto.
    - unfold q_remove in H. destruct (nth_error h i); inversion H; subst; auto.
      apply family_upd; auto; simpl; [intros; eapply ddel_get; eauto|intros; apply NoDup_ddel; auto].
    - rewrite detach_none; auto.
    - apply family_upd; auto.
    - exact F.
  Qed.
  Lemma steps_family : forall h h', qsteps h h' -> family h -> family h'.
  Proof. intros h h' S. induction S as [|h h1 h2 S IH St]; intros F; auto. apply (step_family h1); auto. Qed.
  Lemma history_family : forall h, qhistory h -> family h.
  Proof.
    intros h H. eapply steps_family; eauto. constructor; intros i c; intros; destruct i; discriminate.
  Qed.
  Lemma step_length : forall h h', family h -> qstep h h' -> length h <= length h'.
  Proof.
    intros h h' F S. destruct S.
    - unfold q_new in H. inversion H; subst. rewrite app_length. lia.
    - apply breed_cases in H. destruct H as [[-> _]|[c [A [B [_ ->]]]]]; auto. rewrite qupd_length, app_length. lia.
    - unfold q_sibling in H. destruct (nth_error h i); simpl in H; inversion H; subst; auto. rewrite app_length. lia.
    - unfold q_duplicate, q_sibling in H. destruct (nth_error h i); simpl in H; inversion H; subst; auto. rewrite app_length. lia.
    - unfold q_prototype in H. destruct (nth_error h i); simpl in H; inversion H; subst; auto. rewrite app_length. lia.
    - unfold q_remove in H. destruct (nth_error h i); inversion H; subst; auto. rewrite qupd_length. auto.
    - rewrite detach_none; auto.
    - unfold q_set. rewrite qupd_length. auto.
    - auto.
  Qed.
  Lemma child_new : forall h c j, q_children c = [] -> is_child (h ++ [c]) j -> is_child h j.
  Proof.
    intros h c j N [i [d [k [H K]]]]. apply qat_app_inv in H. destruct H as [H|[-> ->]]; [exists i, d, k; auto|]. rewrite N in K. discriminate.
  Qed.
  Lemma step_child : forall h h' j, family h -> qstep h h' -> j < length h -> is_child h' j -> is_child h j.
  Proof.
    intros h h' j F S L C. destruct S.
    - unfold q_new in H. inversion H; subst. eapply child_new; eauto. reflexivity.
    - apply breed_cases in H. destruct H as [[-> _]|[c [A [B [_ ->]]]]]; auto.
      destruct C as [m [d [k [H K]]]]. apply qat_upd in H. destruct H as [d0 [H E]].
      assert (K0 : dget (q_children d0) k = Some j).
      { destruct E as [[-> ->]|[_ ->]]; auto. simpl in K. rewrite dget_dset in K.
        destruct (String.eqb_spec k nick) as [->|]; auto. inversion K. lia. }
      apply qat_app_inv in H. destruct H as [H|[-> ->]]; [exists m, d0, k; auto|discriminate].
    - unfold q_sibling in H. destruct (nth_error h i); simpl in H; inversion H; subst; auto. eapply child_new; eauto. reflexivity.
    - unfold q_duplicate, q_sibling in H. destruct (nth_error h i); simpl in H; inversion H; subst; auto. eapply child_new; eauto. reflexivity.
    - unfold q_prototype in H. destruct (nth_error h i); simpl in H; inversion H; subst; auto. eapply child_new; eauto. reflexivity.
    - unfold q_remove in H. destruct (nth_error h i) eqn:E; inversion H; subst; auto.
      destruct C as [m [d [k' [H1 K]]]]. apply qat_upd in H1. destruct H1 as [d0 [H1 [[-> ->]|[_ ->]]]]; [|exists m, d0, k'; auto].
      exists i, d0, k'. split; auto. simpl in K. eapply ddel_get; eauto. eapply fa_keys; eauto.
    - rewrite detach_none in C; auto.
    - destruct C as [m [d [k' [H1 K]]]]. apply qat_upd in H1. destruct H1 as [d0 [H1 [[-> ->]|[_ ->]]]]; [exists i, d0, k'; auto|exists m, d0, k'; auto].
    - exact C.
  Qed.

  (** agreement of the two heaps *)
  Definition alike (h : cores w) (q : ghosts w) : Prop :=
    forall i, option_map (fun c => (k_nick c, k_children c)) (nth_error h i) = option_map (fun c => (q_nick c, q_children c)) (nth_error q i).
  Lemma alike_length : forall (h : cores w) q, alike h q -> length h = length q.
  Proof.
    intros h q A. destruct (Nat.lt_trichotomy (length h) (length q)) as [L|[L|L]]; auto; exfalso.
    - specialize (A (length h)). assert (E : nth_error h (length h) = None) by (apply nth_error_None; lia). rewrite E in A.
      apply nth_error_Some in L. destruct (nth_error q (length h)); [discriminate|congruence].
    - specialize (A (length q)). assert (E : nth_error q (length q) = None) by (apply nth_error_None; lia). rewrite E in A.
      apply nth_error_Some in L. destruct (nth_error h (length q)); [discriminate|congruence].
  Qed.
  Lemma alike_shape : forall (h h' : cores w) q, same_shape h h' -> alike h q -> alike h' q.
  Proof.
    intros h h' q S A i. rewrite <- A. specialize (S i). destruct (nth_error h i) as [c|], (nth_error h' i) as [c'|]; simpl in *; try discriminate; auto.
    inversion S. congruence.
  Qed.
  Lemma alike_app : forall (h : cores w) q c d, alike h q -> k_nick c = q_nick d -> k_children c = q_children d -> alike (h ++ [c]) (q ++ [d]).
  Proof.
    intros h q c d A N C i. pose proof (alike_length _ _ A) as L. destruct (Nat.lt_trichotomy i (length h)) as [K|[->|K]].
    - rewrite !nth_error_app1 by lia. apply A.
    - rewrite nth_error_app2, Nat.sub_diag by lia. rewrite L. rewrite nth_error_app2, Nat.sub_diag by lia. simpl. congruence.
    - assert (E1 : nth_error (h ++ [c]) i = None) by (apply nth_error_None; rewrite app_length; simpl; lia).
      assert (E2 : nth_error (q ++ [d]) i = None) by (apply nth_error_None; rewrite app_length; simpl; lia).
      rewrite E1, E2. reflexivity.
  Qed.
  Lemma alike_upd : forall (h : cores w) q i f g, alike h q -> (forall c d, k_nick c = q_nick d -> k_children c = q_children d ->
      k_nick (f c) = q_nick (g d) /\ k_children (f c) = q_children (g d)) -> alike (kupd h i f) (qupd q i g).
  Proof.
    intros h q i f g A K j. rewrite kupd_nth, qupd_nth. destruct (Nat.eqb j i); [|apply A]. specialize (A j).
    destruct (nth_error h j) as [c|], (nth_error q j) as [d|]; simpl in *; try discriminate; auto. inversion A.
    destruct (K c d) as [X Y]; congruence.
  Qed.
  Lemma alike_at : forall (h : cores w) q i c, alike h q -> at_ h i c -> exists d, qat q i d /\ k_nick c = q_nick d /\ k_children c = q_children d.
  Proof.
    intros h q i c A H. specialize (A i). unfold at_ in H. rewrite H in A. destruct (nth_error q i) as [d|] eqn:E; [|discriminate].
    simpl in A. inversion A. exists d. splits; auto.
  Qed.
  Lemma twin_alike : forall sc (h : cores w) q, twin sc h q -> alike h q.
  Proof.
    intros sc h q T. induction T.
    - intros i. destruct i; reflexivity.
    - unfold sc_generate in H. destruct (dget (sc_groups sc) (sc_root sc)) as [g0|]; [|discriminate].
      apply generate_cases in H. destruct H as [-> [c [-> [N [_ [_ [C _]]]]]]]. apply alike_app; auto.
    - unfold breed in H. destruct (nth_error h i) as [c|] eqn:E; [|discriminate].
      destruct (dmem nick (k_children c)) eqn:D; [discriminate|].
      destruct (sg_breed sc i nick g exo h r) as [[[j0|e] h1] r1] eqn:B; apply sg_breed_cases in B; inversion H; subst.
      destruct B as [-> [cj [-> [B1 [_ [B3 _]]]]]].
      destruct (alike_at _ _ _ _ IHT E) as [d [A1 [A2 A3]]]. unfold q_breed. unfold qat in A1. rewrite A1, <- A3, D. simpl.
      rewrite <- (alike_length _ _ IHT). apply alike_upd; [apply alike_app; auto|]. intros c1 d1 X Y. simpl. rewrite Y. auto.
    - unfold get_prototype in H. apply sg_breed_cases in H. destruct H as [-> [cj [-> [B1 [_ [B3 [_ [_ [_ L]]]]]]]]].
      unfold q_prototype. rewrite (alike_length _ _ IHT) in L. apply nth_error_Some in L. destruct (nth_error q i); [|congruence].
      simpl. apply alike_app; auto.
    - unfold remove_children, q_remove. destruct (nth_error q i) as [d|] eqn:E; simpl.
      + apply alike_upd; auto. intros c1 d1 X Y. simpl. rewrite Y. auto.
      + assert (E2 : nth_error h i = None). { specialize (IHT i). rewrite E in IHT. destruct (nth_error h i); [discriminate|auto]. }
        intros j. rewrite kupd_nth. destruct (Nat.eqb_spec j i) as [->|]; [|apply IHT]. rewrite E2, E. reflexivity.
    - unfold kset, q_set. apply alike_upd; auto.
    - eapply alike_shape; [eapply get_actors_shape; eauto|auto].
    - eapply alike_shape; [eapply new_sampler_shape; eauto|auto].
    - unfold impulse_core in H. destruct (downstream (dag (sc_bn sc)) (dkeys imp)); [|inversion H; subst; auto].
      eapply alike_shape; [eapply respond_shape; eauto|auto].
    - unfold impulse_list in H. destruct (downstream (dag (sc_bn sc)) imp); [|inversion H; subst; auto].
      eapply alike_shape; [eapply respond_shape; eauto|auto].
  Qed.
End Proofs.

(** However pseudo cores are made and used, none of them ever has a parent; children are younger
    cores, entered under their own nickname, into Children of one core only. *)
Theorem C101_family : forall w (h : ghosts w), qhistory h -> family h.
Proof. intros w h H. apply history_family; auto. Qed.
Print Assumptions C101_family.

(** breed refuses exactly the nicknames in use, and accepts any group; the new core has no values
    and nothing else changes. *)
Theorem C101_breed : forall w (h : ghosts w) i c nick g o h', qhistory h -> qat h i c -> q_breed h i nick g = (o, h') ->
  (In nick (dkeys (q_children c)) -> o = Err ValueError /\ h' = h)
  /\ (~ In nick (dkeys (q_children c)) -> exists j cj ci, o = Ok j /\ j = length h /\ length h' = S (length h)
      /\ qat h' j cj /\ q_nick cj = nick /\ q_group cj = g /\ q_locus cj = [] /\ q_children cj = []
      /\ qat h' i ci /\ q_locus ci = q_locus c /\ (forall k, dget (q_children ci) k = if String.eqb k nick then Some j else dget (q_children c) k)
      /\ forall m, m <> i -> m <> j -> nth_error h' m = nth_error h m).
Proof.
  intros w h i c nick g o h' H A B. split; intros I.
  - unfold q_breed in B. unfold qat in A. rewrite A in B. apply dmem_In in I. rewrite I in B. inversion B. auto.
  - unfold q_breed in B. unfold qat in A. rewrite A in B. destruct (dmem nick (q_children c)) eqn:D; [apply dmem_In in D; tauto|].
    simpl in B. inversion B; subst. pose proof (qat_length _ _ _ A) as L.
    exists (length h), (ghost_new nick g), (q_set_children c (dset (q_children c) nick (length h))).
    splits; auto.
    + rewrite qupd_length, app_length. simpl. lia.
    + unfold qat. rewrite qupd_nth. destruct (Nat.eqb_spec (length h) i) as [E|]; [lia|]. apply qat_app_last.
    + unfold qat. rewrite qupd_nth, Nat.eqb_refl. rewrite nth_error_app1 by auto. rewrite A. reflexivity.
    + intros k. simpl. rewrite dget_dset. reflexivity.
    + intros m N1 N2. rewrite qupd_nth. destruct (Nat.eqb_spec m i) as [|_]; [contradiction|].
      destruct (Nat.lt_ge_cases m (length h)) as [L1|L1]; [rewrite nth_error_app1 by auto; reflexivity|].
      transitivity (@None (ghost w)); [apply nth_error_None; rewrite app_length; simpl; lia|symmetry; apply nth_error_None; lia].
Qed.
Print Assumptions C101_breed.

(** What get_sibling, duplicate and get_prototype return is a new core without values, of the nickname
    and group asked for (the group of the core itself for the first two). It is a child of no core, and
    never becomes one, whatever is called later; detach_from_parent never changes anything. *)
Theorem C101_loose : forall w (h : ghosts w) i c nick g, qhistory h -> qat h i c ->
  (forall n gr o h', (q_sibling h i nick = (o, h') /\ n = nick /\ gr = q_group c) \/ (q_duplicate h i nick = (o, h') /\ n = nick /\ gr = q_group c)
       \/ (q_prototype h i g = (o, h') /\ n = "prototype" /\ gr = g) ->
     exists j cj, o = Ok j /\ j = length h /\ firstn j h' = h /\ qat h' j cj /\ q_nick cj = n /\ q_group cj = gr /\ q_locus cj = []
       /\ q_children cj = [] /\ forall h2, qsteps h' h2 -> ~ is_child h2 j)
  /\ (forall j, q_detach h j = h).
Proof.
  intros w h i c nick g H A. pose proof (history_family h H) as F. split; [|intros j; apply detach_none; auto].
  assert (K : forall n gr h2, qsteps (h ++ [ghost_new n gr]) h2 -> family h2 /\ length h < length h2 /\ ~ is_child h2 (length h)).
  { intros n gr h2 S. remember (h ++ [ghost_new n gr]) as h1 eqn:E. induction S as [|h0 h1 h2 S IH St].
    - subst. splits; [apply family_new; auto|rewrite app_length; simpl; lia|].
      intros C. apply child_new in C; [|reflexivity]. destruct C as [m [d [k [C1 C2]]]].
      destruct (fa_child _ F _ _ _ _ C1 C2) as [_ [cj [C3 _]]]. apply qat_length in C3. lia.
    - destruct (IH E) as [F1 [L1 N1]]. splits; [eapply step_family; eauto|pose proof (step_length _ _ F1 St); lia|].
      intros C. apply N1. eapply step_child; eauto. }
  unfold q_duplicate. intros n gr o h' B. unfold q_sibling, q_prototype in B. unfold qat in A. rewrite A in B. simpl in B.
  assert (E : (o, h') = (Ok (length h), h ++ [ghost_new n gr])) by (destruct B as [[B [-> ->]]|[[B [-> ->]]|[B [-> ->]]]]; symmetry; exact B).
  inversion E; subst. exists (length h). eexists. split; [reflexivity|]. split; [reflexivity|].
  split; [rewrite firstn_app, Nat.sub_diag, firstn_all; simpl; apply app_nil_r|].
  split; [apply qat_app_last|]. splits; try reflexivity. intros h2 S; apply (K _ _ _ S).
Qed.
Print Assumptions C101_loose.

(** A pseudo core gives no value for any name, also for the names set; iterating gives what was set,
    and so dict(core) raises KeyError as soon as anything was. *)
Theorem C101_values : forall w (h : ghosts w) i c, qhistory h -> qat h i c ->
  q_items (S i) h i = q_locus c
  /\ (q_dict h i = Ok [] <-> q_locus c = []) /\ (q_dict h i = Err KeyError <-> q_locus c <> [])
  /\ (forall x v, q_contains (q_set h i x v) i x = true /\ q_get (q_set h i x v) i x = Err KeyError
        /\ q_dict (q_set h i x v) i = Err KeyError).
Proof.
  intros w h i c H A. pose proof (history_family h H) as F.
  assert (D : forall (h2 : ghosts w) d, qat h2 i d -> q_dict h2 i = match q_locus d with [] => Ok [] | _ => Err KeyError end).
  { intros h2 d B. unfold q_dict. unfold qat in B. rewrite B. destruct (q_locus d) as [|[k v] l]; reflexivity. }
  splits.
  - simpl. unfold qat in A. rewrite A, (fa_parent _ F _ _ A). reflexivity.
  - rewrite (D _ _ A). destruct (q_locus c); split; intros X; auto; discriminate.
  - rewrite (D _ _ A). destruct (q_locus c); split; intros X; auto; try discriminate. congruence.
  - intros x v. pose proof (qat_upd_to h i (fun c => mkGhost (q_nick c) (q_group c) (dset (q_locus c) x v) (lp_nan w) (q_parent c) (q_children c)) i c A) as B.
    rewrite Nat.eqb_refl in B. fold (q_set h i x v) in B. splits; auto.
    + unfold q_contains. unfold qat in B. rewrite B. simpl. unfold dmem. rewrite dget_dset, String.eqb_refl. reflexivity.
    + rewrite (D _ _ B). simpl. destruct (q_locus c) as [|[a b] l]; simpl; [reflexivity|]. destruct (String.eqb x a); reflexivity.
Qed.
Print Assumptions C101_values.

(** The log prior with that of all descendants is 0, from the beginning on. *)
Theorem C101_prior : forall w (h : ghosts w) i c, qhistory h -> qat h i c -> q_prior (length h) h i = Ok 0%Z.
Proof.
  intros w h i c H A. pose proof (history_family h H) as F.
  assert (K : forall f i c, qat h i c -> length h <= f + i -> q_prior f h i = Ok 0%Z).
  { clear i c A. induction f as [|f IH]; intros i c A L; [apply qat_length in A; lia|]. cbn [q_prior]. unfold qat in A. rewrite A.
    assert (G : forall l, (forall k j, In (k, j) l -> dget (q_children c) k = Some j) ->
      exists zs, mapM (fun kj : name * nat => q_prior f h (snd kj)) l = Ok zs /\ forall z, In z zs -> z = 0%Z).
    { induction l as [|[k j] l IHl]; intros Sub; [exists []; split; [reflexivity|intros z []]|].
      destruct (fa_child _ F _ _ k j A (Sub k j (or_introl eq_refl))) as [Lj [cj [B _]]]. cbn [mapM snd].
      rewrite (IH j cj B) by lia. destruct IHl as [zs [E Z]]; [intros; apply Sub; right; auto|]. cbn [bind]. rewrite E. cbn [bind].
      exists (0%Z :: zs). split; auto. intros z [<-|I]; auto. }
    destruct (G (q_children c)) as [zs [E Z]].
    { intros k j I. pose proof (fa_keys _ F _ _ A) as N. clear - I N. induction (q_children c) as [|[a b] l IHl]; [destruct I|].
      simpl in N. inversion N as [|x y N1 N2]; subst. simpl. destruct I as [I|I]; [inversion I; subst; rewrite String.eqb_refl; auto|].
      destruct (String.eqb_spec k a) as [->|]; auto. exfalso. apply N1. apply in_map_iff. exists (a, j). auto. }
    rewrite E. cbn [bind]. f_equal. clear E. induction zs as [|z zs IHz]; auto. simpl in *. rewrite (Z z) by auto. apply IHz. auto. }
  eapply K; eauto. lia.
Qed.
Print Assumptions C101_prior.

(** Pseudo cores that go through the same calls as real cores have the same family: every core has
    the same nickname and the same children, and an address leads to the same core when any name
    is put before it. *)
Theorem C101_mirror : forall w (sc : simcore w) h q, twin sc h q ->
  length h = length q
  /\ (forall i c, at_ h i c -> exists d, qat q i d /\ q_nick d = k_nick c /\ q_children d = k_children c)
  /\ (forall i first address, no_at first -> q_find q i (first ++ "@" ++ address) = find_descendant h i address).
Proof.
  intros w sc h q T. pose proof (twin_alike sc h q T) as A. splits.
  - apply alike_length; auto.
  - intros i c H. destruct (alike_at _ _ _ _ A H) as [d [X [Y Z]]]. exists d. splits; auto.
  - intros i first address N. unfold q_find, find_descendant. rewrite split_cons by auto.
    assert (L : Nat.ltb (length (first :: split_at address)) 2 = false).
    { apply Nat.ltb_ge. assert (split_at address <> []) by (destruct address; simpl; [discriminate|destruct (Ascii.eqb _ _); [discriminate|destruct (split_at address); discriminate]]).
      destruct (split_at address); [congruence|simpl; lia]. }
    rewrite L. cbn [tl]. generalize (split_at address) as ks. intros ks. revert i. induction ks as [|k ks IH]; intros i; simpl; auto.
    assert (E : q_child q i k = get_child h i k).
    { unfold q_child, get_child. specialize (A i). destruct (nth_error h i) as [c|], (nth_error q i) as [d|]; simpl in A; try discriminate; auto.
      inversion A. congruence. }
    rewrite E. destruct (get_child h i k); simpl; auto.
Qed.
Print Assumptions C101_mirror.

(** The real heap exh2 (a root with the child i1) and its pseudo counterpart. *)
Definition exq1 : ghosts exw := snd (q_new "root" "ag" []).
Definition exq2 : ghosts exw := snd (q_breed exq1 0 "i1" "ind").
Local Definition isok {A} (o : res A) : bool := match o with Ok _ => true | Err _ => false end.
Lemma exq2_twin : twin exsc exh2 exq2.
Proof.
  assert (T1 : twin exsc exh1 exq1).
  { assert (F : isok (fst (fst (sc_generate exsc "root" [("a", PZ 1%Z); ("s", PZ 2%Z)] [] 0))) = true) by (vm_compute; reflexivity).
    destruct (sc_generate exsc "root" [("a", PZ 1%Z); ("s", PZ 2%Z)] [] 0) as [[o h] r] eqn:E.
    assert (Hh : h = exh1) by (unfold exh1; rewrite E; auto). subst h.
    destruct o as [j|e]; [|discriminate F].
    apply (tw_root exsc [] [] "root" "ag" _ _ _ _ _ (tw_none exsc) E). }
  assert (F : isok (fst (fst (breed exsc 0 "i1" "ind" [] exh1 4))) = true) by (vm_compute; reflexivity).
  destruct (breed exsc 0 "i1" "ind" [] exh1 4) as [[o h] r] eqn:E.
  assert (Hh : h = exh2) by (unfold exh2; rewrite E; auto). subst h.
  destruct o as [j|e]; [|discriminate F].
  apply (tw_breed exsc exh1 exq1 0 "i1" "ind" _ _ _ _ _ T1 E).
Qed.
Lemma exq2_history : qhistory exq2.
Proof.
  eapply qss_more; [eapply qss_more; [apply qss_none|apply (qs_new [] "root" "ag" 0 exq1); reflexivity]|].
  apply (qs_breed exq1 0 "i1" "ind" (Ok 1) exq2). reflexivity.
Qed.
Example C101_example : qhistory exq2 /\ twin exsc exh2 exq2
  /\ map (fun c => (q_nick c, q_group c, q_children c)) exq2 = [("root", "ag", [("i1", 1)]); ("i1", "ind", [])]
  /\ fst (q_breed exq2 0 "i1" "no such group") = Err ValueError /\ fst (q_breed exq2 0 "i2" "no such group") = Ok 2
  /\ q_find exq2 0 "root@i1" = Ok 1 /\ find_descendant exh2 0 "i1" = Ok 1 /\ no_at "root"
  /\ q_prior 2 exq2 0 = Ok 0%Z /\ q_dict (q_set exq2 1 "x" (PZ 3%Z)) 1 = Err KeyError.
Proof.
  split; [exact exq2_history|]. split; [exact exq2_twin|]. splits; try (vm_compute; reflexivity). intros H. vm_compute in H. intuition discriminate.
Qed.

(** The same address means different cores in the two kinds. *)
Theorem C101_address_refuted : exists w (sc : simcore w) h q i address, twin sc h q
  /\ find_descendant h i address = Ok 1 /\ q_find q i address = Ok 0.
Proof. exists exw, exsc, exh2, exq2, 0, "i1". split; [exact exq2_twin|]. split; vm_compute; reflexivity. Qed.
Print Assumptions C101_address_refuted.

(** A sibling of a real core is a child of its parent, that of a pseudo core is not; a real core
    leaves its parent when detached, a pseudo core stays. *)
Theorem C101_sibling_refuted : exists w (sc : simcore w) h q i nick r j h' r' q', twin sc h q
  /\ get_sibling sc i nick [] h r = (Ok j, h', r') /\ q_sibling q i nick = (Ok j, q')
  /\ get_child h' 0 nick = Ok j /\ ~ is_child q' j.
Proof.
  exists exw, exsc, exh2, exq2, 1, "i2", 9, 2.
  exists (snd (fst (get_sibling exsc 1 "i2" [] exh2 9))), (snd (get_sibling exsc 1 "i2" [] exh2 9)), (snd (q_sibling exq2 1 "i2")).
  split; [exact exq2_twin|]. split; [vm_compute; reflexivity|]. split; [vm_compute; reflexivity|]. split; [vm_compute; reflexivity|].
  intros [m [d [k [H K]]]]. destruct m as [|[|[|m]]]; [| | |destruct m; discriminate]; inversion H; subst; simpl in K;
    try discriminate; destruct (String.eqb k "i1"); discriminate.
Qed.
Print Assumptions C101_sibling_refuted.
Theorem C101_detach_refuted : exists w (sc : simcore w) h q i h' k, twin sc h q
  /\ detach h i false = (Ok tt, h') /\ get_child h' 0 k = Err KeyError /\ q_child (q_detach q i) 0 k = Ok i.
Proof.
  exists exw, exsc, exh2, exq2, 1, (snd (detach exh2 1 false)), "i1".
  split; [exact exq2_twin|]. splits; vm_compute; reflexivity.
Qed.
Print Assumptions C101_detach_refuted.
