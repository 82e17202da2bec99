(** * Actors stored in parameter cores *)

Require Import Coq.micromega.Lia.
Require Import Verif.Base Verif.World Verif.ModelGraph Verif.ModelExpr Verif.ModelLoci Verif.ModelBN Verif.ModelSample Verif.ModelSim
        Verif.Spec Verif.SpecBN Verif.SpecSample Verif.SpecSim Verif.ProofBase Verif.ProofGraph Verif.ProofBN Verif.ProofExpr Verif.ProofSample
        Verif.ProofSim Verif.ProofSimResp Verif.ProofSimImp.

Section ProofSimActors.
  Context {w : world}.
  Notation lookup := ModelSim.lookup.

  Definition actors_ok (b : bn w) (h : cores w) : Prop := forall q a, actor_at h q = Some a -> actor_ok b (place_key q) a.

  Lemma actor_at_kupd : forall (h : cores w) i f q, (forall c, k_actors (f c) = k_actors c /\ k_chactors (f c) = k_chactors c) ->
    actor_at (kupd h i f) q = actor_at h q.
  Proof.
    intros h i f q K. destruct q as [j k|j g k]; cbn [actor_at]; rewrite kupd_nth; destruct (Nat.eqb j i); auto;
      destruct (nth_error h j) as [c|]; auto; simpl; destruct (K c) as [K1 K2]; rewrite ?K1, ?K2; auto.
  Qed.
  Lemma actor_at_app : forall (h : cores w) c q a, k_actors c = None -> k_chactors c = None -> actor_at (h ++ [c]) q = Some a ->
    actor_at h q = Some a.
  Proof.
    assert (E : forall (h : cores w) c j d, nth_error (h ++ [c]) j = Some d -> nth_error h j = Some d \/ d = c).
    { intros h c j d H. destruct (at_app_inv _ _ _ _ H) as [|[_ ->]]; auto. }
    intros h c q a N1 N2 H. destruct q as [j k|j g k]; cbn [actor_at] in *;
      destruct (nth_error (h ++ [c]) j) as [d|] eqn:D; try discriminate; destruct (E _ _ _ _ D) as [-> | ->]; auto; rewrite ?N1, ?N2 in H; discriminate.
  Qed.

  Lemma actors_ok_kupd : forall b h i f, (forall c, k_actors (f c) = k_actors c /\ k_chactors (f c) = k_chactors c) ->
    actors_ok b h -> actors_ok b (kupd h i f).
  Proof. intros b h i f K H q a A. rewrite actor_at_kupd in A by auto. auto. Qed.
  Lemma actors_ok_app : forall b h c, k_actors c = None -> k_chactors c = None -> actors_ok b h -> actors_ok b (h ++ [c]).
  Proof. intros b h c N1 N2 H q a A. apply actor_at_app in A; auto. Qed.

  Lemma update_at_ok : forall b h p i r o h' r', actors_ok b h -> update_at h p i r = (o, h', r') -> actors_ok b h'.
  Proof.
    intros b h p i r o h' r' H U. unfold update_at in U. destruct (actor_at h p) as [a|] eqn:A; [|inversion U; subst; auto].
    destruct (a_update a (lookup h i) r) as [[a'|e] r1] eqn:Ua; inversion U; subst; auto.
    apply a_update_current in Ua. destruct Ua as [_ [f [l [rd [s [s' [-> ->]]]]]]].
    intros q x Q. rewrite (actor_at_put _ _ _ _ _ A) in Q. destruct (place_eq_dec q p) as [->|]; auto.
    inversion Q; subst. apply (H _ _ A).
  Qed.
  Lemma resp_actors_ok : forall b i ps h r o h' r', actors_ok b h -> resp_actors i ps h r = (o, h', r') -> actors_ok b h'.
  Proof.
    intros b i. induction ps as [|p ps IH]; intros h r o h' r' H R; simpl in R; [inversion R; subst; auto|].
    destruct (update_at h p i r) as [[[[]|e] h1] r1] eqn:U; [|inversion R; subst]; eauto using update_at_ok.
  Qed.
  Lemma resp_fixed_at : forall b imp sh i ds prior (h : cores w) r o h' r' q, resp_fixed b imp sh i ds prior h r = (o, h', r') ->
    actor_at h' q = actor_at h q.
  Proof.
    intros b imp sh i ds prior h r o h' r' q H. pose proof (resp_fixed_shape _ _ _ _ _ _ _ _ _ _ _ H) as S.
    apply resp_fixed_frame in H. destruct H as [O K].
    assert (E : forall j, match nth_error h j, nth_error h' j with Some c, Some c' => k_actors c' = k_actors c /\ k_chactors c' = k_chactors c
                          | None, None => True | _, _ => False end).
    { intros j. destruct (Nat.eq_dec j i) as [->|N]; [|rewrite O by auto; destruct (nth_error h j); auto].
      destruct (nth_error h i) as [c|] eqn:E.
      - destruct (K c E) as [c' [A [_ B]]]. rewrite A. auto.
      - specialize (S i). rewrite E in S. destruct (nth_error h' i); [discriminate|auto]. }
    destruct q as [j k|j g k]; cbn [actor_at]; specialize (E j); destruct (nth_error h j), (nth_error h' j); try tauto;
      destruct E as [E1 E2]; rewrite ?E1, ?E2; auto.
  Qed.
  Lemma each_child_ok : forall b (f : nat -> cores w -> RNG w -> res unit * cores w * RNG w) js,
    (forall j h r o h' r', actors_ok b h -> f j h r = (o, h', r') -> actors_ok b h') ->
    forall h r o h' r', actors_ok b h -> each_child f js h r = (o, h', r') -> actors_ok b h'.
  Proof.
    intros b f js Hf. induction js as [|j js IH]; intros h r o h' r' H E; simpl in E; [inversion E; subst; auto|].
    destruct (f j h r) as [[[u|e] h1] r1] eqn:Ej; [|inversion E; subst]; eauto.
  Qed.
  Lemma respond_ok : forall f sc imp sh i h r o h' r', actors_ok (sc_bn sc) h -> respond f sc imp sh i h r = (o, h', r') ->
    actors_ok (sc_bn sc) h'.
  Proof.
    induction f as [|f IH]; intros sc imp sh i h r o h' r' A H; cbn [respond] in H; [inversion H; subst; auto|].
    destruct (nth_error h i) as [c|]; [|inversion H; subst; auto]. destruct (group_of sc h i) as [g|]; [|inversion H; subst; auto].
    destruct (resp_fixed _ _ _ _ _ _ _ _) as [[[prior|e] h1] r1] eqn:E1;
      assert (A1 : actors_ok (sc_bn sc) h1) by (intros q a Q; rewrite (resp_fixed_at _ _ _ _ _ _ _ _ _ _ _ q E1) in Q; auto);
      [|inversion H; subst; auto].
    destruct (resp_actors _ _ _ _) as [[[u|e] h2] r2] eqn:E2; apply resp_actors_ok with (b := sc_bn sc) in E2;
      try (apply actors_ok_kupd; auto); [|inversion H; subst; auto].
    destruct (each_child _ _ _ _) as [[[u2|e] h3] r3] eqn:E3; apply each_child_ok with (b := sc_bn sc) in E3; eauto;
      inversion H; subst; auto. destruct (filter _ sh); auto. apply actors_ok_kupd; auto.
  Qed.

  (** actors made from blueprints *)
  Lemma update_all_get : forall (pas : env w) l r l' r', update_all pas l r = (Ok l', r') ->
    forall k a, In (k, a) l' -> up_to_date pas a
      /\ exists a0, In (k, a0) l /\ (a = a0 \/ exists f l rd s s', a0 = AFrozen f l rd s /\ a = AFrozen f l rd s').
  Proof.
    intros pas. induction l as [|[k0 a0] l IH]; intros r l' r' H k a Hin; simpl in H; [inversion H; subst; destruct Hin|].
    destruct (is_frozen a0) eqn:Fr.
    - destruct (a_update a0 pas r) as [[a1|e] r1] eqn:U; [|discriminate].
      destruct (update_all pas l r1) as [[l2|e] r2] eqn:E; [|discriminate]. inversion H; subst. destruct Hin as [Q|Q].
      + inversion Q; subst. apply a_update_current in U. destruct U as [U1 U2]. split; auto. exists a0. split; [left; auto|auto].
      + destruct (IH _ _ _ E k a Q) as [I1 [x [I2 I3]]]. split; auto. exists x. split; [right|]; auto.
    - destruct (update_all pas l r) as [[l2|e] r2] eqn:E; [|discriminate]. inversion H; subst. destruct Hin as [Q|Q].
      + inversion Q; subst. split; [destruct a; simpl in Fr; (exact I || discriminate Fr)|]. exists a. split; [left|]; auto.
      + destruct (IH _ _ _ E k a Q) as [I1 [x [I2 I3]]]. split; auto. exists x. split; [right|]; auto.
  Qed.
  Lemma update_all_keys : forall (pas : env w) l r l' r', update_all pas l r = (Ok l', r') -> dkeys l' = dkeys l.
  Proof.
    intros pas. induction l as [|[k0 a0] l IH]; intros r l' r' H; simpl in H; [inversion H; auto|].
    destruct (if is_frozen a0 then a_update a0 pas r else (Ok a0, r)) as [[a1|e] r1]; [|discriminate].
    destruct (update_all pas l r1) as [[l2|e] r2] eqn:E; [|discriminate]. inversion H; subst. simpl. f_equal. eauto.
  Qed.
  Lemma make_actors_get : forall b (pas : env w) ps r acts r', make_actors b pas ps r = (Ok acts, r') ->
    forall k a, In (k, a) acts -> up_to_date pas a /\ exists p a0, In (k, p) ps /\ compose_actor b p = Ok a0
      /\ (a = a0 \/ exists f l rd s s', a0 = AFrozen f l rd s /\ a = AFrozen f l rd s').
  Proof.
    intros b pas ps r acts r' H k a Hin. unfold make_actors in H. destruct (mapM _ ps) as [l|e] eqn:M; [|discriminate].
    destruct (update_all_get _ _ _ _ _ H k a Hin) as [U [a0 [A B]]]. split; auto. apply mapM_ok in M.
    clear H. induction M as [|[k1 p1] y ps0 l0 E M IH]; [destruct A|]. destruct A as [->|A].
    - simpl in E. destruct (compose_actor b p1) as [a1|] eqn:Ec; simpl in E; [|discriminate]. inversion E; subst. exists p1, a0. split; [left|]; auto.
    - destruct (IH A) as [p [x [I1 I2]]]. exists p, x. split; [right|]; auto.
  Qed.
  Lemma make_actors_keys : forall b (pas : env w) ps r acts r', make_actors b pas ps r = (Ok acts, r') -> dkeys acts = dkeys ps.
  Proof.
    intros b pas ps r acts r' H. unfold make_actors in H. destruct (mapM _ ps) as [l|e] eqn:M; [|discriminate].
    rewrite (update_all_keys _ _ _ _ _ H). apply mapM_ok in M. clear H. induction M as [|[k1 p1] y ps0 l0 E M IH]; auto. simpl.
    f_equal; auto. simpl in E. destruct (compose_actor b p1); simpl in E; inversion E; auto.
  Qed.
  Lemma compose_ok : forall (b : bn w) k p a, blueprint_ok b k p -> compose_actor b p = Ok a -> actor_ok b k a.
  Proof.
    intros b k p a [E B] H. unfold compose_actor in H. destruct (bp_type p) eqn:T.
    - destruct (mapM (bget b) (bp_sample p)); simpl in H; [|discriminate]. destruct (bget b (bp_name p)); simpl in H; inversion H; simpl; auto.
    - destruct (bget b (bp_name p)); simpl in H; inversion H; simpl; auto.
    - destruct (bget b (bp_name p)) as [l|] eqn:L; simpl in H; inversion H; subst. simpl. split; auto. apply bget_holds; auto.
  Qed.
  Lemma make_actors_ok : forall b (pas : env w) ps r acts r', (forall k p, In (k, p) ps -> blueprint_ok b k p) ->
    make_actors b pas ps r = (Ok acts, r') -> forall k a, dget acts k = Some a -> actor_ok b k a.
  Proof.
    intros b pas ps r acts r' B H k a A. apply dget_in_pair in A. destruct (make_actors_get _ _ _ _ _ _ H k a A) as [_ [p [a0 [I [C D]]]]].
    pose proof (compose_ok b k p a0 (B _ _ I) C) as O. destruct D as [->|[f [l [rd [s [s' [-> ->]]]]]]]; auto.
  Qed.

  (** get_actors: where the actors are, and what they are when they were made by this call *)
  Lemma get_actors_cases : forall sc (h : cores w) i s r o h' r', get_actors sc h i s r = (o, h', r') ->
    h' = h \/ exists c g acts, at_ h i c /\ dget (sc_groups sc) (k_group c) = Some g
      /\ ((make_actors (sc_bn sc) (lookup h i) (g_local g) r = (Ok acts, r') /\ k_actors c = None /\ (s = false \/ k_parent c = None)
           /\ h' = kupd h i (fun c => set_actors c acts) /\ o = Ok (map (PLocal i) (dkeys acts)))
          \/ exists p pc, s = true /\ k_parent c = Some p /\ at_ h p pc /\ make_actors (sc_bn sc) (lookup h p) (g_shared g) r = (Ok acts, r')
             /\ (forall d, k_chactors pc = Some d -> dget d (k_group c) = None)
             /\ h' = kupd h p (fun pc => set_chactors pc (dset (match k_chactors pc with Some d => d | None => [] end) (k_group c) acts))
             /\ o = Ok (map (PShared p (k_group c)) (dkeys acts))).
  Proof.
    intros sc h i s r o h' r' H. unfold get_actors in H. destruct (nth_error h i) as [c|] eqn:E; [|inversion H; auto].
    unfold group_of in H. rewrite E in H. destruct (dget (sc_groups sc) (k_group c)) as [g|] eqn:Eg; [|inversion H; auto].
    destruct (if s then k_parent c else None) as [p|] eqn:P.
    - destruct s; [|discriminate]. destruct (nth_error h p) as [pc|] eqn:Ep; [|inversion H; auto].
      destruct (match k_chactors pc with Some d => dget d (k_group c) | None => None end) as [e|] eqn:Ee; [inversion H; auto|].
      destruct (make_actors _ _ (g_shared g) r) as [[acts|x] r1] eqn:M; inversion H; subst; auto.
      right. exists c, g, acts. splits; auto. right. exists p, pc. splits; auto. intros d D. rewrite D in Ee. auto.
    - destruct (k_actors c) as [d|] eqn:D; [inversion H; auto|].
      destruct (make_actors _ _ (g_local g) r) as [[acts|x] r1] eqn:M; inversion H; subst; auto.
      right. exists c, g, acts. splits; auto. left. splits; auto. destruct s; auto.
  Qed.

  Lemma get_actors_ok : forall sc h i s r o h' r', blueprints_ok sc -> actors_ok (sc_bn sc) h -> get_actors sc h i s r = (o, h', r') ->
    actors_ok (sc_bn sc) h'.
  Proof.
    intros sc h i s r o h' r' B A H. apply get_actors_cases in H. destruct H as [->|[c [g [acts [C [G H]]]]]]; auto.
    assert (Bl : forall k p, In (k, p) (g_local g) -> blueprint_ok (sc_bn sc) k p) by (intros; eapply B; eauto).
    assert (Bs : forall k p, In (k, p) (g_shared g) -> blueprint_ok (sc_bn sc) k p) by (intros; eapply B; eauto).
    destruct H as [[M [N [_ [-> _]]]]|[p [pc [_ [P [Pc [M [N [-> _]]]]]]]]].
    - intros q a Q. pose proof (make_actors_ok _ _ _ _ _ _ Bl M) as O. destruct q as [j k|j gn k]; cbn [actor_at] in Q; rewrite kupd_nth in Q.
      + destruct (Nat.eqb_spec j i) as [->|Nj]; [|apply (A (PLocal j k)); auto].
        unfold at_ in C. rewrite C in Q. simpl in Q. apply O; auto.
      + destruct (Nat.eqb_spec j i) as [->|Nj]; [|apply (A (PShared j gn k)); auto].
        apply (A (PShared i gn k)). cbn [actor_at]. unfold at_ in C. rewrite C in *. simpl in Q. auto.
    - intros q a Q. pose proof (make_actors_ok _ _ _ _ _ _ Bs M) as O. destruct q as [j k|j gn k]; cbn [actor_at] in Q; rewrite kupd_nth in Q.
      + destruct (Nat.eqb_spec j p) as [->|Nj]; [|apply (A (PLocal j k)); auto].
        apply (A (PLocal p k)). cbn [actor_at]. unfold at_ in Pc. rewrite Pc in *. simpl in Q. auto.
      + destruct (Nat.eqb_spec j p) as [->|Nj]; [|apply (A (PShared j gn k)); auto].
        unfold at_ in Pc. rewrite Pc in Q. simpl in Q. rewrite dget_dset in Q. destruct (String.eqb_spec gn (k_group c)) as [->|Ng].
        * apply O; auto.
        * apply (A (PShared p gn k)). cbn [actor_at]. rewrite Pc. destruct (k_chactors pc); [|discriminate]. auto.
  Qed.

  Lemma fold_kset_ok : forall b i l h, actors_ok b h -> actors_ok b (fold_left (fun h kv => kset h i (fst kv) (snd kv)) l h).
  Proof. intros b i. induction l as [|kv l IH]; simpl; intros h A; auto. apply IH. apply actors_ok_kupd; auto. Qed.

  Lemma history_actors : forall sc h, blueprints_ok sc -> history sc h -> actors_ok (sc_bn sc) h.
  Proof.
    intros sc h B H. induction H.
    - intros [i k|i g k] a; cbn [actor_at]; destruct i; discriminate.
    - unfold sc_generate in H0. destruct (dget _ _); [|inversion H0; subst; auto]. apply generate_cases in H0.
      destruct o; [|subst; auto]. destruct H0 as [_ [c [-> [_ [_ [_ [_ [N1 [N2 _]]]]]]]]]. apply actors_ok_app; auto.
    - unfold breed in H0. destruct (nth_error h i); [|inversion H0; subst; auto]. destruct (dmem nick _); [inversion H0; subst; auto|].
      destruct (sg_breed _ _ _ _ _ _ _) as [[[j|e] h1] r1] eqn:E; apply sg_breed_cases in E; inversion H0; subst; auto.
      destruct E as [_ [c0 [-> [_ [_ [_ [N1 [N2 _]]]]]]]]. apply actors_ok_kupd; auto. apply actors_ok_app; auto.
    - unfold get_sibling in H0. destruct (nth_error h i) as [c|]; [|inversion H0; subst; auto].
      destruct (k_parent c) as [p|]; [|inversion H0; subst; auto].
      unfold breed in H0. destruct (nth_error h p); [|inversion H0; subst; auto]. destruct (dmem nick _); [inversion H0; subst; auto|].
      destruct (sg_breed _ _ _ _ _ _ _) as [[[j|e] h1] r1] eqn:E; apply sg_breed_cases in E; inversion H0; subst; auto.
      destruct E as [_ [c1 [-> [_ [_ [_ [N1 [N2 _]]]]]]]]. apply actors_ok_kupd; auto. apply actors_ok_app; auto.
    - unfold get_prototype in H0. apply sg_breed_cases in H0. destruct o; [|subst; auto].
      destruct H0 as [_ [c0 [-> [_ [_ [_ [N1 [N2 _]]]]]]]]. apply actors_ok_app; auto.
    - apply actors_ok_kupd; auto.
    - unfold detach in H0. destruct (nth_error h i) as [c|]; [|inversion H0; subst; auto].
      destruct (k_parent c) as [p|]; [|inversion H0; subst; auto].
      assert (A1 : actors_ok (sc_bn sc) (remove_children h p (k_nick c))) by (apply actors_ok_kupd; auto).
      destruct col; inversion H0; subst; [|apply actors_ok_kupd; auto].
      apply fold_kset_ok; auto.
    - unfold clone_core in H0. destruct (nth_error h i) as [c|]; [|inversion H0; subst; auto].
      destruct (k_parent c); [inversion H0; subst; auto|]. destruct (group_of sc h i) as [g|]; [|inversion H0; subst; auto].
      destruct (generate sc g (k_nick c) None (k_locus c) h r) as [[[j|e] h1] r1] eqn:E; apply generate_cases in E; inversion H0; subst; auto.
      destruct E as [_ [c0 [-> [_ [_ [_ [_ [N1 [N2 _]]]]]]]]]. apply actors_ok_app; auto.
    - apply actors_ok_kupd; auto.
    - eapply get_actors_ok; eauto.
    - unfold new_sampler in H0. destruct (actor_at h p) as [a|]; [|inversion H0; subst; auto].
      destruct (is_frozen a); [eapply update_at_ok; eauto|inversion H0; subst; auto].
    - unfold impulse_core in H0. destruct (downstream _ _); [|inversion H0; subst; auto]. eapply respond_ok; eauto.
    - unfold impulse_list in H0. destruct (downstream _ _); [|inversion H0; subst; auto]. eapply respond_ok; eauto.
  Qed.
End ProofSimActors.
