(** * Lemmas on node sets as objects *)

Require Import Verif.Base Verif.World Verif.ModelGraph Verif.ModelExpr Verif.ModelLoci Verif.ModelBN Verif.ModelSample Verif.ModelSim
        Verif.ModelNodeSet Verif.ModelLife Verif.Spec Verif.SpecBN Verif.SpecSim Verif.SpecNodeSet Verif.ProofBase
        Verif.ProofNodeSet Verif.ProofNodeSetInj Verif.ProofNodeSetMain.

(** ** The shape of an allocation *)

Inductive alike : stree -> stree -> Prop :=
| ak : forall a a' sh sh' ks ks', a_name a' = a_name a -> Forall2 alike ks ks' -> alike (STree a sh ks) (STree a' sh' ks').
Inductive fits : nset -> stree -> Prop :=
| ft : forall nm fx fl a sh ks ks', a_name a = nm -> Forall2 fits ks ks' -> fits (NSet nm fx fl ks) (STree a sh ks').

Lemma fits_alike : forall q s s', fits q s -> alike s s' -> fits q s'.
Proof.
  induction q as [nm fx fl ks IH] using nset_ind'. intros s s' F A. inversion F as [? ? ? ? ? ? ? Fn Fk]; subst. inversion A as [? ? ? ? ? ks2 An Ak]; subst. constructor; auto.
  clear - IH Fk Ak. revert ks2 Ak. induction Fk as [|k s ks ss K H IHF]; intros ks2 G; inversion G; subst; constructor.
  - inversion IH; subst. eauto.
  - inversion IH; subst. auto.
Qed.

Section Shape.
  Context {w : world}.

  Lemma mapM_alike : forall (f : stree -> res stree) ks ks', (forall k k', In k ks -> f k = Ok k' -> alike k k') -> mapM f ks = Ok ks' -> Forall2 alike ks ks'.
  Proof.
    intros f ks ks' H Em. apply mapM_ok in Em. revert H. induction Em as [|x y xs ys Ex Em IHm]; intros H; constructor.
    - apply H; auto. left; auto.
    - apply IHm. intros k k' Hk. apply H. right; auto.
  Qed.

  Lemma resolve_fits : forall (b : bn w) t r was t', resolve_local b r was t = Ok t' -> fits t t'.
  Proof.
    intros b. induction t as [nm fx fl ks IH] using nset_ind'. intros r was t' E. rewrite resolve_local_eq in E.
    destruct (local_one b r nm was fx fl) as [[a al]|] eqn:E1; cbn [bind fst snd] in E; [|discriminate].
    destruct (mapM _ ks) as [ks'|] eqn:Em; cbn [bind] in E; [|discriminate]. inversion E; subst. clear E.
    assert (N : a_name a = nm) by (apply local_one_ok in E1; intuition). constructor; auto. apply mapM_ok in Em. rewrite Forall_forall in IH.
    clear - IH Em. revert IH. induction Em as [|x y xs ys Ex Em IHm]; intros IH; constructor.
    - eapply IH; eauto. left; auto.
    - apply IHm. intros z Hz. apply IH. right; auto.
  Qed.
  Lemma raise_alike : forall t, alike t (raise_up t).
  Proof.
    induction t as [a sh ks IH] using stree_ind'. rewrite raise_up_eq. constructor; auto. induction IH; simpl; constructor; auto.
  Qed.
  Lemma relate_alike : forall (b : bn w) t r was t' was' hs, relate b r was t = Ok (t', was', hs) -> alike t t'.
  Proof.
    intros b. induction t as [a sh ks IH] using stree_ind'. intros r was t' was' hs E. rewrite relate_eq in E.
    destruct (relate_one b r was a) as [[a1 h1]|e] eqn:E1; cbn [bind fst snd] in E; [|discriminate].
    apply relate_one_ok in E1. destruct E1 as (N1 & _).
    destruct (relate_kids b sh ks (a_fixed a1, was) _) as [[[ks' [fx was2]] S]|e] eqn:E2; cbn [bind] in E; [|discriminate].
    inversion E; subst. clear E. constructor; auto. rewrite Forall_forall in IH. clear - IH E2. revert E2.
    generalize (a_fixed a1, was) as s. generalize (match ks with k :: _ => a_was (s_alloc k) | [] => [] end) as S0. generalize (fx, was') as s2.
    clear fx was'. revert ks' S. induction ks as [|k l IHl]; intros l' S' s' S0 s E; cbn [relate_kids] in E; [inversion E; subst; constructor|].
    destruct (relate b false (if sh then S0 else a_was (s_alloc k)) k) as [[[k' w1] h2]|e] eqn:Ek; cbn [bind] in E; [|discriminate].
    destruct (relate_kids b sh l (fold_left hoist h2 s) (if sh then w1 else S0)) as [[[l2 s2] S2]|e] eqn:El; cbn [bind] in E; [|discriminate].
    inversion E; subst. clear E. constructor.
    - pose proof (IH k (or_introl eq_refl) _ _ _ _ _ Ek) as Q. inversion Q; subst. cbn [s_alloc s_kids]. constructor; auto. destruct sh; auto.
    - eapply IHl; [|exact El]. intros x Hx. apply IH. right. auto.
  Qed.
  Lemma pass_down_alike : forall (b : bn w) t fi fl ns t', pass_down b fi fl ns t = Ok t' -> alike t t'.
  Proof.
    intros b. induction t as [a sh ks IH] using stree_ind'. intros fi fl ns t' E. rewrite pass_down_eq in E. cbv zeta in E.
    destruct (foldM _ ns _) as [[[fx flo] down]|e] eqn:Ef; cbn [bind] in E; [|discriminate].
    destruct (mapM _ ks) as [ks'|e] eqn:Em; cbn [bind] in E; [|discriminate]. inversion E; subst. clear E.
    rewrite Forall_forall in IH. constructor; auto. eapply mapM_alike; [|exact Em]. intros k k' Hk. apply IH; auto.
  Qed.
  Lemma samplers_alike : forall (b : bn w) t t', define_samplers b t = Ok t' -> alike t t'.
  Proof.
    intros b. induction t as [a sh ks IH] using stree_ind'. intros t' E. rewrite define_samplers_eq in E.
    destruct (samplers_one b a) as [a'|e] eqn:Ea; cbn [bind] in E; [|discriminate].
    destruct (mapM _ ks) as [ks'|e] eqn:Em; cbn [bind] in E; [|discriminate]. inversion E; subst. clear E.
    unfold samplers_one in Ea. cbv zeta in Ea. destruct (foldM _ _ _) as [q|]; cbn [bind] in Ea; [|discriminate]. inversion Ea; subst.
    rewrite Forall_forall in IH. constructor; auto. eapply mapM_alike; [|exact Em]. auto.
  Qed.
  Lemma sort_alike : forall (b : bn w) t t', sort_fixed b t = Ok t' -> alike t t'.
  Proof.
    intros b. induction t as [a sh ks IH] using stree_ind'. intros t' E. rewrite sort_fixed_eq in E.
    destruct (bn_sort b (a_fixed a)) as [fx|e]; cbn [bind] in E; [|discriminate].
    destruct (mapM _ ks) as [ks'|e] eqn:Em; cbn [bind] in E; [|discriminate]. inversion E; subst. clear E.
    rewrite Forall_forall in IH. constructor; auto. eapply mapM_alike; [|exact Em]. auto.
  Qed.
  Lemma inject_fits : forall (b : bn w) q s, inject b q = Ok s -> fits q s.
  Proof.
    intros b q s E. destruct (inject_split b q s E) as (t1 & t2 & was & hs & t3 & t4 & _ & E1 & E2 & E3 & E4 & E5).
    unfold locate_undefined in E3. destruct (Order b) as [od|]; cbn [bind] in E3; [|discriminate].
    eapply fits_alike; [|eapply sort_alike; eauto]. eapply fits_alike; [|eapply samplers_alike; eauto].
    eapply fits_alike; [|eapply pass_down_alike; eauto]. eapply fits_alike; [|eapply relate_alike; eauto].
    eapply fits_alike; [|apply raise_alike]. eapply resolve_fits; eauto.
  Qed.
End Shape.

(** ** The heap *)

Lemma ntree_ind' : forall P : ntree -> Prop, (forall i ks, Forall P ks -> P (NT i ks)) -> forall t, P t.
Proof. intros P H. fix F 1. intros [i ks]. apply H. induction ks as [|k ks IH]; constructor; auto. Qed.

Lemma nupd_nth : forall h i f j, nth_error (nupd h i f) j = if Nat.eqb j i then option_map f (nth_error h j) else nth_error h j.
Proof.
  induction h as [|o h IH]; intros i f j.
  - assert (E : nupd [] i f = []) by (destruct i; auto). rewrite E. destruct (Nat.eqb j i), j; auto.
  - destruct i, j; simpl; auto.
Qed.
Lemma nupd_length : forall h i f, length (nupd h i f) = length h.
Proof. induction h as [|o h IH]; intros [|i] f; simpl; auto. Qed.
Lemma leave_nth : forall h n f j, nth_error (leave h n f) j = option_map (fun o => set_attrs o (f (n + j))) (nth_error h j).
Proof.
  induction h as [|o h IH]; intros n f [|j]; simpl; auto.
  - rewrite Nat.add_0_r. auto.
  - rewrite IH, Nat.add_succ_r. auto.
Qed.
Lemma leave_length : forall h n f, length (leave h n f) = length h.
Proof. induction h; simpl; auto. Qed.
Lemma write_length : forall l h, length (write h l) = length h.
Proof. unfold write. induction l as [|p l IH]; intros h; simpl; auto. rewrite IH, nupd_length. auto. Qed.

Lemma ids_eq : forall i ks, ids (NT i ks) = i :: flat_map ids ks.
Proof. reflexivity. Qed.
Lemma request_eq : forall h i ks, request h (NT i ks) =
  match nth_error h i with Some o => NSet (o_name o) (o_fix o) (o_flo o) (map (request h) ks) | None => NSet "" [] [] (map (request h) ks) end.
Proof. reflexivity. Qed.
Fixpoint pairings (ks : list ntree) (ss : list stree) : list (nat * alloc) :=
  match ks, ss with k :: l', s :: m' => pairing k s ++ pairings l' m' | _, _ => [] end.
Lemma pairing_eq : forall i ks a sh ss, pairing (NT i ks) (STree a sh ss) = (i, a) :: pairings ks ss.
Proof. reflexivity. Qed.
Lemma nodupb_spec : forall l, nodupb l = true <-> NoDup l.
Proof.
  induction l as [|x l IH]; simpl; [split; intros; [constructor|reflexivity]|]. rewrite andb_true_iff, negb_true_iff, IH.
  assert (E : existsb (Nat.eqb x) l = false <-> ~ In x l).
  { rewrite <- not_true_iff_false, existsb_exists. split; intros H I; apply H.
    - exists x. rewrite Nat.eqb_refl. auto.
    - destruct I as [y [I E]]. apply Nat.eqb_eq in E. subst. auto. }
  rewrite E. split; [intros [A B]; constructor; auto|intros H; inversion H; auto].
Qed.

Lemma write_nth : forall l h j, NoDup (map fst l) ->
  (forall a, In (j, a) l -> nth_error (write h l) j = option_map (fun o => set_attrs o (Given a)) (nth_error h j))
  /\ (~ In j (map fst l) -> nth_error (write h l) j = nth_error h j).
Proof.
  unfold write. induction l as [|[i b] l IH]; intros h j N; simpl; [split; auto; intros a []|]. inversion N; subst.
  destruct (IH (nupd h i (fun o => set_attrs o (Given b))) j H2) as [A B]. rewrite nupd_nth in A, B. split.
  - intros a [E|I].
    + inversion E; subst. rewrite Nat.eqb_refl in B. apply B; auto.
    + rewrite (A a I). destruct (Nat.eqb_spec j i); auto. subst. exfalso. apply H1. apply in_map_iff. exists (i, a). auto.
  - intros I. rewrite B; [|tauto]. destruct (Nat.eqb_spec j i); auto. subst. tauto.
Qed.

(** which objects are written *)
Lemma pairing_ids : forall h t s, fits (request h t) s -> map fst (pairing t s) = ids t.
Proof.
  intros h. induction t as [i ks IH] using ntree_ind'. intros s F. rewrite request_eq in F.
  assert (G : exists a sh ss, s = STree a sh ss /\ Forall2 fits (map (request h) ks) ss) by (destruct (nth_error h i); inversion F; subst; eauto).
  destruct G as (a & sh & ss & -> & G). rewrite pairing_eq, ids_eq. cbn [map fst]. f_equal. clear F. revert ss G.
  induction IH as [|k ks Hk IH IH2]; intros ss G; simpl in G; inversion G; subst; auto. cbn [pairings flat_map]. rewrite map_app, Hk, IH2; auto.
Qed.

(** ** Trees *)

Lemma mapO_ok : forall (A B : Type) (f : A -> option B) l r, mapO f l = Some r -> Forall2 (fun x y => f x = Some y) l r.
Proof.
  induction l as [|x l IH]; intros r E; simpl in E; [inversion E; constructor|].
  destruct (f x) as [y|] eqn:Ex; [|discriminate]. destruct (mapO f l) as [r'|] eqn:El; [|discriminate]. inversion E; subst. constructor; auto.
Qed.
Lemma mapO_all : forall (A B : Type) (f : A -> option B) l r, Forall2 (fun x y => f x = Some y) l r -> mapO f l = Some r.
Proof. intros A B f l r F. induction F; simpl; auto. rewrite H, IHF. auto. Qed.
Lemma tree_root : forall f h i t, tree_of f h i = Some t -> exists o ks f', f = S f' /\ nth_error h i = Some o /\ t = NT i ks
  /\ Forall2 (fun kj k => tree_of f' h (snd kj) = Some k) (o_kids o) ks.
Proof.
  intros [|f] h i t E; simpl in E; [discriminate|]. destruct (nth_error h i) as [o|]; [|discriminate].
  destruct (mapO _ (o_kids o)) as [ks|] eqn:M; [|discriminate]. inversion E; subst. apply mapO_ok in M. exists o, ks, f. auto.
Qed.
Lemma tree_intro : forall f h i o ks, nth_error h i = Some o -> Forall2 (fun kj k => tree_of f h (snd kj) = Some k) (o_kids o) ks ->
  tree_of (S f) h i = Some (NT i ks).
Proof. intros f h i o ks E F. simpl. rewrite E. rewrite (mapO_all _ _ _ _ _ F). auto. Qed.

Lemma tree_more : forall f h i t, tree_of f h i = Some t -> forall f', f <= f' -> tree_of f' h i = Some t.
Proof.
  induction f as [|f IH]; intros h i t E f' L; [discriminate|]. destruct (tree_root _ _ _ _ E) as (o & ks & f0 & Q & N & -> & F). inversion Q; subst f0.
  destruct f' as [|f']; [lia|]. eapply tree_intro; eauto. eapply Forall2_imp; [|exact F]. cbv beta. intros a b H. eapply IH; eauto. lia.
Qed.
(** only the children count *)
Lemma tree_same : forall h h' f i t, tree_of f h i = Some t ->
  (forall j o, In j (ids t) -> nth_error h j = Some o -> exists o', nth_error h' j = Some o' /\ o_kids o' = o_kids o) -> tree_of f h' i = Some t.
Proof.
  intros h h'. induction f as [|f IH]; intros i t E K; [discriminate|]. destruct (tree_root _ _ _ _ E) as (o & ks & f0 & Q & N & -> & F). inversion Q; subst f0.
  destruct (K i o) as [o' [N' Ek]]; auto; [rewrite ids_eq; left; auto|]. eapply tree_intro; eauto. rewrite Ek.
  assert (S : forall k, In k ks -> forall j o, In j (ids k) -> nth_error h j = Some o -> exists o', nth_error h' j = Some o' /\ o_kids o' = o_kids o).
  { intros k Hk j oj Hj. apply K. rewrite ids_eq. right. apply in_flat_map. eauto. }
  clear - IH F S. induction F as [|x k l ks H F IHF]; constructor.
  - apply IH; auto. apply S. left. auto.
  - apply IHF. intros k' Hk. apply S. right. auto.
Qed.
Lemma tree_live : forall h f i t, tree_of f h i = Some t -> forall j, In j (ids t) -> exists o, nth_error h j = Some o.
Proof.
  intros h. induction f as [|f IH]; intros i t E j Hj; [discriminate|]. destruct (tree_root _ _ _ _ E) as (o & ks & f0 & Q & N & -> & F). inversion Q; subst f0.
  rewrite ids_eq in Hj. destruct Hj as [<-|Hj]; [eauto|]. apply in_flat_map in Hj. destruct Hj as [k [Hk Hj]].
  destruct (Forall2_in_r _ _ _ _ _ _ F Hk) as [x [_ Hx]]. eapply IH; eauto.
Qed.

(** ** Simulation groups along a tree *)

Fixpoint gather (h : nheap) (t : ntree) (d : dict group) : res (dict group) :=
  match t with
  | NT i ks => match nth_error h i with
               | None => Err OtherError
               | Some o => do g <- n_group o;
                           (fix go l d := match l with [] => Ok d | k :: l' => do d' <- gather h k d; go l' d' end) ks (dset d (o_name o) g)
               end
  end.
Lemma gather_eq : forall h i ks d, gather h (NT i ks) d =
  match nth_error h i with None => Err OtherError | Some o => do g <- n_group o; foldM (fun d k => gather h k d) ks (dset d (o_name o) g) end.
Proof.
  intros h i ks d. cbn [gather]. destruct (nth_error h i) as [o|]; auto. destruct (n_group o) as [g|]; auto. cbn [bind].
  generalize (dset d (o_name o) g) as e. induction ks as [|k ks IH]; intros e; auto. cbn [foldM]. destruct (gather h k e); cbn [bind]; auto.
Qed.
Lemma groups_gather : forall f h i t d, tree_of f h i = Some t -> n_groups f h i d = gather h t d.
Proof.
  induction f as [|f IH]; intros h i t d E; [discriminate|]. destruct (tree_root _ _ _ _ E) as (o & ks & f0 & Q & N & -> & F). inversion Q; subst f0.
  rewrite gather_eq. cbn [n_groups]. rewrite N. destruct (n_group o) as [g|]; auto. cbn [bind]. generalize (dset d (o_name o) g) as e.
  clear - IH F. induction F as [|x k l ks H F IHF]; intros e; auto. cbn [foldM]. rewrite (IH _ _ _ _ H). destruct (gather h k e); cbn [bind]; auto.
Qed.
(** it fails exactly if an object is not allocated *)
Definition given (h : nheap) (j : nat) : Prop := exists o a, nth_error h j = Some o /\ o_attrs o = Given a.
Lemma gather_given : forall h t, (forall j, In j (ids t) -> exists o, nth_error h j = Some o) ->
  forall d, ((forall j, In j (ids t) -> given h j) /\ exists d', gather h t d = Ok d')
       \/ ((exists j, In j (ids t) /\ ~ given h j) /\ gather h t d = Err TypeError).
Proof.
  intros h. induction t as [i ks IH] using ntree_ind'. intros L d. rewrite gather_eq. destruct (L i) as [o N]; [rewrite ids_eq; left; auto|]. rewrite N.
  unfold n_group. destruct (o_attrs o) as [| |a] eqn:A.
  1,2: right; split; auto; exists i; split; [rewrite ids_eq; left; auto|intros [o' [a' [X Y]]]; congruence].
  cbn [bind]. generalize (dset d (o_name o) (mkGroup (o_name o) (dkeys (o_kids o)) (a_exo a) (a_fixed a) (a_local a) (a_shared a))) as e. intros e.
  assert (Lk : forall k, In k ks -> forall j, In j (ids k) -> exists o, nth_error h j = Some o).
  { intros k Hk j Hj. apply L. rewrite ids_eq. right. apply in_flat_map. eauto. }
  assert (K : ((forall j, In j (flat_map ids ks) -> given h j) /\ exists d', foldM (fun d k => gather h k d) ks e = Ok d')
       \/ ((exists j, In j (flat_map ids ks) /\ ~ given h j) /\ foldM (fun d k => gather h k d) ks e = Err TypeError)).
  { clear - IH Lk. revert e. induction IH as [|k ks Hk IH IHk]; intros e; [left; split; [intros j []|exists e; reflexivity]|]. cbn [foldM flat_map].
    destruct (Hk (Lk k (or_introl eq_refl)) e) as [[G [d' E]]|[[j [J1 J2]] E]]; rewrite E; cbn [bind].
    - destruct (IHk (fun k' H => Lk k' (or_intror H)) d') as [[G2 E2]|[[j [J1 J2]] E2]].
      + left. split; auto. intros j Hj. apply in_app_or in Hj. destruct Hj; auto.
      + right. split; auto. exists j. split; auto. apply in_or_app. auto.
    - right. split; auto. exists j. split; auto. apply in_or_app. auto. }
  rewrite ids_eq. destruct K as [[G E]|[[j [J1 J2]] E]].
  - left. split; auto. intros j [<-|Hj]; auto. exists o, a. auto.
  - right. split; auto. exists j. split; auto. right. auto.
Qed.

Lemma foldM_ext_in : forall (A S : Type) (f g : S -> A -> res S) l s, (forall s x, In x l -> f s x = g s x) -> foldM f l s = foldM g l s.
Proof.
  induction l as [|x l IH]; intros s H; auto. cbn [foldM]. rewrite (H s x (or_introl eq_refl)). destruct (g s x); cbn [bind]; auto.
  apply IH. intros. apply H. right. auto.
Qed.
Lemma gather_same : forall h h' t, (forall j, In j (ids t) -> option_map (fun o => (o_name o, dkeys (o_kids o), o_attrs o)) (nth_error h' j)
     = option_map (fun o => (o_name o, dkeys (o_kids o), o_attrs o)) (nth_error h j)) -> forall d, gather h' t d = gather h t d.
Proof.
  intros h h'. induction t as [i ks IH] using ntree_ind'. intros K d. rewrite !gather_eq. pose proof (K i) as Ki. rewrite ids_eq in Ki.
  specialize (Ki (or_introl eq_refl)). destruct (nth_error h' i) as [o'|], (nth_error h i) as [o|]; simpl in Ki; try discriminate; auto.
  inversion Ki as [[A B C]]. unfold n_group. rewrite A, B, C. destruct (o_attrs o); auto. cbn [bind]. apply foldM_ext_in.
  intros s k Hk. rewrite Forall_forall in IH. apply IH; auto. intros j Hj. apply K. rewrite ids_eq. right. apply in_flat_map. eauto.
Qed.

(** what was written is read *)
Lemma gather_written : forall h hw t s, (forall kj : nat * alloc, In kj (pairing t s) -> exists o, nth_error hw (fst kj) = Some o /\ o_attrs o = Given (snd kj)) ->
  (forall j o, In j (ids t) -> nth_error h j = Some o -> exists o', nth_error hw j = Some o' /\ o_name o' = o_name o /\ o_kids o' = o_kids o) ->
  (exists f, tree_of f h (match t with NT i _ => i end) = Some t) ->
  (forall j o, In j (ids t) -> nth_error h j = Some o -> Forall (fun kj => exists c, nth_error h (snd kj) = Some c /\ o_name c = fst kj) (o_kids o)) ->
  fits (request h t) s -> forall d, gather hw t d = Ok (groups_from s d).
Proof.
  intros h hw. induction t as [i ks IH] using ntree_ind'. intros s W K [f T] Nm F d. destruct (tree_root _ _ _ _ T) as (o & ks0 & f' & -> & N & Q & FF).
  inversion Q; subst ks0. clear Q. rewrite request_eq, N in F. inversion F as [nm fx fl a sh ns ss Na Fk]; subst. rewrite gather_eq, groups_from_eq.
  destruct (K i o) as [o' [N' [K1 K2]]]; auto; [rewrite ids_eq; left; auto|]. rewrite N'.
  rewrite pairing_eq in W. destruct (W (i, a)) as [o2 [W1 W2]]; [left; auto|]. cbn [fst snd] in W1, W2. assert (o2 = o') by congruence. subst o2.
  unfold n_group. rewrite W2. cbn [bind]. rewrite K1, <- Na.
  assert (G : group_from (STree a sh ss) = mkGroup (a_name a) (dkeys (o_kids o')) (a_exo a) (a_fixed a) (a_local a) (a_shared a)).
  { cbn [group_from]. f_equal. rewrite K2. specialize (Nm i o). rewrite ids_eq in Nm. specialize (Nm (or_introl eq_refl) N). unfold dkeys.
    clear - Nm FF Fk. revert ss Fk. induction FF as [|[kn j] k l ks H FF IHF]; intros ss Fk; simpl in Fk; inversion Fk; subst; auto.
    inversion Nm; subst. cbn [map fst snd] in *. f_equal; [|apply IHF; auto].
    destruct H3 as [c [C1 C2]]. destruct (tree_root _ _ _ _ H) as (o1 & k1 & f1 & _ & N1 & -> & _). rewrite request_eq, N1 in H2. inversion H2; subst.
    cbn [s_alloc]. congruence. }
  rewrite G. generalize (dset d (a_name a) (mkGroup (a_name a) (dkeys (o_kids o')) (a_exo a) (a_fixed a) (a_local a) (a_shared a))) as e.
  assert (Wk : forall kj, In kj (pairings ks ss) -> exists o, nth_error hw (fst kj) = Some o /\ o_attrs o = Given (snd kj)) by (intros; apply W; right; auto).
  assert (Kk : forall k, In k ks -> (forall j o, In j (ids k) -> nth_error h j = Some o -> exists o', nth_error hw j = Some o' /\ o_name o' = o_name o /\ o_kids o' = o_kids o)).
  { intros k Hk j oj Hj. apply K. rewrite ids_eq. right. apply in_flat_map. eauto. }
  assert (Nk : forall k, In k ks -> (forall j o, In j (ids k) -> nth_error h j = Some o -> Forall (fun kj => exists c, nth_error h (snd kj) = Some c /\ o_name c = fst kj) (o_kids o))).
  { intros k Hk j oj Hj. apply Nm. rewrite ids_eq. right. apply in_flat_map. eauto. }
  assert (Tk : forall k, In k ks -> exists f, tree_of f h (match k with NT i _ => i end) = Some k).
  { intros k Hk. destruct (Forall2_in_r _ _ _ _ _ _ FF Hk) as [x [_ Hx]]. destruct (tree_root _ _ _ _ Hx) as (_ & k1 & _ & _ & _ & -> & _). eauto. }
  clear - IH Wk Kk Nk Tk Fk. revert ss Fk Wk. induction IH as [|k ks Hk IH IHk]; intros ss Fk Wk e; simpl in Fk; inversion Fk; subst; auto.
  cbn [foldM fold_left]. rewrite (Hk y); [cbn [bind]; apply IHk; auto| | | | |auto].
  - intros k' H. apply Kk. right. auto.
  - intros k' H. apply Nk. right. auto.
  - intros k' H. apply Tk. right. auto.
  - intros kj H. apply Wk. cbn [pairings]. apply in_or_app. auto.
  - intros kj H. apply Wk. cbn [pairings]. apply in_or_app. auto.
  - apply Kk. left. auto.
  - apply Tk. left. auto.
  - apply Nk. left. auto.
Qed.
