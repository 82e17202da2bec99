(** * Property C104: the life of node sets (simulation/nodeset.py, simucore.py) *)

Require Import Verif.Base Verif.World Verif.ModelGraph Verif.ModelExpr Verif.ModelLoci Verif.ModelBN Verif.ModelSample Verif.ModelSim
        Verif.ModelNodeSet Verif.ModelLife Verif.Spec Verif.SpecBN Verif.SpecSim Verif.SpecNodeSet Verif.ProofBase
        Verif.ProofBNHist Verif.ProofNodeSet Verif.ProofNodeSetInj Verif.ProofNodeSetMain Verif.ProofLife Verif.ExWorld Verif.PropsBN.

(** ** What a program can do with node sets, and the calls it has made, the last one first *)

Inductive ev := ENew | EAdd (i j : nat) | EDefrost (i : nat) | EInject (i : nat) | EOther.

Section C104.
  Context {w : world}.
  Context (wild : bn w -> nheap -> nat -> res unit * (nat -> attrs)).

  Inductive life : list ev -> nheap -> Prop :=
  | lf_nil : life [] []
  | lf_new : forall l h nm fx fl, life l h -> life (ENew :: l) (snd (n_new nm fx fl h))
  | lf_add : forall l h i j h', life l h -> n_add i j h = (Ok tt, h') -> life (EAdd i j :: l) h'
  | lf_add_no : forall l h i j e h', life l h -> n_add i j h = (Err e, h') -> life (EOther :: l) h'
  | lf_defrost : forall l h i, life l h -> i < length h -> life (EDefrost i :: l) (n_defrost i h)
  | lf_inject : forall l h b i h', life l h -> n_inject wild b i h = (Ok tt, h') -> life (EInject i :: l) h'
  | lf_inject_no : forall l h b i e h', life l h -> n_inject wild b i h = (Err e, h') -> life (EOther :: l) h'.

  (** what no injection changes *)
  Definition fixture (o : nobj) := (o_name o, o_fix o, o_flo o, o_parent o, o_kids o).
  Definition fixtures (h : nheap) (j : nat) := option_map fixture (nth_error h j).

  Lemma write_fixtures : forall l h j, fixtures (write h l) j = fixtures h j /\ option_map o_frozen (nth_error (write h l) j) = option_map o_frozen (nth_error h j).
  Proof.
    unfold write, fixtures. induction l as [|[i a] l IH]; intros h j; simpl; auto. destruct (IH (nupd h i (fun o => set_attrs o (Given a))) j) as [A B].
    rewrite A, B, nupd_nth. destruct (Nat.eqb j i), (nth_error h j); auto.
  Qed.
  Lemma freeze_fixtures : forall h i j, fixtures (nupd h i freeze) j = fixtures h j
    /\ option_map o_frozen (nth_error (nupd h i freeze) j) = option_map (fun o => o_frozen o || Nat.eqb j i) (nth_error h j).
  Proof.
    intros h i j. unfold fixtures. rewrite nupd_nth. destruct (Nat.eqb j i), (nth_error h j) as [o|]; simpl; auto; rewrite ?orb_true_r, ?orb_false_r; auto.
  Qed.
  Lemma leave_fixtures : forall h f j, fixtures (leave h 0 f) j = fixtures h j /\ option_map o_frozen (nth_error (leave h 0 f) j) = option_map o_frozen (nth_error h j).
  Proof. intros h f j. unfold fixtures. rewrite leave_nth. destruct (nth_error h j); auto. Qed.

  Lemma inject_fixtures : forall b i h r h' j, n_inject wild b i h = (r, h') -> fixtures h' j = fixtures h j
    /\ option_map o_frozen (nth_error h' j) =
       option_map (fun o => o_frozen o || match r with Ok _ => Nat.eqb j i | Err _ => false end) (nth_error h j).
  Proof.
    intros b i h r h' j E.
    assert (Z : forall o, option_map (fun o => o_frozen o || false) o = option_map o_frozen o) by (intros [o|]; simpl; auto; rewrite orb_false_r; auto).
    assert (Wi : (fst (wild b h i), let h' := leave h 0 (snd (wild b h i)) in match fst (wild b h i) with Ok _ => nupd h' i freeze | Err _ => h' end) = (r, h') ->
       fixtures h' j = fixtures h j /\ option_map o_frozen (nth_error h' j) =
       option_map (fun o => o_frozen o || match r with Ok _ => Nat.eqb j i | Err _ => false end) (nth_error h j)).
    { clear E. destruct (leave_fixtures h (snd (wild b h i)) j) as [L1 L2]. cbv zeta. intros E. destruct (fst (wild b h i)) as [u|e]; inversion E; subst.
      - destruct (freeze_fixtures (leave h 0 (snd (wild b h i))) i j) as [F1 F2]. rewrite F1, F2. split; auto.
        destruct (nth_error (leave h 0 (snd (wild b h i))) j), (nth_error h j); simpl in *; congruence.
      - rewrite Z. auto. }
    unfold n_inject in E. destruct (nth_error h i) as [o|] eqn:N; [|inversion E; subst; rewrite Z; auto].
    destruct (o_frozen o); [inversion E; subst; rewrite Z; auto|]. destruct (o_parent o); [auto|]. destruct (tree_of (length h) h i) as [t|]; [|auto].
    destruct (nodupb (ids t)); [|auto]. destruct (validate (dag b) (request h t)) as [[|]|e]; [|inversion E; subst; rewrite Z; auto..].
    destruct (inject b (request h t)) as [s|e]; inversion E; subst.
    - destruct (freeze_fixtures (write h (pairing t s)) i j) as [F1 F2]. destruct (write_fixtures (pairing t s) h j) as [W1 W2]. rewrite F1, F2. split; auto.
      destruct (nth_error (write h (pairing t s)) j), (nth_error h j); simpl in *; congruence.
    - rewrite Z. apply leave_fixtures.
  Qed.

  (** frozen: injected, and not defrosted since *)
  Definition frozen_now (l : list ev) (i : nat) : Prop := exists l1 l2, l = l1 ++ EInject i :: l2 /\ ~ In (EDefrost i) l1.
  Lemma frozen_cons : forall e l i, e <> EInject i -> e <> EDefrost i -> (frozen_now (e :: l) i <-> frozen_now l i).
  Proof.
    intros e l i N M. split.
    - intros [[|x l1] [l2 [E D]]]; simpl in E; inversion E; subst; [congruence|]. exists l1, l2. split; auto. intros I. apply D. right. auto.
    - intros [l1 [l2 [-> D]]]. exists (e :: l1), l2. split; auto. intros [I|I]; auto.
  Qed.
  (** entered under a name, and none entered under the same name since *)
  Definition child_now (l : list ev) (h : nheap) (i : nat) (k : name) (j : nat) : Prop :=
    exists l1 l2, l = l1 ++ EAdd i j :: l2 /\ option_map o_name (nth_error h j) = Some k
      /\ forall j', In (EAdd i j') l1 -> option_map o_name (nth_error h j') <> Some k.

  Record sound (l : list ev) (h : nheap) : Prop := mkSound {
    so_frozen : forall i o, nth_error h i = Some o -> (o_frozen o = true <-> frozen_now l i);
    so_kids : forall i o k j, nth_error h i = Some o -> (dget (o_kids o) k = Some j <-> child_now l h i k j);
    so_keys : forall i o, nth_error h i = Some o -> NoDup (dkeys (o_kids o));
    so_live : forall e, In e l -> match e with EAdd i j => i < length h /\ j < length h | EDefrost i | EInject i => i < length h | _ => True end
  }.

  Lemma nth_lt : forall (A : Type) (l : list A) i x, nth_error l i = Some x -> i < length l.
  Proof. intros A l i x E. apply nth_error_Some. congruence. Qed.
  Lemma child_same : forall l h h' i k j, (forall j, option_map o_name (nth_error h' j) = option_map o_name (nth_error h j)) -> (child_now l h' i k j <-> child_now l h i k j).
  Proof.
    intros l h h' i k j E. unfold child_now. split; intros [l1 [l2 [A [B C]]]]; exists l1, l2; (split; [auto|]); (split; [congruence|]); intros j' I X; apply (C j' I); congruence.
  Qed.
  Lemma child_cons : forall e l h i k j, (forall j, e <> EAdd i j) -> (child_now (e :: l) h i k j <-> child_now l h i k j).
  Proof.
    intros e l h i k j N. split.
    - intros [[|x l1] [l2 [E [B D]]]]; simpl in E; inversion E; subst; [exfalso; eapply N; eauto|]. exists l1, l2. splits; auto. intros j' I. apply D. right. auto.
    - intros [l1 [l2 [-> [B D]]]]. exists (e :: l1), l2. splits; auto. intros j' [I|I]; auto. exfalso. eapply N; eauto.
  Qed.

  Lemma sound_same : forall e l h h', sound l h -> length h' = length h ->
    (forall j, fixtures h' j = fixtures h j) -> (forall i j, e <> EAdd i j) ->
    match e with EDefrost i | EInject i => i < length h | _ => True end ->
    (forall i o, nth_error h' i = Some o -> (o_frozen o = true <-> frozen_now (e :: l) i)) -> sound (e :: l) h'.
  Proof.
    intros e l h h' [S1 S2 S3 S4] L F N Le Fr.
    assert (Fn : forall j, option_map o_name (nth_error h' j) = option_map o_name (nth_error h j)).
    { intros j. specialize (F j). unfold fixtures in F. destruct (nth_error h' j) as [a|], (nth_error h j) as [b|]; simpl in *; try congruence. unfold fixture in F. congruence. }
    assert (Fk : forall i o', nth_error h' i = Some o' -> exists o, nth_error h i = Some o /\ o_kids o' = o_kids o).
    { intros i o' E. specialize (F i). unfold fixtures in F. rewrite E in F. destruct (nth_error h i) as [o|]; simpl in F; [|discriminate]. unfold fixture in F. exists o. split; auto. congruence. }
    split; auto.
    - intros i o' k j E. destruct (Fk i o' E) as [o [E2 ->]]. rewrite child_cons, (child_same _ _ _ _ _ _ Fn) by auto. auto.
    - intros i o' E. destruct (Fk i o' E) as [o [E2 ->]]. eauto.
    - rewrite L. intros e' [<-|I]; [|apply S4; auto]. destruct e; auto. exfalso. eapply N; eauto.
  Qed.

  Lemma fixtures_length : forall h h', (forall j, fixtures h' j = fixtures h j) -> length h' = length h.
  Proof.
    intros h h' F.
    assert (K : forall j, j < length h' <-> j < length h).
    { intros j. rewrite <- !nth_error_Some. specialize (F j). unfold fixtures in F. destruct (nth_error h' j), (nth_error h j); simpl in F; try discriminate; split; congruence. }
    destruct (Nat.lt_trichotomy (length h') (length h)) as [L|[L|L]]; auto; apply K in L; lia.
  Qed.

  Lemma life_sound : forall l h, life l h -> sound l h.
  Proof.
    intros l h L. induction L as [|l h nm fx fl L IH|l h i j h' L IH E|l h i j e h' L IH E|l h i L IH Li|l h b i h' L IH E|l h b i e h' L IH E].
    - split; try (intros [|i]; discriminate); try (intros i o k j E; destruct i; discriminate). intros e [].
    - unfold n_new. cbn [snd]. set (new := mkNobj nm (to_set fx) (to_set fl) None [] Unset false). pose proof IH as [S1 S2 S3 S4].
      assert (Q : forall i o, nth_error (h ++ [new]) i = Some o -> nth_error h i = Some o \/ (i = length h /\ o = new)).
      { intros i o E. destruct (Nat.lt_ge_cases i (length h)) as [H|H]; [rewrite nth_error_app1 in E; auto|].
        rewrite nth_error_app2 in E by auto. right. pose proof (nth_lt _ _ _ _ E) as B. simpl in B. assert (i - length h = 0) by lia. rewrite H0 in E. inversion E. split; auto. lia. }
      assert (Nm : forall i k, i < length h -> option_map o_name (nth_error (h ++ [new]) i) = Some k <-> option_map o_name (nth_error h i) = Some k).
      { intros i k H. rewrite nth_error_app1 by auto. tauto. }
      assert (Ch : forall i k j, child_now l (h ++ [new]) i k j <-> child_now l h i k j).
      { intros i k j. unfold child_now. split; intros [l1 [l2 [A [B C]]]]; exists l1, l2; (split; [auto|]).
        - assert (J : j < length h) by (apply (S4 (EAdd i j)); rewrite A; apply in_or_app; right; left; auto). split; [apply Nm; auto|].
          intros j' I X. assert (J' : j' < length h) by (apply (S4 (EAdd i j')); rewrite A; apply in_or_app; auto). apply (C j' I). apply Nm; auto.
        - assert (J : j < length h) by (apply (S4 (EAdd i j)); rewrite A; apply in_or_app; right; left; auto). split; [apply Nm; auto|].
          intros j' I X. assert (J' : j' < length h) by (apply (S4 (EAdd i j')); rewrite A; apply in_or_app; auto). apply (C j' I). apply Nm in X; auto. }
      assert (Lv : forall l1 l2 i e, l = l1 ++ e :: l2 -> (e = EInject i \/ exists j, e = EAdd i j) -> i < length h).
      { intros l1 l2 i e A [->|[j ->]]; [apply (S4 (EInject i))|apply (S4 (EAdd i j))]; rewrite A; apply in_or_app; right; left; auto. }
      split.
      + intros i o E. rewrite frozen_cons by discriminate. destruct (Q i o E) as [E2|[-> ->]]; auto. simpl. split; [discriminate|].
        intros [l1 [l2 [A B]]]. exfalso. assert (length h < length h) by (eapply Lv; eauto). lia.
      + intros i o k j E. rewrite child_cons, Ch by discriminate. destruct (Q i o E) as [E2|[-> ->]]; auto. simpl. split; [discriminate|].
        intros [l1 [l2 [A B]]]. exfalso. assert (length h < length h) by (eapply Lv; eauto). lia.
      + intros i o E. destruct (Q i o E) as [E2|[-> ->]]; eauto. constructor.
      + rewrite app_length. simpl. intros e [<-|I]; auto. specialize (S4 e I). destruct e; lia.
    - unfold n_add in E. destruct (nth_error h i) as [o|] eqn:Ni; [|discriminate]. destruct (nth_error h j) as [c|] eqn:Nj; [|discriminate].
      destruct (o_frozen o) eqn:Fo; inversion E; subst. clear E. pose proof IH as [S1 S2 S3 S4].
      set (f := fun o : nobj => mkNobj (o_name o) (o_fix o) (o_flo o) (o_parent o) (dset (o_kids o) (o_name c) j) (o_attrs o) (o_frozen o)).
      set (g := fun c : nobj => mkNobj (o_name c) (o_fix c) (o_flo c) (Some i) (o_kids c) (o_attrs c) (o_frozen c)).
      assert (Nm : forall m, option_map o_name (nth_error (nupd (nupd h i f) j g) m) = option_map o_name (nth_error h m)).
      { intros m. rewrite !nupd_nth. destruct (Nat.eqb m j), (Nat.eqb m i), (nth_error h m); auto. }
      assert (Ob : forall m o', nth_error (nupd (nupd h i f) j g) m = Some o' -> exists o2, nth_error h m = Some o2 /\ o_frozen o' = o_frozen o2
                    /\ o_kids o' = if Nat.eqb m i then dset (o_kids o2) (o_name c) j else o_kids o2).
      { intros m o'. rewrite !nupd_nth. destruct (Nat.eqb m j), (Nat.eqb m i), (nth_error h m) as [o2|]; simpl; intros X; inversion X; subst; eauto. }
      split.
      + intros m o' E. rewrite frozen_cons by discriminate. destruct (Ob m o' E) as [o2 [E2 [-> _]]]. auto.
      + intros m o' k x E. destruct (Ob m o' E) as [o2 [E2 [_ ->]]]. rewrite (child_same _ h) by auto.
        destruct (Nat.eqb_spec m i) as [->|Nmi].
        * rewrite dget_dset. destruct (String.eqb_spec k (o_name c)) as [->|Nk].
          -- split.
             ++ intros X. inversion X; subst. exists [], l. splits; auto. rewrite Nj. auto.
             ++ intros [[|y l1] [l2 [A [B D]]]]; simpl in A; inversion A; subst; auto. exfalso. apply (D j); [left; auto|]. rewrite Nj. auto.
          -- rewrite (S2 i o2 k x E2). split.
             ++ intros [l1 [l2 [-> [B D]]]]. exists (EAdd i j :: l1), l2. splits; auto. intros j' [X|X]; auto. inversion X; subst. rewrite Nj. simpl. congruence.
             ++ intros [[|y l1] [l2 [A [B D]]]]; simpl in A; inversion A; subst; [rewrite Nj in B; simpl in B; congruence|]. exists l1, l2. splits; auto. intros j' I. apply D. right. auto.
        * rewrite child_cons; auto. intros j' X. inversion X. congruence.
      + intros m o' E. destruct (Ob m o' E) as [o2 [E2 [_ ->]]]. destruct (Nat.eqb m i); eauto. rewrite dkeys_dset. apply sadd_NoDup. eauto.
      + rewrite !nupd_length. intros e [<-|I]; [split; eapply nth_lt; eauto|apply S4; auto].
    - unfold n_add in E. assert (h' = h).
      { destruct (nth_error h i) as [o|]; [|inversion E; auto]. destruct (nth_error h j); [|inversion E; auto]. destruct (o_frozen o); inversion E; auto. }
      subst h'. apply (sound_same EOther l h h); auto; try discriminate. intros i0 o E0. rewrite frozen_cons by discriminate. apply (so_frozen _ _ IH); auto.
    - apply (sound_same (EDefrost i) l h (n_defrost i h)); auto; try discriminate; unfold n_defrost.
      + apply nupd_length.
      + intros j. unfold fixtures. rewrite nupd_nth. destruct (Nat.eqb j i), (nth_error h j); auto.
      + intros m o. rewrite nupd_nth. destruct (Nat.eqb_spec m i) as [->|N].
        * destruct (nth_error h i); intros X; inversion X; subst. simpl. split; [discriminate|]. intros [[|x l1] [l2 [A D]]]; simpl in A; inversion A; subst.
          exfalso. apply D. left. auto.
        * intros X. rewrite frozen_cons by congruence. apply (so_frozen _ _ IH); auto.
    - assert (F : forall j, fixtures h' j = fixtures h j) by (intros j; apply (inject_fixtures _ _ _ _ _ j E)).
      assert (Li : i < length h) by (unfold n_inject in E; destruct (nth_error h i) eqn:N; [eapply nth_lt; eauto|discriminate]).
      apply (sound_same (EInject i) l h h'); auto; try discriminate; [apply fixtures_length; auto|].
      intros m o X. destruct (inject_fixtures _ _ _ _ _ m E) as [_ G]. rewrite X in G. destruct (nth_error h m) as [o2|] eqn:X2; simpl in G; [|discriminate]. inversion G as [G2]. rewrite G2. clear G G2.
      destruct (Nat.eqb_spec m i) as [->|N].
      + rewrite orb_true_r. split; auto. intros _. exists [], l. split; auto.
      + rewrite orb_false_r. rewrite frozen_cons by congruence. apply (so_frozen _ _ IH); auto.
    - assert (F : forall j, fixtures h' j = fixtures h j) by (intros j; apply (inject_fixtures _ _ _ _ _ j E)).
      apply (sound_same EOther l h h'); auto; try discriminate; [apply fixtures_length; auto|].
      intros m o X. destruct (inject_fixtures _ _ _ _ _ m E) as [_ G]. rewrite X in G. destruct (nth_error h m) as [o2|] eqn:X2; simpl in G; [|discriminate]. inversion G as [G2]. rewrite G2. clear G G2.
      rewrite orb_false_r. rewrite frozen_cons by discriminate. apply (so_frozen _ _ IH); auto.
  Qed.

  (** Whatever has been called, a node set is frozen exactly if inject_bn was called on itself with
      success, and defrost was not called on it since. A frozen one refuses children and injections;
      one that is not accepts every child. *)
  Theorem C104_frozen : forall l h i o, life l h -> nth_error h i = Some o ->
    (o_frozen o = true <-> frozen_now l i)
    /\ (frozen_now l i -> forall b nm fx fl, n_inject wild b i h = (Err AssertionError, h)
          /\ (forall j c, nth_error h j = Some c -> n_add i j h = (Err AssertionError, h))
          /\ fst (n_child i nm fx fl h) = Err AssertionError /\ firstn (length h) (snd (n_child i nm fx fl h)) = h)
    /\ (~ frozen_now l i -> forall nm fx fl, (forall j c, nth_error h j = Some c -> fst (n_add i j h) = Ok tt)
          /\ fst (n_child i nm fx fl h) = Ok (length h)).
  Proof.
    intros l h i o L N. pose proof (so_frozen _ _ (life_sound l h L) i o N) as F. split; auto.
    assert (Ni : forall x, nth_error (h ++ [x]) i = Some o) by (intros x; rewrite nth_error_app1; auto; eapply nth_lt; eauto).
    assert (Nn : forall x, nth_error (h ++ [x]) (length h) = Some x) by (intros x; rewrite nth_error_app2, Nat.sub_diag; auto). split.
    - intros Fr b nm fx fl. apply F in Fr. splits.
      + unfold n_inject. rewrite N, Fr. auto.
      + intros j c Nj. unfold n_add. rewrite N, Nj, Fr. auto.
      + unfold n_child, n_new, n_add. rewrite Ni, Nn, Fr. auto.
      + unfold n_child, n_new, n_add. rewrite Ni, Nn, Fr. cbn [snd]. rewrite firstn_app, Nat.sub_diag, firstn_all. simpl. apply app_nil_r.
    - intros Fr nm fx fl. assert (o_frozen o = false) by (destruct (o_frozen o); auto; exfalso; apply Fr, F; auto). split.
      + intros j c Nj. unfold n_add. rewrite N, Nj, H. auto.
      + unfold n_child, n_new, n_add. rewrite Ni, Nn, H. auto.
  Qed.

  (** Children are found under their own names, the one added last under a name. *)
  Theorem C104_children : forall l h i o k j, life l h -> nth_error h i = Some o ->
    (dget (o_kids o) k = Some j <-> child_now l h i k j).
  Proof. intros l h i o k j L N. apply (so_kids _ _ (life_sound l h L)). auto. Qed.

  (** ** Injection and simulation cores *)

  (** the node sets below a root are a tree *)
  Definition rooted (h : nheap) (i : nat) (t : ntree) : Prop :=
    (exists o, nth_error h i = Some o /\ o_parent o = None) /\ tree_of (length h) h i = Some t /\ NoDup (ids t).

  Lemma dget_pair : forall (A : Type) (d : dict A) k v, NoDup (dkeys d) -> In (k, v) d -> dget d k = Some v.
  Proof.
    induction d as [|[a b] d IH]; intros k v N I; [destruct I|]. destruct I as [E|I]; simpl in *.
    - inversion E; subst. rewrite String.eqb_refl. auto.
    - inversion N; subst. destruct (String.eqb_spec k a) as [->|]; auto. exfalso. apply H1. apply in_map_iff. exists (a, v). auto.
  Qed.
  Lemma kids_named : forall l h, life l h -> forall j o, nth_error h j = Some o ->
    Forall (fun kj => exists c, nth_error h (snd kj) = Some c /\ o_name c = fst kj) (o_kids o).
  Proof.
    intros l h L j o N. pose proof (life_sound l h L) as S. apply Forall_forall. intros [k m] I. cbn [fst snd].
    apply dget_pair in I; [|apply (so_keys _ _ S j o N)]. apply (so_kids _ _ S j o k m N) in I. destruct I as [l1 [l2 [_ [E _]]]].
    destruct (nth_error h m) as [c|]; simpl in E; inversion E. eauto.
  Qed.

  Lemma fixtures_tree : forall h h' i t, (forall j, fixtures h' j = fixtures h j) -> tree_of (length h) h i = Some t -> tree_of (length h') h' i = Some t.
  Proof.
    intros h h' i t F T. rewrite (fixtures_length _ _ F). eapply tree_same; eauto. intros j o _ N. specialize (F j). unfold fixtures in F. rewrite N in F.
    destruct (nth_error h' j) as [o'|]; simpl in F; [|discriminate]. exists o'. split; auto. unfold fixture in F. congruence.
  Qed.
  Lemma fixtures_request : forall h h', (forall j, fixtures h' j = fixtures h j) -> forall t, request h' t = request h t.
  Proof.
    intros h h' F. induction t as [i ks IH] using ntree_ind'. rewrite !request_eq. assert (M : map (request h') ks = map (request h) ks) by (induction IH; simpl; congruence).
    rewrite M. specialize (F i). unfold fixtures in F. destruct (nth_error h' i), (nth_error h i); simpl in F; try discriminate; auto. unfold fixture in F. inversion F. congruence.
  Qed.

  Lemma inject_core : forall l h (b : bn w) i t s, life l h -> rooted h i t -> inject b (request h t) = Ok s ->
    n_core b i (nupd (write h (pairing t s)) i freeze) = Ok (mkSC b (a_name (s_alloc s)) (groups_from s [])).
  Proof.
    intros l h b i t s L [[o [N P]] [T D]] E. pose proof (inject_fits b _ _ E) as Fi. set (hw := nupd (write h (pairing t s)) i freeze).
    assert (F : forall j, fixtures hw j = fixtures h j).
    { intros j. unfold hw. destruct (freeze_fixtures (write h (pairing t s)) i j) as [-> _]. apply write_fixtures. }
    pose proof (F i) as Fo. unfold fixtures in Fo. rewrite N in Fo. unfold n_core. destruct (nth_error hw i) as [o'|]; simpl in Fo; [|discriminate].
    rewrite (groups_gather _ _ _ _ _ (fixtures_tree h hw i t F T)).
    assert (R : tree_of (length h) h match t with NT x _ => x end = Some t) by (destruct (tree_root _ _ _ _ T) as (_ & ks & _ & _ & _ & -> & _); auto).
    rewrite (gather_written h hw t s); auto.
    - cbn [bind]. f_equal. f_equal. destruct (tree_root _ _ _ _ T) as (o2 & ks & _ & _ & N2 & -> & _). rewrite request_eq, N2 in Fi. inversion Fi; subst.
      cbn [s_alloc]. unfold fixture in Fo. congruence.
    - intros [j a] I. cbn [fst snd]. assert (Nd : NoDup (map fst (pairing t s))) by (rewrite (pairing_ids h t s Fi); auto).
      assert (Ij : In j (ids t)) by (rewrite <- (pairing_ids h t s Fi); apply in_map_iff; exists (j, a); auto).
      destruct (tree_live _ _ _ _ T j Ij) as [oj Nj]. destruct (write_nth (pairing t s) h j Nd) as [W _]. specialize (W a I). rewrite Nj in W. simpl in W.
      unfold hw. rewrite nupd_nth, W. destruct (Nat.eqb j i); simpl; eauto.
    - intros j oj _ Nj. pose proof (F j) as Fj. unfold fixtures in Fj. rewrite Nj in Fj. destruct (nth_error hw j) as [o2|]; simpl in Fj; [|discriminate].
      unfold fixture in Fj. inversion Fj. exists o2. splits; congruence.
    - eauto.
    - intros j oj _ Nj. eapply kids_named; eauto.
  Qed.

  (** A root with a tree of node sets below accepts an injection exactly if the request is valid and
      it is not frozen, and the simulation core made afterwards is the one of as_simulation_core,
      whatever was injected before into any of them. *)
  Theorem C104_core : forall l h (b : bn w) i o t, life l h -> built b -> nth_error h i = Some o -> rooted h i t ->
    ((exists h', n_inject wild b i h = (Ok tt, h')) <-> o_frozen o = false /\ valid_request b (request h t))
    /\ forall h', n_inject wild b i h = (Ok tt, h') -> exists sc, as_simulation_core b (Some (request h t)) = Ok sc /\ n_core b i h' = Ok sc.
  Proof.
    intros l h b i o t L B N R. destruct (built_coherent _ B) as [C F]. pose proof R as [[o' [N' P]] [T D]]. assert (o' = o) by congruence. subst o'.
    apply nodupb_spec in D.
    assert (X : n_inject wild b i h = if o_frozen o then (Err AssertionError, h) else
       match validate (dag b) (request h t) with Err e => (Err e, h) | Ok false => (Err AssertionError, h)
       | Ok true => match inject b (request h t) with Ok s => (Ok tt, nupd (write h (pairing t s)) i freeze) | Err e => (Err e, leave h 0 (snd (wild b h i))) end end).
    { unfold n_inject. rewrite N, P, T, D. auto. }
    rewrite X. split.
    - split.
      + intros [h' E]. destruct (o_frozen o); [discriminate|]. split; auto. destruct (validate (dag b) (request h t)) as [[|]|]; try discriminate.
        destruct (inject b (request h t)) as [s|] eqn:I; [|discriminate]. apply inject_iff; eauto.
      + intros [-> V]. rewrite (validate_ok b _ C V). destruct (inject_total b _ C F V) as [s ->]. eauto.
    - intros h' E. destruct (o_frozen o); [discriminate|]. destruct (validate (dag b) (request h t)) as [[|]|]; try discriminate.
      destruct (inject b (request h t)) as [s|] eqn:I; inversion E; subst. exists (mkSC b (a_name (s_alloc s)) (groups_from s [])). split.
      + unfold as_simulation_core. rewrite I. auto.
      + eapply inject_core; eauto.
  Qed.

  (** A simulation core is made (or cloned) from a tree of node sets exactly if all of them have
      been allocated; otherwise it raises TypeError. *)
  Theorem C104_unset : forall h (b : bn w) i t, tree_of (length h) h i = Some t ->
    ((exists sc, n_core b i h = Ok sc) <-> forall j, In j (ids t) -> given h j)
    /\ (n_core b i h = Err TypeError <-> exists j, In j (ids t) /\ ~ given h j).
  Proof.
    intros h b i t T. unfold n_core. destruct (tree_root _ _ _ _ T) as (o & ks & f & _ & N & E & _). rewrite N, (groups_gather _ _ _ _ _ T).
    destruct (gather_given h t (tree_live _ _ _ _ T) []) as [[G [d D]]|[[j [J1 J2]] D]]; rewrite D; cbn [bind]; split; split; intros X; eauto; try discriminate.
    - destruct X as [j [J1 J2]]. exfalso. apply J2. auto.
    - destruct X as [sc X]. discriminate.
    - exfalso. apply J2. auto.
  Qed.

  Lemma tree_extend : forall h i nm fx fl j c h', n_child j nm fx fl h = (Ok c, h') ->
    forall f t, tree_of f h i = Some t -> exists t', tree_of (S f) h' i = Some t' /\ (In j (ids t) -> In c (ids t')).
  Proof.
    intros h i nm fx fl j c h' E. unfold n_child, n_new, n_add in E. set (new := mkNobj nm (to_set fx) (to_set fl) None [] Unset false) in *.
    destruct (nth_error (h ++ [new]) j) as [oj|] eqn:Nj; [|discriminate].
    rewrite nth_error_app2, Nat.sub_diag in E by auto. cbn [nth_error] in E. destruct (o_frozen oj); inversion E; subst. clear E.
    match goal with |- context [nupd (nupd _ j ?A) _ ?B] => set (f1 := A); set (f2 := B) end.
    assert (Nc : exists oc, nth_error (nupd (nupd (h ++ [new]) j f1) (length h) f2) (length h) = Some oc /\ (j <> length h -> o_kids oc = [])).
    { rewrite !nupd_nth, Nat.eqb_refl. rewrite nth_error_app2, Nat.sub_diag by auto. simpl. destruct (Nat.eqb_spec (length h) j) as [Q|Q]; simpl; eexists; split; eauto. intros X. congruence. }
    assert (Nx : forall m o, nth_error h m = Some o -> nth_error (nupd (nupd (h ++ [new]) j f1) (length h) f2) m = Some (if Nat.eqb m j then f1 o else o)).
    { intros m o Nm. pose proof (nth_lt _ _ _ _ Nm). rewrite !nupd_nth, nth_error_app1 by auto. rewrite Nm. destruct (Nat.eqb_spec m (length h)); [lia|]. destruct (Nat.eqb m j); auto. }
    intros f. revert i. induction f as [|f IH]; intros i t T; [discriminate|]. destruct (tree_root _ _ _ _ T) as (o & ks & f0 & Q & N & -> & FF). inversion Q; subst f0. clear Q.
    assert (KK : exists ks', Forall2 (fun kj k => tree_of (S f) (nupd (nupd (h ++ [new]) j f1) (length h) f2) (snd kj) = Some k) (o_kids o) ks'
       /\ (forall k, In k ks -> In j (ids k) -> exists k', In k' ks' /\ In (length h) (ids k'))).
    { clear - FF IH. induction FF as [|x k l ks H FF IHF]; [exists []; split; [constructor|intros k []]|].
      destruct (IH _ _ H) as [k' [K1 K2]]. destruct IHF as [ks' [F1 F2]]. exists (k' :: ks'). split; [constructor; auto|].
      intros k0 [<-|I] J; [exists k'; split; [left; auto|auto]|]. destruct (F2 k0 I J) as [k1 [A B]]. exists k1. split; [right|]; auto. }
    destruct KK as [ks' [F1 F2]]. pose proof (Nx i o N) as Ni. destruct (Nat.eqb_spec i j) as [->|Nij].
    - destruct Nc as [oc [Nc1 Nc2]].
      assert (Tc : tree_of (S f) (nupd (nupd (h ++ [new]) j f1) (length h) f2) (length h) = Some (NT (length h) [])).
      { eapply tree_intro; eauto. rewrite Nc2; [constructor|]. pose proof (nth_lt _ _ _ _ N). lia. }
      assert (Ex : exists ks2, Forall2 (fun kj k => tree_of (S f) (nupd (nupd (h ++ [new]) j f1) (length h) f2) (snd kj) = Some k) (dset (o_kids o) nm (length h)) ks2
                 /\ In (NT (length h) []) ks2).
      { clear - F1 Tc. induction F1 as [|[k m] y l ks H F1 IHF]; simpl.
        - exists [NT (length h) []]. split; [repeat constructor; auto|left; auto].
        - destruct (String.eqb_spec nm k) as [->|].
          + exists (NT (length h) [] :: ks). split; [constructor; auto|left; auto].
          + destruct IHF as [ks2 [A B]]. exists (y :: ks2). split; [constructor; auto|right; auto]. }
      destruct Ex as [ks2 [A B]]. exists (NT j ks2). split; [eapply tree_intro; eauto|]. intros _. rewrite ids_eq. right. apply in_flat_map.
      exists (NT (length h) []). split; auto. rewrite ids_eq. left. auto.
    - exists (NT i ks'). split; [eapply tree_intro; eauto|]. rewrite !ids_eq. intros [X|X]; [congruence|]. right.
      apply in_flat_map in X. destruct X as [k [X1 X2]]. destruct (F2 k X1 X2) as [k' [A B]]. apply in_flat_map. eauto.
  Qed.

  (** After an injection the root refuses a new child, but the node sets below that were not injected
      themselves accept one, and from then on the simulation core cannot be cloned. *)
  Theorem C104_extended : forall l h b i t h' nm fx fl, life l h -> rooted h i t -> n_inject wild b i h = (Ok tt, h') ->
    fst (n_child i nm fx fl h') = Err AssertionError
    /\ forall j, In j (ids t) -> j <> i -> ~ frozen_now l j ->
         exists c h'', n_child j nm fx fl h' = (Ok c, h'') /\ n_core b i h'' = Err TypeError.
  Proof.
    intros l h b i t h' nm fx fl L R E. pose proof (lf_inject _ _ _ _ _ L E) as L'. destruct R as [[o [N P]] [T D]].
    assert (F : forall j, fixtures h' j = fixtures h j) by (intros j; apply (inject_fixtures _ _ _ _ _ j E)).
    assert (Lv : forall j, In j (ids t) -> exists o', nth_error h' j = Some o').
    { eapply tree_live. eapply fixtures_tree; eauto. }
    split.
    - destruct (Lv i) as [o' N']; [destruct (tree_root _ _ _ _ T) as (_ & ks & _ & _ & _ & -> & _); rewrite ids_eq; left; auto|].
      destruct (C104_frozen _ _ i o' L' N') as [_ [A _]]. destruct (A (ex_intro _ [] (ex_intro _ l (conj eq_refl (fun x => x)))) b nm fx fl) as (_ & _ & K & _). auto.
    - intros j Hj Nij Fr. destruct (Lv j Hj) as [oj Nj]. destruct (C104_frozen _ _ j oj L' Nj) as [_ [_ A]].
      assert (Fr' : ~ frozen_now (EInject i :: l) j) by (rewrite frozen_cons by congruence; auto). destruct (A Fr' nm fx fl) as [_ Q].
      destruct (n_child j nm fx fl h') as [r h''] eqn:Ec. cbn [fst] in Q. subst r. exists (length h'), h''. split; auto.
      destruct (tree_extend h' i nm fx fl j (length h') h'' Ec _ _ (fixtures_tree h h' i t F T)) as [t' [T' I]].
      assert (Ln : length h'' = S (length h')).
      { unfold n_child, n_new, n_add in Ec. destruct (nth_error (h' ++ _) j) as [o1|]; [|discriminate].
        rewrite nth_error_app2, Nat.sub_diag in Ec by auto. cbn [nth_error] in Ec. destruct (o_frozen o1); inversion Ec; subst. rewrite !nupd_length, app_length. simpl. lia. }
      rewrite <- Ln in T'. apply (proj2 (C104_unset h'' b i t' T')). exists (length h'). split; auto.
      intros [oc [a [Nc Ac]]]. unfold n_child, n_new, n_add in Ec. destruct (nth_error (h' ++ _) j) as [o1|] eqn:Q1; [|discriminate].
      rewrite nth_error_app2, Nat.sub_diag in Ec by auto. cbn [nth_error] in Ec. destruct (o_frozen o1); inversion Ec; subst.
      rewrite !nupd_nth, Nat.eqb_refl in Nc. rewrite nth_error_app2, Nat.sub_diag in Nc by auto. simpl in Nc.
      destruct (Nat.eqb (length h') j); simpl in Nc; inversion Nc; subst; discriminate Ac.
  Qed.

  (** defrost makes the root open again, but only its own allocation is gone; no simulation core can
      be made until the next injection, which yields what a fresh tree would, also with another network. *)
  Theorem C104_defrost : forall l h b i t h' b2, life l h -> rooted h i t -> n_inject wild b i h = (Ok tt, h') ->
    n_core b i (n_defrost i h') = Err TypeError
    /\ (forall j, j <> i -> nth_error (n_defrost i h') j = nth_error h' j)
    /\ (built b2 -> valid_request b2 (request h t) ->
        exists h3 sc, n_inject wild b2 i (n_defrost i h') = (Ok tt, h3) /\ n_core b2 i h3 = Ok sc /\ as_simulation_core b2 (Some (request h t)) = Ok sc).
  Proof.
    intros l h b i t h' b2 L R E. pose proof (lf_inject _ _ _ _ _ L E) as L'. destruct R as [[o [N P]] [T D]].
    assert (F : forall j, fixtures (n_defrost i h') j = fixtures h j).
    { intros j. rewrite <- (proj1 (inject_fixtures _ _ _ _ _ j E)). unfold n_defrost, fixtures. rewrite nupd_nth. destruct (Nat.eqb j i), (nth_error h' j); auto. }
    assert (Ln : length h' = length h) by (apply fixtures_length; intros j; apply (inject_fixtures _ _ _ _ _ j E)).
    assert (L2 : life (EDefrost i :: EInject i :: l) (n_defrost i h')) by (constructor; auto; rewrite Ln; eapply nth_lt; eauto).
    pose proof (fixtures_tree h _ i t F T) as T2. pose proof (F i) as Fi. unfold fixtures in Fi. rewrite N in Fi.
    destruct (nth_error (n_defrost i h') i) as [o2|] eqn:N2; simpl in Fi; [|discriminate].
    assert (O2 : o_attrs o2 = Cleared /\ o_frozen o2 = false).
    { unfold n_defrost in N2. rewrite nupd_nth, Nat.eqb_refl in N2. destruct (nth_error h' i); inversion N2; subst. auto. }
    splits.
    - apply (proj2 (C104_unset _ b i t T2)). exists i. split; [destruct (tree_root _ _ _ _ T) as (_ & ks & _ & _ & _ & -> & _); rewrite ids_eq; left; auto|].
      intros [o3 [a [X Y]]]. rewrite N2 in X. inversion X; subst. destruct O2. congruence.
    - intros j Nj. unfold n_defrost. rewrite nupd_nth. destruct (Nat.eqb_spec j i); congruence.
    - intros B V. assert (R2 : rooted (n_defrost i h') i t) by (split; [exists o2; split; auto; unfold fixture in Fi; congruence|auto]).
      destruct (C104_core _ _ b2 i o2 t L2 B N2 R2) as [A K]. rewrite (fixtures_request h (n_defrost i h') F) in *.
      destruct (proj2 A (conj (proj2 O2) V)) as [h3 E3]. destruct (K h3 E3) as [sc [K1 K2]]. exists h3, sc. auto.
  Qed.

  (** calls that do not concern a set of node sets *)
  Inductive aside (m : list nat) : nheap -> nheap -> Prop :=
  | as_refl : forall h, aside m h h
  | as_new : forall h h1 nm fx fl, aside m h h1 -> aside m h (snd (n_new nm fx fl h1))
  | as_add : forall h h1 i j r h2, aside m h h1 -> ~ In i m -> n_add i j h1 = (r, h2) -> aside m h h2
  | as_defrost : forall h h1 i, aside m h h1 -> ~ In i m -> aside m h (n_defrost i h1).

  (** They change nothing about a simulation core made from these. *)
  Theorem C104_aside : forall h h' (b : bn w) i t, tree_of (length h) h i = Some t -> aside (ids t) h h' -> n_core b i h' = n_core b i h.
  Proof.
    intros h h' b i t T A.
    assert (K : length h <= length h' /\ forall j o, In j (ids t) -> nth_error h j = Some o ->
              exists o', nth_error h' j = Some o' /\ o_name o' = o_name o /\ o_kids o' = o_kids o /\ o_attrs o' = o_attrs o).
    { remember (ids t) as m eqn:Em. clear T Em t. induction A as [h|h h1 nm fx fl A [IH1 IH2]|h h1 x y r h2 A [IH1 IH2] Nx E|h h1 x A [IH1 IH2] Nx].
      - split; auto. intros j o _ N. eauto.
      - unfold n_new. cbn [snd]. rewrite app_length. split; [lia|]. intros j o I N. destruct (IH2 j o I N) as [o' [N' Q]]. exists o'. split; auto.
        rewrite nth_error_app1; auto. eapply nth_lt; eauto.
      - unfold n_add in E. destruct (nth_error h1 x) as [ox|]; [|inversion E; subst; auto]. destruct (nth_error h1 y) as [oy|]; [|inversion E; subst; auto].
        destruct (o_frozen ox); inversion E; subst; auto. rewrite !nupd_length. split; auto. intros j o I N. destruct (IH2 j o I N) as [o' [N' Q]].
        rewrite !nupd_nth, N'. destruct (Nat.eqb_spec j x); [subst; tauto|]. destruct (Nat.eqb j y); simpl; eexists; split; eauto.
      - unfold n_defrost. rewrite nupd_length. split; auto. intros j o I N. destruct (IH2 j o I N) as [o' [N' Q]]. rewrite nupd_nth.
        destruct (Nat.eqb_spec j x); [subst; tauto|]. eauto. }
    destruct K as [Ln K].
    assert (T' : tree_of (length h') h' i = Some t).
    { eapply tree_more; [|exact Ln]. eapply tree_same; eauto. intros j o I N. destruct (K j o I N) as [o' [N' [_ [Q _]]]]. eauto. }
    unfold n_core. destruct (tree_root _ _ _ _ T) as (o & ks & f & _ & N & Et & _). destruct (K i o) as [o' [N' [Q _]]]; auto; [subst t; rewrite ids_eq; left; auto|].
    rewrite N, N', Q, (groups_gather _ _ _ _ _ T), (groups_gather _ _ _ _ _ T').
    rewrite (gather_same h h' t); auto. intros j I. destruct (tree_live _ _ _ _ T j I) as [oj Nj]. destruct (K j oj I Nj) as [oj' [Nj' [A1 [A2 A3]]]].
    rewrite Nj, Nj'. simpl. congruence.
  Qed.
End C104.
Print Assumptions C104_frozen.
Print Assumptions C104_children.
Print Assumptions C104_core.
Print Assumptions C104_unset.
Print Assumptions C104_extended.
Print Assumptions C104_defrost.
Print Assumptions C104_aside.

(** ** An injection does not look at whether the node sets below are frozen: a node set injected
    before is allocated anew below another one, and stays frozen. *)
Definition exwild : bn exw -> nheap -> nat -> res unit * (nat -> attrs) := fun _ _ _ => (Err OtherError, fun _ => Unset).
Definition exl0 : nheap := snd (n_new "ind" [] ["z"] []).
Definition exl1 : nheap := snd (n_inject exwild exnet 0 exl0).
Definition exl2 : nheap := snd (n_new "ag" ["y"] [] exl1).
Definition exl3 : nheap := snd (n_add 1 0 exl2).
Definition exl4 : nheap := snd (n_inject exwild exnet 1 exl3).
Definition seen_heap (h : nheap) : list (name * bool * option (list name * list name)) :=
  map (fun o => (o_name o, o_frozen o, match o_attrs o with Given a => Some (a_fixed a, a_float a) | _ => None end)) h.
Definition isok {A : Type} (r : res A) : bool := match r with Ok _ => true | Err _ => false end.
Lemma ok_pair : forall (A : Type) (p : res unit * A), isok (fst p) = true -> p = (Ok tt, snd p).
Proof. intros A [[[]|e] a] H; [auto|discriminate H]. Qed.
Lemma exl1_life : life exwild [EInject 0; ENew] exl1.
Proof.
  eapply lf_inject with (h := exl0) (b := exnet); [apply (lf_new exwild [] []); constructor|]. apply ok_pair. vm_compute. reflexivity.
Qed.
Lemma exl3_life : life exwild [EAdd 1 0; ENew; EInject 0; ENew] exl3.
Proof. eapply lf_add with (h := exl2); [apply (lf_new exwild); exact exl1_life|]. apply ok_pair. vm_compute. reflexivity. Qed.
Lemma exl4_life : life exwild [EInject 1; EAdd 1 0; ENew; EInject 0; ENew] exl4.
Proof. eapply lf_inject with (h := exl3) (b := exnet); [exact exl3_life|]. apply ok_pair. vm_compute. reflexivity. Qed.
Theorem C104_kept_refuted : exists w (wild : bn w -> nheap -> nat -> res unit * (nat -> attrs)) (b : bn w) l h i r o a h' o' a',
  life wild l h /\ built b /\ nth_error h i = Some o /\ o_frozen o = true /\ o_attrs o = Given a
  /\ n_inject wild b r h = (Ok tt, h') /\ nth_error h' i = Some o' /\ o_frozen o' = true /\ o_attrs o' = Given a'
  /\ a_fixed a = ["a"; "s"; "k"] /\ a_fixed a' = ["x"; "z"].
Proof.
  assert (S3 : seen_heap exl3 = [("ind", true, Some (["a"; "s"; "k"], ["z"; "x"; "y"])); ("ag", false, None)]) by (vm_compute; reflexivity).
  assert (S4 : seen_heap exl4 = [("ind", true, Some (["x"; "z"], [])); ("ag", true, Some (["a"; "s"; "k"; "x"; "y"], []))]) by (vm_compute; reflexivity).
  assert (E : n_inject exwild exnet 1 exl3 = (Ok tt, exl4)) by (apply ok_pair; vm_compute; reflexivity).
  pose proof exl3_life as L. revert S3 S4 E L. generalize exl3, exl4. intros h h' S3 S4 E L.
  destruct h as [|o h]; [discriminate|]. destruct h' as [|o' h']; [discriminate|]. unfold seen_heap in S3, S4. cbn [map] in S3, S4. inversion S3 as [[A1 A2 A3 A4]]. inversion S4 as [[B1 B2 B3 B4]].
  destruct (o_attrs o) as [| |a] eqn:Oa; try discriminate A3. destruct (o_attrs o') as [| |a'] eqn:Ob; try discriminate B3. inversion A3 as [[A5 A6]]. inversion B3 as [[B5 B6]].
  exists exw, exwild, exnet, [EAdd 1 0; ENew; EInject 0; ENew], (o :: h), 0, 1, o, a, (o' :: h'), o', a'.
  split; [exact L|]. split; [exact exnet_built|]. splits; auto; congruence.
Qed.
Print Assumptions C104_kept_refuted.

(** ** A root and a child, injected; the child is extended *)
Definition exm1 : nheap := snd (n_child 0 "ind" [] ["z"] (snd (n_new "ag" ["y"] [] []))).
Definition exm2 : nheap := snd (n_inject exwild exnet 0 exm1).
Lemma exm1_life : life exwild [EAdd 0 1; ENew; ENew] exm1.
Proof.
  eapply lf_add with (h := snd (n_new "ind" [] ["z"] (snd (n_new "ag" ["y"] [] [])))); [apply (lf_new exwild), (lf_new exwild [] []); constructor|].
  reflexivity.
Qed.
Lemma exm1_rooted : rooted exm1 0 (NT 0 [NT 1 []]).
Proof. split; [eexists; split; reflexivity|]. split; [reflexivity|]. apply nodupb_spec. reflexivity. Qed.
Example C104_example :
  life exwild [EAdd 0 1; ENew; ENew] exm1 /\ built exnet /\ rooted exm1 0 (NT 0 [NT 1 []])
  /\ n_inject exwild exnet 0 exm1 = (Ok tt, exm2)
  /\ valid_request exnet (request exm1 (NT 0 [NT 1 []]))
  /\ seen_heap exm2 = [("ag", true, Some (["a"; "s"; "k"; "x"; "y"], [])); ("ind", false, Some (["x"; "z"], []))]
  /\ ~ frozen_now [EAdd 0 1; ENew; ENew] 1
  /\ child_now [EAdd 0 1; ENew; ENew] exm1 0 "ind" 1
  /\ isok (n_core exnet 0 exm2) = true
  /\ n_core exnet 0 (snd (n_child 1 "more" [] [] exm2)) = Err TypeError
  /\ n_core exnet 0 (n_defrost 0 exm2) = Err TypeError
  /\ aside (ids (NT 0 [NT 1 []])) exm2 (snd (n_new "other" [] [] exm2)).
Proof.
  assert (E : n_inject exwild exnet 0 exm1 = (Ok tt, exm2)) by (apply ok_pair; vm_compute; reflexivity).
  split; [exact exm1_life|]. split; [exact exnet_built|]. split; [exact exm1_rooted|]. split; [exact E|]. split.
  { destruct (C104_core exwild _ _ exnet 0 (mkNobj "ag" ["y"] [] None [("ind", 1)] Unset false) _ exm1_life exnet_built eq_refl exm1_rooted) as [[A _] _].
    apply A. exists exm2. exact E. }
  split; [vm_compute; reflexivity|]. split.
  { intros [l1 [l2 [A _]]]. destruct l1 as [|x [|y [|z [|]]]]; inversion A. }
  split; [exists [], [ENew; ENew]; split; [reflexivity|]; split; [reflexivity|intros j []]|].
  split; [vm_compute; reflexivity|]. split; [vm_compute; reflexivity|]. split; [vm_compute; reflexivity|]. apply as_new, as_refl.
Qed.
