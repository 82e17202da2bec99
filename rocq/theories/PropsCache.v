(** * Property C100: the cached expected values of targets *)

Require Import Coq.Reals.Reals Coq.micromega.Lra.
Require Import Verif.Base Verif.ModelNum Verif.ModelFloat Verif.ModelTargets Verif.ModelHME Verif.ModelCache Verif.ProofBase Verif.ProofFloat.
Require Import Lia Permutation.
Local Open Scope nat_scope.

(** ** What a cache of the last 128 has to answer, in terms of the calls that returned so far, the
    latest first, each with the objects at that time *)
Section Spec.
  Context {S A : Type} (compute : S -> nat -> res A).
  (** how many different objects occur *)
  Definition kinds (ks : list nat) : nat := length (nodup Nat.eq_dec ks).
  (** the last call for [k] is [pre] calls ago *)
  Definition last_call (L : list (S * nat)) (k : nat) (pre : list (S * nat)) (s0 : S) (L0 : list (S * nat)) : Prop :=
    L = pre ++ (s0, k) :: L0 /\ ~ In k (map snd pre).
  Definition forgotten (L : list (S * nat)) (k : nat) : Prop :=
    forall pre s0 L0, last_call L k pre s0 L0 -> 128 <= kinds (map snd pre).
  (** the object is asked only if forgotten; otherwise the last answer is repeated *)
  Inductive answer : list (S * nat) -> S -> nat -> A -> Prop :=
  | an_fresh : forall L s k v, forgotten L k -> compute s k = Ok v -> answer L s k v
  | an_kept : forall L s k v pre s0 L0, last_call L k pre s0 L0 -> kinds (map snd pre) < 128 -> answer L0 s0 k v -> answer L s k v.

  (** any sequence of calls, with any change of the objects in between *)
  Inductive asked : list (S * nat) -> cache -> Prop :=
  | as_none : asked [] []
  | as_ok : forall L c s k v c', asked L c -> cached compute s c k = (Ok v, c') -> asked ((s, k) :: L) c'
  | as_err : forall L c s k e c', asked L c -> cached compute s c k = (Err e, c') -> asked L c'.
End Spec.

Section Proofs.
  Context {S A : Type} (compute : S -> nat -> res A).
  Notation cache := (@cache A).

  Fixpoint recent (ks : list nat) : list nat :=
    match ks with [] => [] | k :: ks' => k :: filter (fun x => negb (Nat.eqb k x)) (recent ks') end.

  Lemma filter_ne : forall k l, ~ In k l -> filter (fun x => negb (Nat.eqb k x)) l = l.
  Proof.
    intros k l. induction l as [|x l IH]; intros N; auto. simpl. destruct (Nat.eqb_spec k x) as [->|]; [exfalso; apply N; simpl; auto|].
    simpl. f_equal. apply IH. intros I. apply N. simpl. auto.
  Qed.
  Lemma in_filter_ne : forall k l x, In x (filter (fun x => negb (Nat.eqb k x)) l) <-> In x l /\ x <> k.
  Proof.
    intros k l x. rewrite filter_In. destruct (Nat.eqb_spec k x); simpl; intuition congruence.
  Qed.
  Lemma recent_In : forall ks x, In x (recent ks) <-> In x ks.
  Proof.
    induction ks as [|k ks IH]; intros x; simpl; [tauto|]. rewrite in_filter_ne, IH. destruct (Nat.eq_dec k x); intuition congruence.
  Qed.
  Lemma recent_NoDup : forall ks, NoDup (recent ks).
  Proof.
    induction ks as [|k ks IH]; simpl; constructor; auto using NoDup_filter. rewrite in_filter_ne. tauto.
  Qed.
  Lemma kinds_len : forall l a, NoDup a -> (forall y, In y a <-> In y l) -> length a = kinds l.
  Proof.
    intros l a N H. unfold kinds. apply Permutation_length. apply NoDup_Permutation; auto using NoDup_nodup.
    intros y. rewrite H, nodup_In. tauto.
  Qed.
  Lemma recent_split : forall k pre post, ~ In k pre -> exists a b, recent (pre ++ k :: post) = a ++ k :: b /\ ~ In k a /\ length a = kinds pre.
  Proof.
    intros k pre post H.
    assert (Q : exists a b, recent (pre ++ k :: post) = a ++ k :: b /\ NoDup a /\ forall y, In y a <-> In y pre).
    { induction pre as [|x pre IH].
      - simpl. exists [], (filter (fun x => negb (Nat.eqb k x)) (recent post)). splits; auto; [constructor|tauto].
      - destruct IH as (a & b & E & Nd & Ia); [intros I; apply H; simpl; auto|]. cbn [app recent]. rewrite E, filter_app. cbn [filter].
        destruct (Nat.eqb_spec x k) as [->|Nx]; [exfalso; apply H; simpl; auto|]. cbn [negb].
        exists (x :: filter (fun y => negb (Nat.eqb x y)) a), (filter (fun y => negb (Nat.eqb x y)) b). splits; auto.
        + constructor; [rewrite in_filter_ne; tauto|apply NoDup_filter; auto].
        + intros y. simpl. rewrite in_filter_ne, Ia. destruct (Nat.eq_dec x y); intuition congruence. }
    destruct Q as (a & b & E & Nd & Ia). exists a, b. splits; auto; [rewrite Ia; auto|apply kinds_len; auto].
  Qed.
  Lemma first_call : forall (L : list (S * nat)) k, In k (map snd L) -> exists pre s0 L0, last_call L k pre s0 L0.
  Proof.
    induction L as [|[s x] L IH]; intros k H; [destruct H|]. destruct (Nat.eq_dec x k) as [->|N].
    - exists [], s, L. split; simpl; auto.
    - destruct H as [H|H]; [simpl in H; congruence|]. destruct (IH k H) as (pre & s0 & L0 & E & Nk). exists ((s, x) :: pre), s0, L0.
      split; [rewrite E; auto|]. simpl. intros [K|K]; auto.
  Qed.
  Lemma last_call_unique : forall (L : list (S * nat)) k pre s0 L0 pre' s1 L1, last_call L k pre s0 L0 -> last_call L k pre' s1 L1 ->
    pre = pre' /\ s0 = s1 /\ L0 = L1.
  Proof.
    induction L as [|[s x] L IH]; intros k pre s0 L0 pre' s1 L1 [E N] [E' N']; [destruct pre; discriminate E|].
    destruct pre as [|[t y] pre], pre' as [|[t' y'] pre']; simpl in *.
    - inversion E; inversion E'; subst. auto.
    - exfalso. inversion E; inversion E'; subst. apply N'. auto.
    - exfalso. inversion E; inversion E'; subst. apply N. auto.
    - assert (E2 : L = pre ++ (s0, k) :: L0) by congruence. assert (E3 : L = pre' ++ (s1, k) :: L1) by congruence.
      destruct (IH k pre s0 L0 pre' s1 L1) as (-> & -> & ->); [split; auto|split; auto|]. split; [congruence|auto].
  Qed.

  Lemma cfind_In : forall (c : cache) k v, cfind c k = Some v -> In (k, v) c.
  Proof.
    induction c as [|[x u] c IH]; intros k v H; simpl in H; [discriminate|]. destruct (Nat.eqb_spec k x) as [->|]; simpl; [injection H as ->; auto|right; auto].
  Qed.
  Lemma cfind_None : forall (c : cache) k, cfind c k = None <-> ~ In k (map fst c).
  Proof.
    induction c as [|[x u] c IH]; intros k; simpl; [tauto|]. destruct (Nat.eqb_spec k x) as [->|].
    - split; [discriminate|tauto].
    - rewrite IH. intuition congruence.
  Qed.
  Lemma cdel_keys : forall (c : cache) k, map fst (cdel c k) = filter (fun x => negb (Nat.eqb k x)) (map fst c).
  Proof. induction c as [|[x u] c IH]; intros k; simpl; auto. destruct (negb (Nat.eqb k x)); simpl; rewrite IH; auto. Qed.

  (** moving an entry to the front *)
  Lemma front_hit : forall n k l, NoDup l -> In k (firstn (Datatypes.S n) l) ->
    filter (fun x => negb (Nat.eqb k x)) (firstn (Datatypes.S n) l) = firstn n (filter (fun x => negb (Nat.eqb k x)) l).
  Proof.
    induction n as [|n IH]; intros k l N H; destruct l as [|x l]; try (destruct H; fail).
    - simpl in H. destruct H as [->|[]]. simpl. rewrite Nat.eqb_refl. auto.
    - inversion N as [|? ? N1 N2]; subst. cbn [firstn filter]. cbn [firstn] in H. destruct (Nat.eqb_spec k x) as [->|Nx]; cbn [negb].
      + rewrite !filter_ne; auto. intros I. apply N1. rewrite <- (firstn_skipn (Datatypes.S n) l), in_app_iff. left. auto.
      + destruct H as [H|H]; [congruence|]. cbn [firstn]. f_equal. apply IH; auto.
  Qed.
  Lemma front_miss : forall n k l, ~ In k (firstn (Datatypes.S n) l) -> firstn n (firstn (Datatypes.S n) l) = firstn n (filter (fun x => negb (Nat.eqb k x)) l).
  Proof.
    induction n as [|n IH]; intros k l H; auto. destruct l as [|x l]; auto. cbn [firstn] in H. cbn [filter].
    destruct (Nat.eqb_spec k x) as [->|Nx]; [exfalso; apply H; simpl; auto|]. cbn [negb].
    change (firstn (Datatypes.S n) (firstn (Datatypes.S (Datatypes.S n)) (x :: l))) with (x :: firstn n (firstn (Datatypes.S n) l)).
    change (firstn (Datatypes.S n) (x :: filter (fun y => negb (Nat.eqb k y)) l)) with (x :: firstn n (filter (fun y => negb (Nat.eqb k y)) l)).
    f_equal. apply IH. intros I. apply H. right. exact I.
  Qed.

  Definition inv (L : list (S * nat)) (c : cache) : Prop :=
    map fst c = firstn 128 (recent (map snd L))
    /\ forall k v, In (k, v) c -> exists pre s0 L0, last_call L k pre s0 L0 /\ answer compute L0 s0 k v.

  Lemma in_first : forall L k pre s0 L0, last_call L k pre s0 L0 ->
    (In k (firstn 128 (recent (map (@snd S nat) L))) <-> kinds (map snd pre) < 128).
  Proof.
    intros L k pre s0 L0 [E N]. rewrite E, map_app. cbn [map snd].
    destruct (recent_split k (map snd pre) (map snd L0) N) as (a & b & R & Na & La). rewrite R, <- La.
    rewrite firstn_app. rewrite in_app_iff. split.
    - intros [H|H].
      + exfalso. apply Na. rewrite <- (firstn_skipn 128 a), in_app_iff. left. exact H.
      + remember (128 - length a) as m eqn:Em. destruct m; [destruct H|]. lia.
    - intros H. right. remember (128 - length a) as m eqn:Em. destruct m; [lia|]. simpl. auto.
  Qed.
  Lemma forgotten_iff : forall L k, forgotten L k <-> ~ In k (firstn 128 (recent (map (@snd S nat) L))).
  Proof.
    intros L k. split.
    - intros F I. assert (J : In k (map snd L)). { apply recent_In. rewrite <- (firstn_skipn 128 (recent (map snd L))), in_app_iff. left. exact I. }
      destruct (first_call L k J) as (pre & s0 & L0 & Q). pose proof (F _ _ _ Q). apply (in_first _ _ _ _ _ Q) in I. lia.
    - intros N pre s0 L0 Q. destruct (le_lt_dec 128 (kinds (map snd pre))); auto. exfalso. apply N. apply (in_first _ _ _ _ _ Q). auto.
  Qed.

  Lemma step_ok : forall L c s k v c', inv L c -> cached compute s c k = (Ok v, c') -> answer compute L s k v /\ inv ((s, k) :: L) c'.
  Proof.
    intros L c s k v c' [I1 I2] H. unfold cached in H.
    assert (Old : forall x u, In (x, u) c -> x <> k -> exists pre s0 L0, last_call ((s, k) :: L) x pre s0 L0 /\ answer compute L0 s0 x u).
    { intros x u Hx Nx. destruct (I2 x u Hx) as (pre & s0 & L0 & [E N] & An). exists ((s, k) :: pre), s0, L0. split; auto. split; [rewrite E; auto|].
      simpl. intros [K|K]; auto. }
    destruct (cfind c k) as [u|] eqn:C.
    - injection H as -> <-. apply cfind_In in C. pose proof (I2 _ _ C) as (pre & s0 & L0 & Q & An).
      assert (F : In k (firstn 128 (recent (map snd L)))) by (rewrite <- I1; apply (in_map fst) in C; exact C).
      assert (A' : answer compute L s k v) by (eapply an_kept; eauto; apply (in_first _ _ _ _ _ Q); exact F).
      split; auto. split.
      + cbn [map fst snd recent]. rewrite cdel_keys, I1, (front_hit 127 k _ (recent_NoDup _) F). auto.
      + intros x w' [Hx|Hx].
        * injection Hx as <- <-. exists [], s, L. split; auto. split; simpl; auto.
        * unfold cdel in Hx. apply filter_In in Hx. destruct Hx as [Hx Ne]. simpl in Ne. apply Old; auto. intros ->. rewrite Nat.eqb_refl in Ne. discriminate.
    - destruct (compute s k) as [u|e] eqn:K; [|discriminate]. assert (Ec : c' = (k, v) :: firstn 127 c) by (inversion H; reflexivity). assert (u = v) by congruence. subst u c'. clear H.
      apply cfind_None in C. rewrite I1 in C.
      assert (A' : answer compute L s k v) by (apply an_fresh; auto; apply forgotten_iff; exact C).
      split; auto. split.
      + cbn [map fst snd recent]. rewrite <- firstn_map, I1, (front_miss 127 k _ C). auto.
      + intros x w' [Hx|Hx].
        * injection Hx as <- <-. exists [], s, L. split; auto. split; simpl; auto.
        * assert (Hc : In (x, w') c) by (rewrite <- (firstn_skipn 127 c), in_app_iff; left; exact Hx). apply Old; auto.
          intros ->. apply C. rewrite <- I1. apply (in_map fst) in Hc. exact Hc.
  Qed.
  Lemma step_err : forall L c s k e c', inv L c -> cached compute s c k = (Err e, c') -> forgotten L k /\ compute s k = Err e /\ c' = c.
  Proof.
    intros L c s k e c' [I1 I2] H. unfold cached in H. destruct (cfind c k) eqn:C; [discriminate|].
    destruct (compute s k) as [u|x]; [discriminate|]. injection H as -> <-. splits; auto. apply forgotten_iff. rewrite <- I1. apply cfind_None. auto.
  Qed.
  Lemma asked_inv : forall L c, asked compute L c -> inv L c.
  Proof.
    intros L c H. induction H as [|L c s k v c' H IH K|L c s k e c' H IH K].
    - split; auto. intros k v [].
    - apply (step_ok _ _ _ _ _ _ IH K).
    - destruct (step_err _ _ _ _ _ _ IH K) as (_ & _ & ->). auto.
  Qed.
  Lemma answer_det : forall L s k v, answer compute L s k v -> forall u, answer compute L s k u -> u = v.
  Proof.
    intros L s k v H. induction H as [L s k v F E|L s k v pre s0 L0 Q Ki An IH]; intros u K; inversion K; subst.
    - congruence.
    - apply F in H. lia.
    - apply H in Q. lia.
    - destruct (last_call_unique _ _ _ _ _ _ _ _ Q H) as (-> & -> & ->). apply IH. auto.
  Qed.
End Proofs.

(** ** The cache gives exactly these answers *)
Theorem C100_exact : forall S A (compute : S -> nat -> res A) L c s k, asked compute L c ->
  (forall v, fst (cached compute s c k) = Ok v <-> answer compute L s k v)
  /\ (forall e, fst (cached compute s c k) = Err e <-> forgotten L k /\ compute s k = Err e).
Proof.
  intros S A compute L c s k H. apply asked_inv in H. destruct (cached compute s c k) as [o c'] eqn:E. simpl. split.
  - intros v. split.
    + intros ->. apply (step_ok _ _ _ _ _ _ _ H E).
    + intros An. destruct o as [u|e].
      * f_equal. eapply answer_det; [exact An|]. apply (step_ok _ _ _ _ _ _ _ H E).
      * exfalso. destruct (step_err _ _ _ _ _ _ _ H E) as (F & K & _). inversion An as [? ? ? ? F' K'|? ? ? ? ? ? ? Q Ki]; subst; [congruence|]. apply F in Q. lia.
  - intros e. split.
    + intros ->. destruct (step_err _ _ _ _ _ _ _ H E) as (F & K & _). auto.
    + intros [F K]. destruct o as [u|x].
      * exfalso. destruct (step_ok _ _ _ _ _ _ _ H E) as [An _]. inversion An as [? ? ? ? F' K'|? ? ? ? ? ? ? Q Ki]; subst; [congruence|]. apply F in Q. lia.
      * destruct (step_err _ _ _ _ _ _ _ H E) as (_ & K' & _). congruence.
Qed.
Print Assumptions C100_exact.

(** As long as an object does not change, ev gives its value and variance, whatever happens to others
    and however many there are. *)
Theorem C100_unchanged : forall L c s i p, asked ev_now L c -> (forall s', In (s', i) L -> ev_now s' i = Ok p) -> ev_now s i = Ok p ->
  fst (ev s c i) = Ok p.
Proof.
  intros L c s i p H U N. apply (C100_exact _ _ _ _ _ _ _ H).
  assert (Q : forall n L s, length L <= n -> (forall s', In (s', i) L -> ev_now s' i = Ok p) -> ev_now s i = Ok p -> answer ev_now L s i p).
  { clear. induction n as [|n IH]; intros L s Le U N.
    - destruct L; [|simpl in Le; lia]. apply an_fresh; auto. intros [|] ? ? [E _]; discriminate E.
    - destruct (in_dec Nat.eq_dec i (map snd L)) as [I|I].
      + destruct (first_call L i I) as (pre & s0 & L0 & Q). destruct (le_lt_dec 128 (kinds (map snd pre))) as [K|K].
        * apply an_fresh; auto. intros pre' s1 L1 Q'. destruct (last_call_unique _ _ _ _ _ _ _ _ Q Q') as (<- & _). auto.
        * eapply an_kept; eauto. destruct Q as [-> _]. rewrite app_length in Le. simpl in Le. apply IH; [lia|..].
          -- intros s' J. apply U. apply in_or_app. right. right. auto.
          -- apply U. apply in_or_app. right. left. auto.
      + apply an_fresh; auto. intros pre s0 L0 [-> _]. exfalso. apply I. rewrite map_app. apply in_or_app. right. left. auto. }
  apply (Q (length L)); auto.
Qed.
Print Assumptions C100_unchanged.

(** A changed Value is not seen before 128 other objects have been asked, and is then seen. *)
Theorem C100_stale : forall L c s i p pre s0 L0, asked ev_now L c -> last_call L i pre s0 L0 -> answer ev_now L0 s0 i p ->
  (kinds (map snd pre) < 128 -> fst (ev s c i) = Ok p)
  /\ (128 <= kinds (map snd pre) -> fst (ev s c i) = ev_now s i).
Proof.
  intros L c s i p pre s0 L0 H Q An. destruct (C100_exact _ _ _ _ _ s i H) as [E1 E2]. split; intros K.
  - apply E1. eapply an_kept; eauto.
  - assert (F : forgotten L i) by (intros pre' s1 L1 Q'; destruct (last_call_unique _ _ _ _ _ _ _ _ Q Q') as (<- & _); auto).
    destruct (ev_now s i) as [v|e] eqn:N; [apply E1; apply an_fresh; auto|apply E2; auto].
Qed.
Print Assumptions C100_stale.

(** ** History matching *)

(** With unchanged targets the implausibility is the one computed without a cache, from one fit to the
    next; the calls made are calls for the same objects. *)
Theorem C100_matching : forall v_m s data obs ys vs L c, asked ev_now L c ->
  Forall2 (fun ki kt => fst ki = fst kt /\ nth_error s (snd ki) = Some (obj_new (snd kt))) data obs ->
  (forall s' i, In (s', i) L -> In i (map snd data) -> ev_now s' i = ev_now s i) ->
  fst (implausibility_cached s v_m data ys vs c) = eval_implausibility obs v_m ys vs
  /\ exists L', asked ev_now (L' ++ L) (snd (implausibility_cached s v_m data ys vs c)) /\ forall s' i, In (s', i) L' -> s' = s.
Proof.
  intros v_m s data obs ys vs L c H F U.
  assert (Q : fst (ims_cached s v_m data ys vs c) = mapM (fun kt =>
                do y <- dgetE ys (fst kt);
                do v_e <- dgetE vs (fst kt);
                Ok (fdivf (fabs (fsub (Fin (t_value (snd kt))) y)) (fsqrt (fadd (Fin (v_m + var_obs (snd kt))) v_e)))) obs
            /\ exists L', asked ev_now (L' ++ L) (snd (ims_cached s v_m data ys vs c)) /\ forall s' i, In (s', i) L' -> s' = s).
  { revert L c H U. induction F as [|[k i] [k' t] data obs [E N] F IH]; intros L c H U.
    - simpl. split; auto. exists []. split; auto. intros s' i [].
    - simpl in E, N. subst k'. assert (P : ev_now s i = Ok (obj_new t)) by (unfold ev_now; rewrite N; auto).
      assert (P' : fst (ev s c i) = Ok (obj_new t)) by (eapply C100_unchanged; eauto; intros s' I; rewrite (U s' i I); simpl; auto).
      cbn [ims_cached mapM fst snd]. destruct (ev s c i) as [o c1] eqn:C1. simpl in P'. subst o. unfold obj_new.
      assert (H1 : asked ev_now ((s, i) :: L) c1) by (eapply as_ok; eauto).
      destruct (dgetE ys k) as [y|e]; [|simpl; split; auto; exists [(s, i)]; split; auto; intros s' j [Q|[]]; congruence].
      destruct (dgetE vs k) as [v_e|e]; [|simpl; split; auto; exists [(s, i)]; split; auto; intros s' j [Q|[]]; congruence].
      cbn [bind].
      destruct (IH ((s, i) :: L) c1 H1) as [I1 (L' & I2 & I3)].
      { intros s' j [K|K] J; [congruence|]. apply U; simpl; auto. }
      rewrite <- I1. destruct (ims_cached s v_m data ys vs c1) as [[l|e] c2]; simpl in *; (split; [auto|]);
        (exists (L' ++ [(s, i)]); rewrite <- app_assoc; split; [exact I2|]; intros s' j K; apply in_app_or in K; destruct K as [K|[K|[]]]; [eauto|congruence]). }
  destruct Q as [Q1 (L' & Q2 & Q3)]. unfold implausibility_cached, eval_implausibility. rewrite <- Q1.
  destruct (ims_cached s v_m data ys vs c) as [[l|e] c2]; simpl in *; split; auto; exists L'; auto.
Qed.
Print Assumptions C100_matching.

(** Refuted: after Value of a target was changed the implausibility is still about the old value, though
    the residuals are about the new one. *)
Theorem C100_changed_refuted : exists L c s data obs ys vs, asked ev_now L c
  /\ Forall2 (fun ki kt => fst ki = fst kt /\ nth_error s (snd ki) = Some (obj_new (snd kt))) data obs
  /\ fst (implausibility_cached s 0 data ys vs c) = Ok (Fin 10)
  /\ eval_implausibility obs 0 ys vs = Ok (Fin 0) /\ residuals s data ys = Ok [Fin 0].
Proof.
  set (old := obj_new (TDistr (mkFd 0 1 (fun _ => Fin 0)))). set (new := obj_new (TDistr (mkFd 10 1 (fun _ => Fin 0)))).
  exists [([old], 0)], [(0, old)], (set_value [old] 0 10), [("y", 0)], [("y", TDistr (mkFd 10 1 (fun _ => Fin 0)))], [("y", Fin 10)], [("y", Fin 0)].
  assert (Im : forall e, fdivf (fabs (fsub (Fin e) (Fin 10))) (fsqrt (fadd (Fin (0 + 1 ^ 2)) (Fin 0))) = Fin (Rabs (e - 10))).
  { intros e. assert (Sq : sqrt (0 + 1 ^ 2 + 0) = 1%R) by (replace (0 + 1 ^ 2 + 0)%R with 1%R by ring; apply sqrt_1).
    assert (Lt : rltb (0 + 1 ^ 2 + 0) 0 = false) by (apply rltb_false; lra).
    cbn [fsub fopp fadd fabs fsqrt]. rewrite Lt, Sq. cbn [fdivf]. rewrite fdiv_fin by lra. f_equal. unfold Rminus. field. }
  splits.
  - eapply (as_ok ev_now [] [] [old] 0); [constructor|]. reflexivity.
  - constructor; [|constructor]. split; auto.
  - transitivity (fmaximum [fdivf (fabs (fsub (Fin 0) (Fin 10))) (fsqrt (fadd (Fin (0 + 1 ^ 2)) (Fin 0)))]); [reflexivity|].
    rewrite Im. cbn. do 2 f_equal. rewrite Rabs_left; lra.
  - transitivity (fmaximum [fdivf (fabs (fsub (Fin 10) (Fin 10))) (fsqrt (fadd (Fin (0 + 1 ^ 2)) (Fin 0)))]); [reflexivity|].
    rewrite Im. cbn. do 2 f_equal. rewrite Rminus_diag_eq, Rabs_R0; auto.
  - cbn. do 3 f_equal. lra.
Qed.
Print Assumptions C100_changed_refuted.

(** ** Examples: the value of object 0 is changed from 1 to 5; it is seen after 128 other objects were
    asked, but not after 127 *)
Fixpoint ask_all {A} (compute : nat -> nat -> res A) (s : nat) (ks : list nat) (c : cache) : cache :=
  match ks with [] => c | k :: ks' => ask_all compute s ks' (snd (cached compute s c k)) end.
(** the object 0 has the value of the state, all others 7 *)
Definition exev (s k : nat) : res nat := Ok (if Nat.eqb k 0 then s else 7).
Lemma ask_all_asked : forall s ks L c, asked exev L c -> asked exev (rev (map (fun k => (s, k)) ks) ++ L) (ask_all exev s ks c).
Proof.
  intros s. induction ks as [|k ks IH]; intros L c H; auto. cbn [ask_all map rev]. rewrite <- app_assoc. apply IH. simpl.
  destruct (cached exev s c k) as [o c'] eqn:E. assert (Q : exists v, o = Ok v).
  { unfold cached in E. destruct (cfind c k); [|simpl in E]; inversion E; eauto. }
  destruct Q as [v ->]. eapply as_ok; eauto.
Qed.
Example C100_example :
  fst (cached exev 5 (ask_all exev 1 (0 :: seq 1 127) []) 0) = Ok 1
  /\ fst (cached exev 5 (ask_all exev 1 (0 :: seq 1 128) []) 0) = Ok 5
  /\ asked exev (rev (map (fun k => (1, k)) (0 :: seq 1 127)) ++ []) (ask_all exev 1 (0 :: seq 1 127) [])
  /\ kinds (seq 1 127) = 127.
Proof.
  split; [vm_compute; reflexivity|]. split; [vm_compute; reflexivity|]. split; [apply ask_all_asked; constructor|vm_compute; reflexivity].
Qed.
Example C100_example_unchanged : let s := [obj_new (TRange 3 2 6); obj_new (TPoint 4 (1/10))] in
  asked ev_now [(s, 1)] [(1, obj_new (TPoint 4 (1/10)))]
  /\ fst (ev s [(1, obj_new (TPoint 4 (1/10)))] 0) = Ok (3%R, ((6 - 2) / 2 / (196/100)) ^ 2)%R
  /\ fst (ev (set_value s 1 9) [(1, obj_new (TPoint 4 (1/10)))] 1) = Ok (4%R, var_obs (TPoint 4 (1/10)))
  /\ ev_now (set_value s 1 9) 1 = Ok (9%R, var_obs (TPoint 4 (1/10))).
Proof.
  intros s. split; [|split; [reflexivity|split; reflexivity]]. eapply (as_ok ev_now [] [] s 1); [constructor|]. reflexivity.
Qed.
