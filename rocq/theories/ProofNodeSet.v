(** * Lemmas on node sets *)

Require Import Verif.Base Verif.World Verif.ModelGraph Verif.ModelExpr Verif.ModelLoci Verif.ModelBN Verif.ModelSample Verif.ModelSim
        Verif.ModelNodeSet Verif.Spec Verif.SpecBN Verif.SpecSim Verif.SpecNodeSet Verif.ProofBase Verif.ProofGraph Verif.ProofBN Verif.ProofBNViews
        Verif.ProofBNHist.

(** ** Induction over trees *)

Lemma nset_ind' : forall P : nset -> Prop,
  (forall nm fx fl ks, Forall P ks -> P (NSet nm fx fl ks)) -> forall t, P t.
Proof.
  intros P H. fix F 1. intros [nm fx fl ks]. apply H. induction ks as [|k ks IH]; constructor; auto.
Qed.
Lemma stree_ind' : forall P : stree -> Prop,
  (forall a sh ks, Forall P ks -> P (STree a sh ks)) -> forall t, P t.
Proof.
  intros P H. fix F 1. intros [a sh ks]. apply H. induction ks as [|k ks IH]; constructor; auto.
Qed.

Lemma allocs_eq : forall a sh ks, allocs (STree a sh ks) = a :: flat_map allocs ks.
Proof. intros a sh ks. cbn [allocs]. f_equal. Qed.

Lemma Forall_flat_map : forall (A B : Type) (f : A -> list B) (P : B -> Prop) l,
  Forall P (flat_map f l) <-> Forall (fun x => Forall P (f x)) l.
Proof.
  intros A B f P l. induction l as [|x l IH]; cbn [flat_map]; [split; constructor|].
  rewrite Forall_app, IH. split; [intros [H1 H2]; constructor; auto|intros H; inversion H; auto].
Qed.

Lemma Forall2_flat_map : forall (A A' B B' : Type) (f : A -> list B) (g : A' -> list B') (P : B -> B' -> Prop) l l',
  Forall2 (fun x y => Forall2 P (f x) (g y)) l l' -> Forall2 P (flat_map f l) (flat_map g l').
Proof.
  intros A A' B B' f g P l l' H. induction H as [|x y l l' E H IH]; cbn [flat_map]; [constructor|]. apply Forall2_app; auto.
Qed.

Lemma Forall2_trans' : forall (A B C : Type) (P : A -> B -> Prop) (Q : B -> C -> Prop) (R : A -> C -> Prop) l m n,
  (forall a b c, P a b -> Q b c -> R a c) -> Forall2 P l m -> Forall2 Q m n -> Forall2 R l n.
Proof.
  intros A B C P Q R l m n H F. revert n. induction F as [|a b l m E F IH]; intros n G; inversion G; subst; constructor; eauto.
Qed.

Lemma Forall2_imp : forall (A B : Type) (P Q : A -> B -> Prop) l m, (forall a b, P a b -> Q a b) -> Forall2 P l m -> Forall2 Q l m.
Proof. intros A B P Q l m H F. induction F; constructor; auto. Qed.
Lemma Forall2_refl' : forall (A : Type) (P : A -> A -> Prop) l, (forall a, P a a) -> Forall2 P l l.
Proof. intros A P l H. induction l; constructor; auto. Qed.
Lemma Forall2_in_r : forall (A B : Type) (P : A -> B -> Prop) l m y, Forall2 P l m -> In y m -> exists x, In x l /\ P x y.
Proof.
  intros A B P l m y F. induction F as [|a b l m E F IH]; intros Hy; [destruct Hy|].
  destruct Hy as [<-|Hy]; [exists a; split; [left|]; auto|]. destruct (IH Hy) as [x [X1 X2]]. exists x. split; [right|]; auto.
Qed.
Lemma Forall2_in_l : forall (A B : Type) (P : A -> B -> Prop) l m x, Forall2 P l m -> In x l -> exists y, In y m /\ P x y.
Proof.
  intros A B P l m y F. induction F as [|a b l m E F IH]; intros Hy; [destruct Hy|].
  destruct Hy as [<-|Hy]; [exists b; split; [left|]; auto|]. destruct (IH Hy) as [x [X1 X2]]. exists x. split; [right|]; auto.
Qed.

Lemma foldM_inv : forall (A S : Type) (f : S -> A -> res S) (I : S -> Prop) l s s',
  (forall s x s', I s -> In x l -> f s x = Ok s' -> I s') -> I s -> foldM f l s = Ok s' -> I s'.
Proof.
  intros A S f I l. induction l as [|x l IH]; intros s s' Hs H0 E; simpl in E; [inversion E; subst; auto|].
  destruct (f s x) as [s1|e] eqn:E1; simpl in E; [|discriminate].
  apply (IH s1 s'); auto.
  - intros t y t' It Hy. apply Hs; auto. right; auto.
  - eapply Hs; eauto. left; auto.
Qed.
Lemma foldM_total : forall (A S : Type) (f : S -> A -> res S) (I : S -> Prop) l s,
  (forall s x, I s -> In x l -> exists s', f s x = Ok s' /\ I s') -> I s -> exists s', foldM f l s = Ok s' /\ I s'.
Proof.
  intros A S f I l. induction l as [|x l IH]; intros s Hs H0; simpl; [eauto|].
  destruct (Hs s x H0) as [s1 [E1 I1]]; [left; auto|]. rewrite E1. simpl. apply IH; auto.
  intros t y It Hy. apply Hs; auto. right; auto.
Qed.

Lemma filterM_ok : forall (A : Type) (f : A -> res bool) l l', filterM f l = Ok l' ->
  forall x, In x l' <-> In x l /\ f x = Ok true.
Proof.
  intros A f l. induction l as [|y l IH]; intros l' E x; simpl in E; [inversion E; subst; simpl; tauto|].
  destruct (f y) as [v|e] eqn:Ey; simpl in E; [|discriminate].
  destruct (filterM f l) as [r|e] eqn:Er; simpl in E; [|discriminate]. inversion E; subst.
  destruct v; simpl; rewrite (IH r eq_refl x); split; intuition (subst; auto; congruence).
Qed.
Lemma filterM_defined : forall (A : Type) (f : A -> res bool) l l', filterM f l = Ok l' ->
  forall x, In x l -> exists v, f x = Ok v.
Proof.
  intros A f l. induction l as [|y l IH]; intros l' E x Hx; [destruct Hx|]. simpl in E.
  destruct (f y) as [v|e] eqn:Ey; simpl in E; [|discriminate].
  destruct (filterM f l) as [r|e] eqn:Er; simpl in E; [|discriminate]. destruct Hx as [<-|Hx]; eauto.
Qed.
Lemma filterM_total : forall (A : Type) (f : A -> res bool) l, (forall x, In x l -> exists v, f x = Ok v) -> exists l', filterM f l = Ok l'.
Proof.
  intros A f l. induction l as [|y l IH]; intros H; simpl; [eauto|].
  destruct (H y) as [v Ev]; [left; auto|]. rewrite Ev. simpl. destruct IH as [r Er]; [intros; apply H; right; auto|]. rewrite Er. simpl. eauto.
Qed.
Lemma filterM_before : forall (A : Type) (f : A -> res bool) l l', filterM f l = Ok l' -> NoDup l -> NoDup l'.
Proof.
  intros A f l. induction l as [|y l IH]; intros l' E D; simpl in E; [inversion E; constructor|].
  destruct (f y) as [v|e] eqn:Ey; simpl in E; [|discriminate].
  destruct (filterM f l) as [r|e] eqn:Er; simpl in E; [|discriminate]. inversion E; subst. inversion D; subst.
  destruct v; auto. constructor; auto. rewrite (filterM_ok _ _ _ _ Er). tauto.
Qed.

Section Proofs.
  Context {w : world}.

  (** ** Unfolding the recursions *)

  Lemma resolve_local_eq : forall (b : bn w) r was nm fx fl ks,
    resolve_local b r was (NSet nm fx fl ks) =
    do p <- local_one b r nm was fx fl;
    do ks' <- mapM (resolve_local b false (snd p)) ks;
    Ok (STree (fst p) (match snd p with [] => false | _ => true end) ks').
  Proof.
    intros b r was nm fx fl ks. cbn [resolve_local]. destruct (local_one b r nm was fx fl) as [p|e]; auto. cbn [bind]. f_equal.
    induction ks as [|k ks IH]; auto. cbn [mapM]. rewrite <- IH. auto.
  Qed.
  Lemma raise_up_eq : forall a sh ks, raise_up (STree a sh ks) =
    STree (set_will a (fold_left (fun acc k => union acc (union (a_will (s_alloc k)) (a_float (s_alloc k)))) (map raise_up ks) [])) sh (map raise_up ks).
  Proof.
    intros a sh ks. cbn [raise_up].
    assert (E : (fix go l := match l with [] => [] | k :: l' => raise_up k :: go l' end) ks = map raise_up ks).
    { reflexivity. }
    rewrite E. auto.
  Qed.
  Lemma pass_down_eq : forall (b : bn w) fi fl ns a sh ks,
    pass_down b fi fl ns (STree a sh ks) =
    let gfi := union (to_set (a_fixed a)) fi in
    let gfl := union (union (to_set (a_float a)) fl) gfi in
    do s <- foldM (down_step b gfi gfl) ns (a_fixed a, a_float a, []);
    match s with (fx, flo, down) =>
      do ks' <- mapM (pass_down b gfi gfl down) ks; Ok (STree (set_nodes a fx flo) sh ks')
    end.
  Proof.
    intros b fi fl ns a sh ks. cbn [pass_down]. cbv zeta.
    destruct (foldM _ ns _) as [[[fx flo] down]|e]; auto. cbn [bind]. f_equal.
    induction ks as [|k ks IH]; auto. cbn [mapM]. rewrite <- IH. auto.
  Qed.
  Lemma define_samplers_eq : forall (b : bn w) a sh ks,
    define_samplers b (STree a sh ks) = do a' <- samplers_one b a; do ks' <- mapM (define_samplers b) ks; Ok (STree a' sh ks').
  Proof.
    intros b a sh ks. cbn [define_samplers]. destruct (samplers_one b a) as [a'|e]; auto. cbn [bind]. f_equal.
    induction ks as [|k ks IH]; auto. cbn [mapM]. rewrite <- IH. auto.
  Qed.
  Lemma sort_fixed_eq : forall (b : bn w) a sh ks,
    sort_fixed b (STree a sh ks) = do fx <- bn_sort b (a_fixed a); do ks' <- mapM (sort_fixed b) ks; Ok (STree (set_nodes a fx (a_float a)) sh ks').
  Proof.
    intros b a sh ks. cbn [sort_fixed]. destruct (bn_sort b (a_fixed a)) as [a'|e]; auto. cbn [bind]. f_equal.
    induction ks as [|k ks IH]; auto. cbn [mapM]. rewrite <- IH. auto.
  Qed.
  Fixpoint relate_kids (b : bn w) (share : bool) (l : list stree) (s : list name * list name) (sh : list name)
    : res (list stree * (list name * list name) * list name) :=
    match l with
    | [] => Ok ([], s, sh)
    | k :: l' =>
        do x <- relate b false (if share then sh else a_was (s_alloc k)) k;
        match x with (k', was', hs) =>
          do y <- relate_kids b share l' (fold_left hoist hs s) (if share then was' else sh);
          match y with (r, s', sh') =>
            Ok (STree (if share then set_was (s_alloc k') sh' else s_alloc k')
                      (match k' with STree _ f _ => f end) (s_kids k') :: r, s', sh')
          end
        end
    end.
  Lemma relate_eq : forall (b : bn w) r was a sh ks,
    relate b r was (STree a sh ks) =
    do p <- relate_one b r was a;
    do q <- relate_kids b sh ks (a_fixed (fst p), was) (match ks with k :: _ => a_was (s_alloc k) | [] => [] end);
    match q with (ks', (fx, was'), _) =>
      Ok (STree (set_relation (fst p) (a_exo (fst p)) (a_listen (fst p)) fx (a_float (fst p)) was') sh ks', was', snd p)
    end.
  Proof.
    intros b r was a sh ks. cbn [relate]. destruct (relate_one b r was a) as [p|e]; auto. cbn [bind].
    generalize (a_fixed (fst p), was) as s. generalize (match ks with k :: _ => a_was (s_alloc k) | [] => [] end) as S. intros S s.
    match goal with |- bind ?A _ = bind ?B _ => assert (E : A = B) end.
    { revert s S. induction ks as [|k ks IH]; intros s S; auto. cbn [relate_kids].
      destruct (relate b false (if sh then S else a_was (s_alloc k)) k) as [[[k' was'] hs]|e]; auto. cbn [bind]. rewrite <- IH. auto. }
    rewrite E. auto.
  Qed.
  Lemma groups_from_eq : forall a sh ks d, groups_from (STree a sh ks) d = fold_left (fun d k => groups_from k d) ks (dset d (a_name a) (group_from (STree a sh ks))).
  Proof.
    intros a sh ks d. cbn [groups_from s_alloc]. generalize (dset d (a_name a) (group_from (STree a sh ks))) as e.
    induction ks as [|k ks IH]; intros e; auto.
  Qed.
  Lemma claim_eq : forall a sh ks x, In x (claim (STree a sh ks)) <-> In x (a_fixed a) \/ In x (a_float a) \/ exists k, In k ks /\ In x (claim k).
  Proof.
    intros a sh ks x. cbn [claim].
    assert (G : forall acc, In x ((fix go l acc := match l with [] => acc | k :: l' => go l' (union acc (claim k)) end) ks acc)
                <-> In x acc \/ exists k, In k ks /\ In x (claim k)).
    { induction ks as [|k ks IH]; intros acc; [split; [auto|intros [H|[k [[] _]]]; auto]|].
      rewrite IH, union_In. split.
      - intros [[H|H]|[k' [K1 K2]]]; auto; right; [exists k; split; [left|]; auto|exists k'; split; [right|]; auto].
      - intros [H|[k' [[<-|K1] K2]]]; auto. right. exists k'. auto. }
    rewrite G, union_In. tauto.
  Qed.

  (** ** What the phases keep, whatever the names are *)

  Definition grows (a a' : alloc) : Prop :=
    a_name a' = a_name a /\ incl (a_fixed a) (a_fixed a') /\ incl (a_float a) (a_float a').
  Lemma grows_refl : forall a, grows a a.
  Proof. intros a. unfold grows. splits; auto using incl_refl. Qed.
  Lemma grows_trans : forall a b c, grows a b -> grows b c -> grows a c.
  Proof. intros a b c (A1 & A2 & A3) (B1 & B2 & B3). unfold grows. splits; [congruence|eapply incl_tran; eauto..]. Qed.

  Lemma raise_up_grows : forall t, Forall2 grows (allocs t) (allocs (raise_up t)).
  Proof.
    induction t as [a sh ks IH] using stree_ind'. rewrite raise_up_eq, !allocs_eq. constructor.
    - unfold grows. cbn. splits; auto using incl_refl.
    - apply Forall2_flat_map. induction IH as [|k ks Hk IH IH2]; cbn [map]; constructor; auto.
  Qed.

  Lemma sadd_incl : forall x l, incl l (sadd x l).
  Proof. intros x l y Hy. rewrite sadd_In. auto. Qed.
  Lemma union_incl_l : forall a b, incl a (union a b).
  Proof. intros a b x Hx. rewrite union_In. auto. Qed.

  Lemma relate_one_ok : forall (b : bn w) r was a a' hs, relate_one b r was a = Ok (a', hs) ->
    a_name a' = a_name a /\ incl (a_fixed a) (a_fixed a') /\ incl (a_float a) (a_float a') /\ a_was a' = was /\ a_will a' = a_will a
    /\ (forall x, In x (a_exo a') -> In x (a_exo a) /\ (In x was \/ r = false /\ In x hs))
    /\ (forall x, In x (a_exo a) -> In x (a_fixed a') \/ In x (a_exo a'))
    /\ (forall x, In x hs -> In x (a_exo a) /\ ~ In x was)
    /\ (forall x, In x (a_listen a') -> In x (a_listen a)).
  Proof.
    intros b r was a a' hs E. unfold relate_one in E. set (tsh := diff (a_exo a) was) in *.
    destruct (filterM (fun d => do r0 <- has_randomness b d was; Ok (negb r0)) tsh) as [th|e] eqn:Eh; cbn [bind] in E; [|discriminate].
    pose proof (filterM_ok _ _ _ _ Eh) as Hh.
    match type of E with context[filterM ?f ?l] => destruct (filterM f l) as [cand|e] eqn:Ec; cbn [bind] in E; [|discriminate] end.
    match type of E with context[foldM ?f cand ?s] => destruct (foldM f cand s) as [q|e] eqn:Ef; cbn [bind] in E; [|discriminate] end.
    injection E as Ea Ehs. rewrite <- Ea, <- Ehs. clear Ea Ehs a' hs. cbn.
    set (fx := if r then union (union (a_fixed a) (diff tsh th)) th else union (a_fixed a) (diff tsh th)) in *.
    assert (K : incl (a_float a) (fst q) /\ incl fx (snd q)).
    { apply (foldM_inv _ _ _ (fun q => incl (a_float a) (fst q) /\ incl fx (snd q)) _ _ _) in Ef; auto; [|cbn; split; apply incl_refl].
      intros s x s' [I1 I2] Hx Es. cbv beta in Es. destruct (has_randomness b x _) as [v|e]; cbn [bind] in Es; [|discriminate]. inversion Es; subst.
      destruct v; cbn; split; auto; eapply incl_tran; eauto using sadd_incl. }
    destruct K as [K1 K2].
    assert (Fx : forall x, In x fx <-> In x (a_fixed a) \/ (In x tsh /\ (~ In x th \/ r = true))).
    { intros x. unfold fx. destruct r; rewrite ?union_In, ?diff_In.
      - split; [|intros [H|[H1 H2]]; auto]. intros [[H|[H1 H2]]|H]; auto. right. split; auto. apply Hh in H. tauto. destruct (In_dec_name x th); auto.
      - split; [|intros [H|[H1 [H2|H2]]]; auto; discriminate]. intros [H|[H1 H2]]; auto. }
    assert (Th : forall x, In x th -> In x tsh) by (intros x Hx; apply Hh in Hx; tauto).
    assert (Ts : forall x, In x tsh <-> In x (a_exo a) /\ ~ In x was) by (intros; apply diff_In).
    splits; auto.
    - intros x Hx. apply K2, Fx. auto.
    - intros x Hx. destruct r.
      + rewrite !diff_In in Hx. destruct Hx as [[H1 H2] H3]. split; auto. left. destruct (In_dec_name x was) as [D|D]; auto.
        exfalso. apply H2. split; auto. apply Ts; auto.
      + rewrite !diff_In in Hx. destruct Hx as [H1 H2]. split; auto. destruct (In_dec_name x was) as [D|D]; auto.
        right. split; auto. destruct (In_dec_name x th) as [D2|D2]; auto. exfalso. apply H2. split; auto. apply Ts; auto.
    - intros x Hx. destruct (In_dec_name x (snd q)) as [D|D]; auto. right.
      assert (N : ~ In x fx) by (intros H; apply D, K2, H). rewrite Fx in N.
      destruct r; rewrite !diff_In.
      + splits; auto; intros H; apply N; right; [split; [apply H|auto]|split; auto].
      + split; auto. intros [H1 H2]. apply N. right. split; auto.
    - intros x Hx. destruct r; [destruct Hx|]. apply Th, Ts in Hx. auto.
    - intros x Hx. rewrite !diff_In in Hx. tauto.
  Qed.

  Lemma hoist_ok : forall hs s s', fold_left hoist hs s = s' ->
    incl (fst s) (fst s') /\ incl (snd s) (snd s') /\ incl hs (snd s')
    /\ (forall x, In x (fst s') -> In x (fst s) \/ In x hs)
    /\ (forall x, In x (snd s') -> In x (snd s) \/ In x (fst s') /\ In x hs).
  Proof.
    induction hs as [|d hs IH]; intros s s' E; simpl in E.
    { subst. splits; auto using incl_refl. intros x []. }
    destruct (IH _ _ E) as (I1 & I2 & I3 & I4 & I5). unfold hoist in *. destruct (mem d (snd s)) eqn:M.
    - apply mem_In in M. splits; auto.
      + intros x [<-|Hx]; auto.
      + intros x Hx. destruct (I4 x Hx); simpl; auto.
      + intros x Hx. destruct (I5 x Hx) as [H|[H1 H2]]; simpl; auto.
    - cbn [fst snd] in *. splits.
      + intros x Hx. apply I1, sadd_In. auto.
      + intros x Hx. apply I2, in_or_app. auto.
      + intros x [<-|Hx]; auto. apply I2, in_or_app. right. left. auto.
      + intros x Hx. destruct (I4 x Hx) as [H|H]; simpl; auto. apply sadd_In in H. destruct H; subst; auto.
      + intros x Hx. destruct (I5 x Hx) as [H|[H1 H2]]; simpl; auto. apply in_app_or in H. destruct H as [H|[<-|[]]]; auto.
        right. split; auto. apply I1, sadd_In. auto.
  Qed.

  Lemma relate_grows : forall (b : bn w) t r was t' was' hs, relate b r was t = Ok (t', was', hs) -> Forall2 grows (allocs t) (allocs t').
  Proof.
    intros b. induction t as [a sh ks IH] using stree_ind'. intros r was t' was' hs E. rewrite relate_eq in E.
    destruct (relate_one b r was a) as [[a1 h1]|e] eqn:E1; cbn [bind fst snd] in E; [|discriminate].
    apply relate_one_ok in E1. destruct E1 as (N1 & N2 & N3 & _).
    destruct (relate_kids b sh ks (a_fixed a1, was) _) as [[[ks' [fx was2]] S]|e] eqn:E2; cbn [bind] in E; [|discriminate].
    inversion E; subst. clear E. rewrite !allocs_eq.
    assert (G : forall l s S l' s' S', (forall k, In k l -> forall r was t' was' hs, relate b r was k = Ok (t', was', hs) -> Forall2 grows (allocs k) (allocs t')) ->
              relate_kids b sh l s S = Ok (l', s', S') -> incl (fst s) (fst s') /\ Forall2 (fun x y => Forall2 grows (allocs x) (allocs y)) l l').
    { induction l as [|k l IHl]; intros s S0 l' s' S' Hk E; cbn [relate_kids] in E; [inversion E; subst; split; [apply incl_refl|constructor]|].
      destruct (relate b false (if sh then S0 else a_was (s_alloc k)) k) as [[[k' w1] h2]|e] eqn:Ek; cbn [bind] in E; [|discriminate].
      destruct (relate_kids b sh l (fold_left hoist h2 s) (if sh then w1 else S0)) as [[[l2 s2] S2]|e] eqn:El; cbn [bind] in E; [|discriminate].
      inversion E; subst. clear E. destruct (IHl _ _ _ _ _ (fun k H => Hk k (or_intror H)) El) as [J1 J2].
      destruct (hoist_ok h2 s _ eq_refl) as [J3 _]. split; [eapply incl_tran; eauto|]. constructor; auto.
      pose proof (Hk k (or_introl eq_refl) _ _ _ _ _ Ek) as Q. destruct k' as [ak fk kk]. cbn [s_alloc s_kids]. rewrite allocs_eq in *.
      destruct (allocs k) as [|a0 l0]; inversion Q; subst. constructor; auto.
      destruct sh; auto. }
    rewrite Forall_forall in IH. destruct (G _ _ _ _ _ _ IH E2) as [G1 G2]. cbn [fst] in G1. constructor.
    - unfold grows. cbn. splits; auto. eapply incl_tran; eauto.
    - apply Forall2_flat_map. auto.
  Qed.

  Lemma down_step_ok : forall (b : bn w) gfi gfl s n s', down_step b gfi gfl s n = Ok s' ->
    node b n /\ incl (fst (fst s)) (fst (fst s')) /\ incl (snd (fst s)) (snd (fst s')) /\ incl (snd s) (snd s')
    /\ (forall x, In x (fst (fst s')) -> In x (fst (fst s)) \/ x = n)
    /\ (forall x, In x (snd (fst s')) -> In x (snd (fst s)) \/ x = n)
    /\ (forall x, In x (snd s') -> In x (snd s) \/ x = n)
    /\ (~ In n (snd (fst s)) -> In n (fst (fst s')) -> ~ In n (snd (fst s'))  \/ In n (fst (fst s))).
  Proof.
    intros b gfi gfl [[fx flo] down] n s' E. unfold down_step in E. cbn [fst snd].
    destruct (bget b n) as [l|e] eqn:B; cbn [bind] in E; [|discriminate].
    apply bget_holds in B. assert (Hn : node b n) by (eapply holds_node; eauto). splits; auto.
    all: destruct (forallb (fun p => mem p gfi) (loci_parents l)); [destruct (is_rv b n) as [[|]|]|destruct (forallb (fun p => mem p gfl) (loci_parents l))];
      inversion E; subst; cbn [fst snd]; auto using incl_refl, sadd_incl;
      try (intros x Hx; apply sadd_In in Hx; tauto).
  Qed.

  Lemma pass_down_grows : forall (b : bn w) t fi fl ns t', pass_down b fi fl ns t = Ok t' -> Forall2 grows (allocs t) (allocs t').
  Proof.
    intros b. induction t as [a sh ks IH] using stree_ind'. intros fi fl ns t' E. rewrite pass_down_eq in E. cbv zeta in E.
    destruct (foldM _ ns _) as [[[fx flo] down]|e] eqn:Ef; cbn [bind] in E; [|discriminate].
    destruct (mapM _ ks) as [ks'|e] eqn:Em; cbn [bind] in E; [|discriminate]. inversion E; subst. clear E. rewrite !allocs_eq.
    assert (K : incl (a_fixed a) fx /\ incl (a_float a) flo).
    { apply (foldM_inv _ _ _ (fun s => incl (a_fixed a) (fst (fst s)) /\ incl (a_float a) (snd (fst s)))) in Ef; auto; [|cbn; split; apply incl_refl].
      intros s x s' [I1 I2] Hx Es. apply down_step_ok in Es. destruct Es as (_ & Q1 & Q2 & _). split; eapply incl_tran; eauto. }
    constructor; [unfold grows; cbn; tauto|]. apply Forall2_flat_map. apply mapM_ok in Em. rewrite Forall_forall in IH.
    clear - IH Em. revert IH. induction Em as [|x y xs ys Ex Em IHm]; intros IH; constructor.
    - eapply IH; eauto. left; auto.
    - apply IHm. intros z Hz. apply IH. right; auto.
  Qed.

  (** *** blueprints *)
  Definition prints_ok (b : bn w) (d : dict blueprint) : Prop :=
    NoDup (dkeys d) /\ forall k p, In (k, p) d -> node b k /\ blueprint_ok b k p /\ (bp_type p = Compound -> compound_ok b p).

  Lemma blueprint_of_ok : forall (b : bn w) af fx d p q, coherent b -> blueprint_of b af fx d = Ok (p, q) ->
    node b d /\ (blueprint_ok b d p /\ (bp_type p = Compound -> compound_ok b p)) /\ (blueprint_ok b d q /\ (bp_type q = Compound -> compound_ok b q)).
  Proof.
    intros b af fx d p q C E. unfold blueprint_of in E. destruct (bget b d) as [l|e] eqn:B; cbn [bind] in E; [|discriminate].
    apply bget_holds in B. assert (Hn : node b d) by (eapply holds_node; eauto). split; auto. cbv zeta in E.
    destruct (forallb (fun p => mem p af) (to_set (loci_parents l))).
    - inversion E; subst. clear E.
      assert (G : blueprint_ok b d (mkBp d Frozen (to_set (loci_parents l)) [])).
      { split; auto. intros _ x Hx. apply (co_parents _ C _ _ B). apply to_set_In. auto. }
      destruct (existsb _ _); splits; auto; try discriminate. split; auto. discriminate.
    - destruct (minimal_requirements_spec (dag b) d af (co_wf _ C) (co_acyclic _ C)) as [req [Hr [[D I] T]]]; [apply node_gnodes; auto|].
      rewrite Hr in E. cbn [bind] in E. match type of E with context[filterM ?f req] => destruct (filterM f req) as [tr|e] eqn:Ef; cbn [bind] in E; [|discriminate] end.
      inversion E; subst. clear E. pose proof (filterM_ok _ _ _ _ Ef) as Ft.
      assert (G : compound_ok b (mkBp d Compound tr (diff req tr))).
      { unfold compound_ok, sorted. cbn [bp_sample bp_name bp_read]. splits.
        - apply NoDup_app_intro; [apply NoDup_filter; auto|constructor; [simpl; tauto|constructor]|].
          intros x Hx [<-|[]]. apply diff_In in Hx. destruct Hx as [Hx _]. apply I in Hx. destruct Hx as [Hp _]. apply (co_acyclic _ C _ Hp).
        - intros x Hx. apply in_app_or in Hx. destruct Hx as [Hx|[<-|[]]]; auto. apply diff_In in Hx. destruct Hx as [Hx _]. apply I in Hx.
          apply node_gnodes. eapply path_src; [apply C|apply Hx].
        - intros x y He Hx Hy. apply before_app. apply in_app_or in Hx, Hy.
          destruct Hy as [Hy|[<-|[]]].
          + assert (Hpy : path (dag b) y d) by (apply diff_In in Hy; destruct Hy as [Hy _]; apply I in Hy; tauto).
            destruct Hx as [Hx|[<-|[]]]; [|exfalso; apply (co_acyclic _ C d); eapply path_step; eauto].
            left. apply before_filter. splits.
            * apply diff_In in Hx, Hy. apply T; tauto.
            * apply diff_In in Hx. apply negb_true_iff, mem_false. tauto.
            * apply diff_In in Hy. apply negb_true_iff, mem_false. tauto.
          + destruct Hx as [Hx|[<-|[]]]; [|exfalso; apply (co_acyclic _ C d); constructor; auto].
            right. right. split; auto. left; auto.
        - intros x Hx Hy. apply in_app_or in Hy. destruct Hy as [Hy|[<-|[]]]; [apply diff_In in Hy; tauto|].
          apply Ft in Hx. destruct Hx as [Hx _]. apply I in Hx. apply (co_acyclic _ C d). tauto. }
      splits; auto; split; auto; try discriminate; cbn; split; auto; discriminate.
  Qed.

  Lemma In_dset : forall (A : Type) (d : dict A) k v x y, In (x, y) (dset d k v) -> (x = k /\ y = v) \/ In (x, y) d.
  Proof.
    intros A d k v x y. induction d as [|[k0 v0] d IH]; cbn.
    - intros [E|[]]. inversion E; auto.
    - destruct (String.eqb k k0) eqn:Ek; cbn.
      + apply String.eqb_eq in Ek. subst. intros [E|H]; auto. inversion E; auto.
      + intros [E|H]; auto. destruct (IH H); auto.
  Qed.

  Lemma prints_ok_set : forall (b : bn w) d k p, prints_ok b d -> node b k -> blueprint_ok b k p -> (bp_type p = Compound -> compound_ok b p) -> prints_ok b (dset d k p).
  Proof.
    intros b d k p [D H] N B Co. split; [apply NoDup_dset; auto|]. intros x y Hi. apply In_dset in Hi. destruct Hi as [[-> ->]|Hi]; auto.
  Qed.

  Lemma samplers_one_ok : forall (b : bn w) a a', coherent b -> samplers_one b a = Ok a' ->
    (exists l s, a' = set_samplers a l s /\ prints_ok b l /\ prints_ok b s /\ same_set (dkeys l) (union (a_float a) (a_will a)) /\ same_set (dkeys s) (union (a_float a) (a_will a)))
    /\ forall x, In x (a_float a) -> node b x.
  Proof.
    intros b a a' C E. unfold samplers_one in E. cbv zeta in E.
    match type of E with context[foldM ?f ?l ?s] => destruct (foldM f l s) as [q|e] eqn:Ef; cbn [bind] in E; [|discriminate] end.
    inversion E; subst. clear E.
    assert (G : forall l s s', prints_ok b (fst s) /\ prints_ok b (snd s) ->
      foldM (fun s d => do bp <- blueprint_of b (union (a_was a) (a_fixed a)) (a_fixed a) d; Ok (dset (fst s) d (fst bp), dset (snd s) d (snd bp))) l s = Ok s' ->
      (forall x, In x l -> node b x) /\ (prints_ok b (fst s') /\ prints_ok b (snd s'))
      /\ (forall x, In x (dkeys (fst s')) <-> In x (dkeys (fst s)) \/ In x l) /\ (forall x, In x (dkeys (snd s')) <-> In x (dkeys (snd s)) \/ In x l)).
    { induction l as [|d l IH]; intros s s' [P1 P2] Es; cbn [foldM] in Es; [inversion Es; subst; splits; auto; simpl; tauto|].
      destruct (blueprint_of b (union (a_was a) (a_fixed a)) (a_fixed a) d) as [[p1 p2]|e] eqn:Eb; cbn [bind] in Es; [|discriminate].
      apply (blueprint_of_ok _ _ _ _ _ _ C) in Eb. destruct Eb as [Nd [[B1 B2] [B3 B4]]]. cbn [fst snd] in Es.
      destruct (IH (dset (fst s) d p1, dset (snd s) d p2) s') as [I1 [[I2 I2b] [I3 I4]]]; auto.
      { split; apply prints_ok_set; auto. }
      splits; auto.
      - intros x [<-|Hx]; auto.
      - intros x. rewrite I3. cbn [fst]. rewrite dkeys_dset, sadd_In. simpl. intuition (subst; auto).
      - intros x. rewrite I4. cbn [snd]. rewrite dkeys_dset, sadd_In. simpl. intuition (subst; auto). }
    assert (P0 : prints_ok b []) by (split; [constructor|intros k p []]).
    destruct (G _ _ _ (conj P0 P0 : prints_ok b (fst ([], [])) /\ prints_ok b (snd ([], []))) Ef) as [G1 [[G2 G3] [G4 G5]]].
    split.
    - exists (fst q), (snd q). splits; auto; intros x; [rewrite G4|rewrite G5]; simpl; tauto.
    - intros x Hx. apply G1, union_In. auto.
  Qed.

  Definition sampled (b : bn w) (a a' : alloc) : Prop :=
    exists l s, a' = set_samplers a l s /\ prints_ok b l /\ prints_ok b s /\ (forall x, In x (a_float a) -> node b x)
      /\ same_set (dkeys l) (union (a_float a) (a_will a)) /\ same_set (dkeys s) (union (a_float a) (a_will a)).
  Lemma define_samplers_ok : forall (b : bn w) t t', coherent b -> define_samplers b t = Ok t' -> Forall2 (sampled b) (allocs t) (allocs t').
  Proof.
    intros b t t' C. revert t'. induction t as [a sh ks IH] using stree_ind'. intros t' E. rewrite define_samplers_eq in E.
    destruct (samplers_one b a) as [a'|e] eqn:Ea; cbn [bind] in E; [|discriminate].
    destruct (mapM _ ks) as [ks'|e] eqn:Em; cbn [bind] in E; [|discriminate]. inversion E; subst. clear E. rewrite !allocs_eq. constructor.
    - apply samplers_one_ok in Ea; auto. destruct Ea as [[l [s (E1 & E2 & E3 & E4 & E5)]] Hn]. exists l, s. splits; auto.
    - apply Forall2_flat_map. apply mapM_ok in Em. rewrite Forall_forall in IH.
      clear - IH Em. revert IH. induction Em as [|x y xs ys Ex Em IHm]; intros IH; constructor.
      + eapply IH; eauto. left; auto.
      + apply IHm. intros z Hz. apply IH. right; auto.
  Qed.

  (** *** sorting *)
  Lemma Order_ok : forall b : bn w, coherent b -> fresh b -> exists od, Order b = Ok od /\ topo (dag b) od (fun x => node b x).
  Proof.
    intros b C F. destruct (fresh_views b F) as (O & _). rewrite O. destruct (order_total _ (co_wf _ C) (co_acyclic _ C)) as [od Hod].
    exists od. split; auto. destruct (order_topo _ _ (co_wf _ C) Hod) as [[D I] T]. split; auto. split; auto.
  Qed.
  Lemma bn_sort_ok : forall (b : bn w) ns, coherent b -> fresh b -> exists l, bn_sort b ns = Ok l /\ sorted b l /\ forall x, In x l <-> In x ns /\ node b x.
  Proof.
    intros b ns C F. destruct (Order_ok b C F) as [od [Ho [[D I] T]]]. unfold bn_sort. rewrite Ho. cbn [bind]. eexists. split; [reflexivity|].
    assert (G : forall x, In x (filter (fun n => mem n ns) od) <-> In x ns /\ node b x) by (intros x; rewrite filter_In, mem_In, I; tauto).
    split; auto. unfold sorted. splits.
    - apply NoDup_filter; auto.
    - intros n Hn. apply G in Hn. tauto.
    - intros p n He Hp Hn. apply before_filter. rewrite filter_In in Hp, Hn. splits; try tauto. apply T; tauto.
  Qed.
  Definition fixed_sorted (b : bn w) (a a' : alloc) : Prop :=
    exists fx, a' = set_nodes a fx (a_float a) /\ sorted b fx /\ forall x, In x fx <-> In x (a_fixed a) /\ node b x.
  Lemma sort_fixed_ok : forall (b : bn w) t, coherent b -> fresh b -> exists t', sort_fixed b t = Ok t' /\ Forall2 (fixed_sorted b) (allocs t) (allocs t').
  Proof.
    intros b t C F. induction t as [a sh ks IH] using stree_ind'. rewrite sort_fixed_eq.
    destruct (bn_sort_ok b (a_fixed a) C F) as [fx [E1 [E2 E3]]]. rewrite E1. cbn [bind].
    assert (M : exists ks', mapM (sort_fixed b) ks = Ok ks' /\ Forall2 (fun x y => Forall2 (fixed_sorted b) (allocs x) (allocs y)) ks ks').
    { induction IH as [|k ks [k' [K1 K2]] IH [ks' [J1 J2]]]; cbn [mapM]; [exists []; split; auto; constructor|].
      rewrite K1, J1. cbn [bind]. eexists. split; [reflexivity|]. constructor; auto. }
    destruct M as [ks' [M1 M2]]. rewrite M1. cbn [bind]. eexists. split; [reflexivity|]. rewrite !allocs_eq. constructor.
    - exists fx. auto.
    - apply Forall2_flat_map. auto.
  Qed.
End Proofs.
