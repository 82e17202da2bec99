(** * Lemmas on the base vocabulary *)

Require Import Verif.Base Verif.Spec.

(** split conjunctions only (not iff, not records) *)
Ltac splits := repeat match goal with |- _ /\ _ => split end.

Lemma mem_In : forall x l, mem x l = true <-> In x l.
Proof.
  intros x l. unfold mem. rewrite existsb_exists. split.
  - intros [y [Hy He]]. apply String.eqb_eq in He. subst; auto.
  - intros H. exists x. split; auto. apply String.eqb_refl.
Qed.

Lemma mem_false : forall x l, mem x l = false <-> ~ In x l.
Proof.
  intros x l. rewrite <- mem_In. destruct (mem x l); split; congruence.
Qed.

Lemma In_dec_name : forall (x : name) l, In x l \/ ~ In x l.
Proof. intros x l. destruct (in_dec string_dec x l); auto. Qed.

Lemma subset_spec : forall a b, subset a b = true <-> incl a b.
Proof.
  intros a b. unfold subset. rewrite forallb_forall. unfold incl.
  split; intros H x Hx; apply mem_In; auto.
Qed.

Lemma diff_In : forall x a b, In x (diff a b) <-> In x a /\ ~ In x b.
Proof.
  intros x a b. unfold diff. rewrite filter_In, negb_true_iff, mem_false. tauto.
Qed.

Lemma inter_In : forall x a b, In x (inter a b) <-> In x a /\ In x b.
Proof.
  intros x a b. unfold inter. rewrite filter_In, mem_In. tauto.
Qed.

Lemma sadd_In : forall x y l, In x (sadd y l) <-> x = y \/ In x l.
Proof.
  intros x y l. unfold sadd. destruct (mem y l) eqn:E.
  - apply mem_In in E. split; auto. intros [->|]; auto.
  - rewrite in_app_iff. simpl. split; intros H; destruct H as [H|H]; auto.
    destruct H as [H|[]]; auto.
Qed.

Lemma union_In : forall b a x, In x (union a b) <-> In x a \/ In x b.
Proof.
  unfold union. induction b as [|y b IH]; intros a x; simpl.
  - tauto.
  - rewrite IH, sadd_In. split; intros H; destruct H as [H|H]; auto; destruct H; auto.
Qed.

Lemma to_set_In : forall x l, In x (to_set l) <-> In x l.
Proof. intros x l. unfold to_set. rewrite union_In. simpl. tauto. Qed.

Lemma NoDup_app_intro : forall (A : Type) (l m : list A),
  NoDup l -> NoDup m -> (forall x, In x l -> ~ In x m) -> NoDup (l ++ m).
Proof.
  intros A l. induction l as [|x l IH]; intros m Hl Hm H; simpl; auto.
  inversion Hl as [|? ? Hx Hl']; subst. constructor.
  - rewrite in_app_iff. intros [Hi|Hi]; auto. apply (H x); simpl; auto.
  - apply IH; auto. intros y Hy. apply H. simpl; auto.
Qed.

Lemma NoDup_app_elim : forall (A : Type) (l m : list A),
  NoDup (l ++ m) -> NoDup l /\ NoDup m /\ (forall x, In x l -> ~ In x m).
Proof.
  intros A l. induction l as [|x l IH]; intros m H; simpl in *.
  - repeat split; auto. constructor.
  - inversion H as [|? ? Hx Hl]; subst. destruct (IH _ Hl) as [Ha [Hb Hc]].
    rewrite in_app_iff in Hx. repeat split; auto.
    + constructor; auto.
    + intros y [->|Hy]; auto.
Qed.

Lemma sadd_NoDup : forall x l, NoDup l -> NoDup (sadd x l).
Proof.
  intros x l H. unfold sadd. destruct (mem x l) eqn:E; auto.
  apply mem_false in E. apply NoDup_app_intro; auto.
  - constructor; auto. constructor.
  - intros y Hy [->|[]]; auto.
Qed.

Lemma union_NoDup : forall b a, NoDup a -> NoDup (union a b).
Proof.
  unfold union. induction b as [|y b IH]; intros a H; simpl; auto.
  apply IH. apply sadd_NoDup; auto.
Qed.

Lemma to_set_NoDup : forall l, NoDup (to_set l).
Proof. intros l. apply union_NoDup. constructor. Qed.

Lemma set_union_star_ok : forall ls l,
  set_union_star ls = Ok l ->
  ls <> [] /\ NoDup l /\ forall x, In x l <-> exists s, In s ls /\ In x s.
Proof.
  intros ls l H. destruct ls as [|a ls]; simpl in H; [discriminate|].
  inversion H as [Hl]; clear H. split; [discriminate|].
  assert (G : forall ls acc, NoDup acc -> NoDup (fold_left union ls acc) /\
     forall x, In x (fold_left union ls acc) <-> In x acc \/ exists s, In s ls /\ In x s).
  { clear. induction ls as [|b ls IH]; intros acc Hn; simpl.
    - split; auto. intros x. split; auto. intros [H|[s [[] _]]]; auto.
    - destruct (IH (union acc b) (union_NoDup b acc Hn)) as [H1 H2]. split; auto.
      intros x. rewrite H2, union_In. split.
      + intros [[H|H]|[s [Hs Hx]]]; eauto.
      + intros [H|[s [[->|Hs] Hx]]]; eauto. }
  destruct (G ls (to_set a) (to_set_NoDup a)) as [H1 H2]. split; auto.
  intros x. rewrite H2, to_set_In. split.
  - intros [H|[s [Hs Hx]]]; [exists a|exists s]; simpl; auto.
  - intros [s [[->|Hs] Hx]]; eauto.
Qed.

Lemma mapM_ok : forall (A B : Type) (f : A -> res B) l r,
  mapM f l = Ok r -> Forall2 (fun x y => f x = Ok y) l r.
Proof.
  intros A B f l. induction l as [|x l IH]; intros r H; simpl in H.
  - inversion H; subst. constructor.
  - destruct (f x) as [y|e] eqn:Ef; simpl in H; [|discriminate].
    destruct (mapM f l) as [ys|e] eqn:Em; simpl in H; [|discriminate].
    inversion H; subst. constructor; auto.
Qed.

Lemma mapM_all_ok : forall (A B : Type) (f : A -> res B) l,
  (forall x, In x l -> exists y, f x = Ok y) -> exists r, mapM f l = Ok r.
Proof.
  intros A B f l. induction l as [|x l IH]; intros H; simpl.
  - eauto.
  - destruct (H x) as [y Hy]; simpl; auto. rewrite Hy. simpl.
    destruct IH as [ys Hys]. { intros z Hz. apply H. simpl; auto. }
    rewrite Hys. simpl. eauto.
Qed.

Lemma mapM_err : forall (A B : Type) (f : A -> res B) l e,
  mapM f l = Err e -> exists x, In x l /\ f x = Err e.
Proof.
  intros A B f l e. induction l as [|x l IH]; intros H; simpl in H; [discriminate|].
  destruct (f x) as [y|e'] eqn:Ef; simpl in H.
  - destruct (mapM f l) as [ys|e'] eqn:Em; simpl in H; [discriminate|].
    inversion H; subst. destruct (IH eq_refl) as [z [Hz Hf]]. exists z; simpl; auto.
  - inversion H; subst. exists x; simpl; auto.
Qed.

Lemma mapM_ext_in : forall (A B : Type) (f g : A -> res B) l,
  (forall x, In x l -> f x = g x) -> mapM f l = mapM g l.
Proof.
  intros A B f g l. induction l as [|x l IH]; intros H; simpl; auto.
  rewrite (H x), IH; simpl; auto. intros; apply H; simpl; auto.
Qed.

Lemma bind_ok : forall (A B : Type) (m : res A) (k : A -> res B) b,
  bind m k = Ok b -> exists a, m = Ok a /\ k a = Ok b.
Proof. intros A B m k b H. destruct m as [a|e]; simpl in H; [eauto|discriminate]. Qed.

Lemma NoDup_filter_name : forall (A : Type) (f : A -> bool) l, NoDup l -> NoDup (filter f l).
Proof. intros. apply NoDup_filter; auto. Qed.

(** ** before *)

Lemma before_In : forall (A : Type) (l : list A) a b, before l a b -> In a l /\ In b l.
Proof.
  intros A l a b [l1 [l2 [l3 ->]]]. split; rewrite in_app_iff; right; simpl; auto.
  right. rewrite in_app_iff. right. simpl. auto.
Qed.

Lemma before_neq : forall (A : Type) (l : list A) a b, NoDup l -> before l a b -> a <> b.
Proof.
  intros A l a b Hn [l1 [l2 [l3 ->]]] ->.
  apply NoDup_app_elim in Hn. destruct Hn as [_ [Hn _]].
  inversion Hn as [|? ? Hx _]; subst. apply Hx. rewrite in_app_iff. right; simpl; auto.
Qed.

Lemma before_cons : forall (A : Type) (l : list A) x a b,
  before (x :: l) a b <-> (x = a /\ In b l) \/ before l a b.
Proof.
  intros A l x a b. split.
  - intros [l1 [l2 [l3 H]]]. destruct l1 as [|y l1]; simpl in H; inversion H; subst.
    + left. split; auto. rewrite in_app_iff. right; simpl; auto.
    + right. exists l1, l2, l3. auto.
  - intros [[-> Hb]|[l1 [l2 [l3 ->]]]].
    + apply in_split in Hb. destruct Hb as [l2 [l3 ->]]. exists [], l2, l3. auto.
    + exists (x :: l1), l2, l3. auto.
Qed.

Lemma before_nil : forall (A : Type) (a b : A), ~ before [] a b.
Proof. intros A a b [l1 [l2 [l3 H]]]. destruct l1; discriminate. Qed.

Lemma before_app : forall (A : Type) (l m : list A) a b,
  before (l ++ m) a b <-> before l a b \/ before m a b \/ (In a l /\ In b m).
Proof.
  intros A l m a b. induction l as [|x l IH]; simpl.
  - split; auto. intros [H|[H|[[] _]]]; auto. apply before_nil in H. tauto.
  - rewrite !before_cons, IH, in_app_iff. intuition (subst; auto).
Qed.

Lemma before_filter : forall (A : Type) (f : A -> bool) l a b,
  before (filter f l) a b <-> (before l a b /\ f a = true /\ f b = true).
Proof.
  intros A f l a b. induction l as [|x l IH]; simpl.
  - split; [|tauto]. intros H. apply before_nil in H. tauto.
  - destruct (f x) eqn:E.
    + rewrite !before_cons, IH, filter_In. intuition (subst; auto).
    + rewrite before_cons, IH. split; [tauto|].
      intros [[[-> Hb]|Hb] [Ha Hb']]; [congruence|tauto].
Qed.

Lemma before_trans : forall (A : Type) (l : list A) a b c,
  NoDup l -> before l a b -> before l b c -> before l a c.
Proof.
  intros A l. induction l as [|x l IH]; intros a b c Hn Hab Hbc.
  - apply before_nil in Hab; tauto.
  - inversion Hn as [|? ? Hx Hl]; subst. rewrite before_cons in *.
    destruct Hab as [[-> Hb]|Hab].
    + destruct Hbc as [[-> Hc]|Hbc]; [auto|].
      left. split; auto. apply before_In in Hbc. tauto.
    + destruct Hbc as [[-> Hc]|Hbc].
      * apply before_In in Hab. tauto.
      * right. eapply IH; eauto.
Qed.

Lemma before_asym : forall (A : Type) (l : list A) a b,
  NoDup l -> before l a b -> ~ before l b a.
Proof.
  intros A l a b Hn H1 H2. eapply (before_neq _ _ a a Hn); auto.
  eapply before_trans; eauto.
Qed.

Lemma before_total : forall (A : Type) (l : list A) a b,
  In a l -> In b l -> a = b \/ before l a b \/ before l b a.
Proof.
  intros A l a b. induction l as [|x l IH]; simpl; [tauto|].
  intros [->|Ha] [->|Hb]; rewrite !before_cons; auto.
  destruct IH as [H|[H|H]]; auto.
Qed.

Lemma before_rev : forall (A : Type) (l : list A) a b, before (rev l) a b <-> before l b a.
Proof.
  intros A l a b. induction l as [|x l IH]; simpl.
  - split; intros H; apply before_nil in H; tauto.
  - rewrite before_app, !before_cons, IH, <- in_rev. simpl.
    assert (N : ~ before [] a b) by apply before_nil.
    intuition (subst; auto).
Qed.

(** ** Dicts *)

Section DictLemmas.
  Context {V : Type}.
  Implicit Types (d e : dict V) (k : name).

  Lemma dget_In : forall d k, (exists v, dget d k = Some v) <-> In k (dkeys d).
  Proof.
    intros d k. induction d as [|[k' v'] d IH]; simpl.
    - split; [intros [v H]; discriminate|tauto].
    - destruct (String.eqb k k') eqn:E.
      + apply String.eqb_eq in E; subst. split; eauto.
      + rewrite IH. apply String.eqb_neq in E. split; auto. intros [H|H]; auto. congruence.
  Qed.

  Lemma dget_None : forall d k, dget d k = None <-> ~ In k (dkeys d).
  Proof.
    intros d k. rewrite <- dget_In. destruct (dget d k) as [v|]; split; intros H; try congruence.
    - exfalso. apply H. eauto.
    - intros [v Hv]. discriminate.
  Qed.

  Lemma dmem_In : forall d k, dmem k d = true <-> In k (dkeys d).
  Proof.
    intros d k. rewrite <- dget_In. unfold dmem. destruct (dget d k) as [v|]; split; intros H; eauto.
    - discriminate.
    - destruct H; discriminate.
  Qed.

  Lemma dget_dset : forall d k v x,
    dget (dset d k v) x = if String.eqb x k then Some v else dget d x.
  Proof.
    intros d k v x. induction d as [|[k' v'] d IH]; simpl.
    - destruct (String.eqb x k) eqn:E; auto.
    - destruct (String.eqb k k') eqn:E; simpl.
      + apply String.eqb_eq in E; subst. destruct (String.eqb x k'); auto.
      + destruct (String.eqb x k') eqn:E'; auto.
        apply String.eqb_eq in E'; subst. rewrite String.eqb_sym in E. rewrite E. auto.
  Qed.

  Lemma dkeys_dset : forall d k v, dkeys (dset d k v) = sadd k (dkeys d).
  Proof.
    intros d k v. unfold sadd. induction d as [|[k' v'] d IH]; simpl; auto.
    destruct (String.eqb k k') eqn:E; simpl.
    - auto.
    - rewrite IH. unfold mem. simpl. destruct (existsb (String.eqb k) (dkeys d)); auto.
  Qed.

  Lemma dget_ddel : forall d k x,
    dget (ddel d k) x = if String.eqb x k then None else dget d x.
  Proof.
    intros d k x. unfold ddel. induction d as [|[k' v'] d IH]; simpl.
    - destruct (String.eqb x k); auto.
    - destruct (String.eqb k k') eqn:E; simpl.
      + apply String.eqb_eq in E; subst. rewrite IH. destruct (String.eqb x k'); auto.
      + rewrite IH. destruct (String.eqb x k') eqn:E'; auto.
        apply String.eqb_eq in E'; subst. rewrite String.eqb_sym in E. rewrite E. auto.
  Qed.

  Lemma dkeys_ddel : forall d k, dkeys (ddel d k) = filter (fun x => negb (String.eqb k x)) (dkeys d).
  Proof.
    intros d k. unfold ddel. induction d as [|[k' v'] d IH]; simpl; auto.
    destruct (String.eqb k k'); simpl; auto. rewrite IH. auto.
  Qed.

  Lemma dkeys_ddel_In : forall d k x, In x (dkeys (ddel d k)) <-> In x (dkeys d) /\ x <> k.
  Proof.
    intros d k x. rewrite dkeys_ddel, filter_In, negb_true_iff, String.eqb_neq. intuition congruence.
  Qed.

  Lemma dget_app : forall d e k,
    dget (d ++ e) k = match dget d k with Some v => Some v | None => dget e k end.
  Proof.
    intros d e k. induction d as [|[k' v'] d IH]; simpl; auto.
    destruct (String.eqb k k'); auto.
  Qed.

  Lemma dupdate_app : forall d e e', dupdate d (e ++ e') = dupdate (dupdate d e) e'.
  Proof. intros. unfold dupdate. rewrite fold_left_app. auto. Qed.

  (** the value after an update is the last one given for the key *)
  Lemma dget_dupdate : forall e d k,
    dget (dupdate d e) k = match dget (rev e) k with Some v => Some v | None => dget d k end.
  Proof.
    induction e as [|[k' v'] e IH]; intros d k; simpl; auto.
    change (dupdate d ((k', v') :: e)) with (dupdate (dset d k' v') e).
    rewrite IH, dget_app, dget_dset. simpl.
    destruct (dget (rev e) k); auto. destruct (String.eqb k k'); auto.
  Qed.

  Lemma dget_rev_NoDup : forall e k, NoDup (dkeys e) -> dget (rev e) k = dget e k.
  Proof.
    induction e as [|[k' v'] e IH]; intros k H; simpl; auto.
    inversion H as [|? ? Hx Hl]; subst. rewrite dget_app, IH; auto. simpl.
    destruct (String.eqb k k') eqn:E.
    - apply String.eqb_eq in E; subst.
      assert (H1 : dget e k' = None) by (apply dget_None; auto). rewrite H1. auto.
    - destruct (dget e k); auto.
  Qed.

  Lemma dget_dupdate_NoDup : forall e d k, NoDup (dkeys e) ->
    dget (dupdate d e) k = match dget e k with Some v => Some v | None => dget d k end.
  Proof. intros. rewrite dget_dupdate, dget_rev_NoDup; auto. Qed.

  Lemma dkeys_dupdate : forall e d, dkeys (dupdate d e) = union (dkeys d) (dkeys e).
  Proof.
    induction e as [|[k' v'] e IH]; intros d; simpl; auto.
    change (dupdate d ((k', v') :: e)) with (dupdate (dset d k' v') e).
    rewrite IH, dkeys_dset. auto.
  Qed.

  Lemma dkeys_dupdate_In : forall e d k, In k (dkeys (dupdate d e)) <-> In k (dkeys d) \/ In k (dkeys e).
  Proof. intros. rewrite dkeys_dupdate, union_In. tauto. Qed.

  Lemma NoDup_dset : forall d k v, NoDup (dkeys d) -> NoDup (dkeys (dset d k v)).
  Proof. intros. rewrite dkeys_dset. apply sadd_NoDup; auto. Qed.

  Lemma NoDup_ddel : forall d k, NoDup (dkeys d) -> NoDup (dkeys (ddel d k)).
  Proof. intros. rewrite dkeys_ddel. apply NoDup_filter; auto. Qed.

  Lemma NoDup_dupdate : forall e d, NoDup (dkeys d) -> NoDup (dkeys (dupdate d e)).
  Proof. intros. rewrite dkeys_dupdate. apply union_NoDup; auto. Qed.

  Lemma dget_dfilter : forall f d k, dget (dfilter f d) k = if f k then dget d k else None.
  Proof.
    intros f d k. unfold dfilter. induction d as [|[k' v'] d IH]; simpl.
    - destruct (f k); auto.
    - destruct (f k') eqn:E; simpl; rewrite IH.
      + destruct (String.eqb k k') eqn:E'; auto.
        apply String.eqb_eq in E'; subst. rewrite E. auto.
      + destruct (String.eqb k k') eqn:E'; auto.
        apply String.eqb_eq in E'; subst. rewrite E. auto.
  Qed.

  Lemma dkeys_dfilter : forall f d, dkeys (dfilter f d) = filter f (dkeys d).
  Proof.
    intros f d. unfold dfilter. induction d as [|[k' v'] d IH]; simpl; auto.
    destruct (f k'); simpl; auto. rewrite IH; auto.
  Qed.

  Lemma dget_in_pair : forall d k v, dget d k = Some v -> In (k, v) d.
  Proof.
    intros d k v. induction d as [|[k' v'] d IH]; simpl; [discriminate|].
    destruct (String.eqb k k') eqn:E.
    - apply String.eqb_eq in E; subst. intros H; inversion H; auto.
    - auto.
  Qed.

  Lemma in_pair_dget : forall d k v, NoDup (dkeys d) -> In (k, v) d -> dget d k = Some v.
  Proof.
    intros d k v. induction d as [|[k' v'] d IH]; simpl; [tauto|].
    intros Hn H. inversion Hn as [|? ? Hx Hl]; subst. destruct H as [H|H].
    - inversion H; subst. rewrite String.eqb_refl. auto.
    - destruct (String.eqb k k') eqn:E; auto.
      apply String.eqb_eq in E; subst. exfalso. apply Hx.
      apply (in_map fst) in H. auto.
  Qed.
End DictLemmas.
