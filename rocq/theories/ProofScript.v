(** * Lemmas about regular expressions, lines and definitions given as text *)

Require Import Verif.Base Verif.World Verif.ModelGraph Verif.ModelExpr Verif.ModelLoci Verif.ModelBN
        Verif.ModelScript Verif.Spec Verif.SpecBN Verif.ProofBase.

(** ** Matching *)

Lemma try_len_some : forall rec s k j g, try_len k rec s = Some (j, g) <->
  1 <= j <= k /\ rec (skipn j s) = Some g /\ (forall i, j < i <= k -> rec (skipn i s) = None).
Proof.
  intros rec s k. induction k as [|k IH]; intros j g; cbn [try_len].
  - split; [intros H; discriminate H|intros [H _]; lia].
  - destruct (rec (skipn (S k) s)) as [g'|] eqn:E.
    + split.
      * intros H. injection H as <- <-. split; [lia|]. split; [exact E|]. intros; lia.
      * intros (H1 & H2 & H3). assert (j = S k) as ->.
        { destruct (Nat.eq_dec j (S k)); auto. rewrite (H3 (S k)) in E by lia. discriminate E. }
        rewrite E in H2. injection H2 as <-. reflexivity.
    + rewrite IH. split; intros (H1 & H2 & H3); (split; [|split; [exact H2|]]).
      * lia.
      * intros i Hi. destruct (Nat.eq_dec i (S k)) as [->|]; auto. apply H3; lia.
      * destruct (Nat.eq_dec j (S k)) as [->|]; [rewrite E in H2; discriminate H2|lia].
      * intros i Hi. apply H3; lia.
Qed.

Lemma try_len_none : forall rec s k, try_len k rec s = None <-> forall i, 1 <= i <= k -> rec (skipn i s) = None.
Proof.
  intros rec s k. induction k as [|k IH]; cbn [try_len].
  - split; auto. intros; lia.
  - destruct (rec (skipn (S k) s)) as [g|] eqn:E.
    + split; [intros H; discriminate H|]. intros H. rewrite (H (S k)) in E by lia. discriminate E.
    + rewrite IH. split; intros H i Hi; [|apply H; lia].
      destruct (Nat.eq_dec i (S k)) as [->|]; auto. apply H; lia.
Qed.

Lemma run_len_le : forall p s, run_len p s <= length s.
Proof. intros p s. induction s as [|c s IH]; simpl; auto. destruct (p c); lia. Qed.

Lemma run_len_ge : forall p a s, forallb p a = true -> length a <= run_len p (a ++ s).
Proof.
  intros p a s. induction a as [|c a IH]; simpl; intros H; [lia|].
  apply andb_true_iff in H. destruct H as [-> H]. specialize (IH H). lia.
Qed.

Lemma run_len_all : forall p s k, k <= run_len p s -> forallb p (firstn k s) = true.
Proof.
  intros p s. induction s as [|c s IH]; intros k H; simpl in H.
  - assert (k = 0) as -> by lia. auto.
  - destruct k as [|k]; auto. destruct (p c) eqn:E; [|lia]. simpl. rewrite E. apply IH. lia.
Qed.

(** the repetition at the head of a pattern *)
Lemma rmatch_plus : forall p rs s a g, rmatch (RPlus p :: rs) s = Some (a :: g) <->
  exists rest, s = a ++ rest /\ a <> [] /\ forallb p a = true /\ rmatch rs rest = Some g
    /\ (forall a' rest', s = a' ++ rest' -> forallb p a' = true -> length a < length a' -> rmatch rs rest' = None).
Proof.
  intros p rs s a g. cbn [rmatch]. split.
  - destruct (try_len (run_len p s) (rmatch rs) s) as [[k g']|] eqn:E; [|intros H; discriminate H].
    intros H. injection H as <- <-. apply try_len_some in E. destruct E as (H1 & H2 & H3).
    pose proof (run_len_le p s) as L.
    exists (skipn k s). split; [symmetry; apply firstn_skipn|]. split.
    { intros N. apply (f_equal (@length _)) in N. rewrite firstn_length_le in N by lia. simpl in N. lia. }
    split; [apply run_len_all; lia|]. split; [exact H2|].
    intros a' rest' -> Ha' Hl. rewrite firstn_length_le in Hl by lia.
    pose proof (run_len_ge p a' rest' Ha') as G.
    specialize (H3 (length a')). rewrite skipn_app, skipn_all, Nat.sub_diag in H3. apply H3. lia.
  - intros (rest & -> & Ha & Hp & Hm & Hlong).
    assert (L : 1 <= length a) by (destruct a; [congruence|simpl; lia]).
    assert (E : try_len (run_len p (a ++ rest)) (rmatch rs) (a ++ rest) = Some (length a, g)).
    { apply try_len_some. split; [split; [lia|apply run_len_ge; auto]|]. split.
      - rewrite skipn_app, skipn_all, Nat.sub_diag. exact Hm.
      - intros i Hi. apply (Hlong (firstn i (a ++ rest))).
        + symmetry. apply firstn_skipn.
        + apply run_len_all; lia.
        + rewrite firstn_length_le; [lia|]. pose proof (run_len_le p (a ++ rest)). lia. }
    rewrite E. f_equal. rewrite firstn_app, Nat.sub_diag, firstn_all, firstn_O, app_nil_r. reflexivity.
Qed.

Lemma rmatch_plus_none : forall p rs s, rmatch (RPlus p :: rs) s = None <->
  forall a rest, s = a ++ rest -> a <> [] -> forallb p a = true -> rmatch rs rest = None.
Proof.
  intros p rs s. cbn [rmatch]. split.
  - destruct (try_len (run_len p s) (rmatch rs) s) as [[k g']|] eqn:E; [intros H; discriminate H|].
    intros _ a rest -> Ha Hp. rewrite try_len_none in E. specialize (E (length a)).
    rewrite skipn_app, skipn_all, Nat.sub_diag in E. apply E. split; [destruct a; [congruence|simpl; lia]|].
    apply run_len_ge; auto.
  - intros H. destruct (try_len (run_len p s) (rmatch rs) s) as [[k g']|] eqn:E; auto.
    apply try_len_some in E. destruct E as (H1 & H2 & _). pose proof (run_len_le p s) as L.
    rewrite (H (firstn k s) (skipn k s)) in H2; [discriminate H2| | |].
    + symmetry. apply firstn_skipn.
    + intros N. apply (f_equal (@length _)) in N. rewrite firstn_length_le in N by lia. simpl in N. lia.
    + apply run_len_all; lia.
Qed.

Lemma rmatch_plus_shape : forall p rs s g, rmatch (RPlus p :: rs) s = Some g -> exists a g', g = a :: g'.
Proof.
  intros p rs s g. cbn [rmatch]. destruct (try_len (run_len p s) (rmatch rs) s) as [[k g']|]; intros H; [|discriminate H].
  injection H as <-. eauto.
Qed.

(** a run that ends where the class ends *)
Definition ends_run (p : ascii -> bool) (rest : text) : Prop :=
  match rest with [] => True | c :: _ => p c = false end.

Lemma rmatch_last : forall p s a, rmatch [RPlus p] s = Some [a] <->
  exists rest, s = a ++ rest /\ a <> [] /\ forallb p a = true /\ ends_run p rest.
Proof.
  intros p s a. rewrite rmatch_plus. cbn [rmatch]. split.
  - intros (rest & -> & Ha & Hp & _ & Hl). exists rest. repeat split; auto.
    destruct rest as [|c rest]; simpl; auto. destruct (p c) eqn:E; auto.
    assert (X : Some ([] : list text) = None); [|discriminate X]. apply (Hl (a ++ [c]) rest).
    + rewrite <- app_assoc. auto.
    + rewrite forallb_app, Hp. simpl. rewrite E. auto.
    + rewrite app_length. simpl. lia.
  - intros (rest & -> & Ha & Hp & He). exists rest. repeat split; auto.
    intros a' rest' Heq Ha' Hlen. exfalso.
    assert (K : exists c x, a' = a ++ c :: x /\ rest = c :: x ++ rest').
    { clear Ha Hp He Ha'. revert a' Heq Hlen. induction a as [|c a IH]; intros a' Heq Hlen.
      - destruct a' as [|c x]; [simpl in Hlen; lia|]. simpl in Heq. subst rest. exists c, x. auto.
      - destruct a' as [|c' a']; [simpl in Hlen; lia|]. simpl in Heq. injection Heq as <- Heq. simpl in Hlen.
        destruct (IH a' Heq) as (d & x & -> & ->); [lia|]. exists d, x. auto. }
    destruct K as (c & x & -> & ->). simpl in He. rewrite forallb_app in Ha'. simpl in Ha'. rewrite He, andb_false_r in Ha'.
    discriminate Ha'.
Qed.

Lemma run_exists : forall p c s, p c = true ->
  exists a rest, c :: s = a ++ rest /\ a <> [] /\ forallb p a = true /\ ends_run p rest.
Proof.
  intros p c s. revert c. induction s as [|d s IH]; intros c H.
  - exists [c], []. repeat split; try discriminate. simpl. rewrite H. auto.
  - destruct (p d) eqn:E.
    + destruct (IH d E) as (a & rest & Heq & Ha & Hp & He). exists (c :: a), rest. rewrite Heq. repeat split; auto; try discriminate.
      simpl. rewrite H. auto.
    + exists [c], (d :: s). repeat split; auto; try discriminate. simpl. rewrite H. auto.
Qed.

Lemma rmatch_last_none : forall p s, rmatch [RPlus p] s = None <-> ends_run p s.
Proof.
  intros p s. rewrite rmatch_plus_none. cbn [rmatch]. split.
  - intros H. destruct s as [|c s]; simpl; auto. destruct (p c) eqn:E; auto.
    assert (X : Some ([] : list text) = None); [|discriminate X]. apply (H [c] s); auto; try discriminate. simpl. rewrite E. auto.
  - intros H a rest -> Ha Hp. destruct a as [|c a]; [congruence|]. simpl in *. rewrite H in Hp. discriminate Hp.
Qed.

(** \A(p+)c(q+) with c outside p: the first field is the whole run *)
Lemma app_split_sep : forall (p : ascii -> bool) c a rest a' rest', p c = false -> forallb p a = true -> forallb p a' = true ->
  a ++ c :: rest = a' ++ c :: rest' -> a = a' /\ rest = rest'.
Proof.
  intros p c a. induction a as [|x a IH]; intros rest a' rest' Hc Ha Ha' Heq.
  - destruct a' as [|x' a']; simpl in Heq; [injection Heq as <-; auto|]. injection Heq as <- _. simpl in Ha'. rewrite Hc in Ha'. discriminate Ha'.
  - destruct a' as [|x' a']; simpl in Heq; injection Heq as -> Heq; simpl in Ha, Ha'.
    + rewrite Hc in Ha. discriminate Ha.
    + apply andb_true_iff in Ha. apply andb_true_iff in Ha'. destruct (IH rest a' rest' Hc) as [-> ->]; tauto.
Qed.

Lemma rmatch_sep : forall p q c s a d, p c = false ->
  (rmatch [RPlus p; ch c; RPlus q] s = Some [a; d] <->
   exists rest, s = a ++ c :: d ++ rest /\ a <> [] /\ forallb p a = true
     /\ d <> [] /\ forallb q d = true /\ ends_run q rest).
Proof.
  intros p q c s a d Hc. rewrite rmatch_plus. unfold ch. split.
  - intros (rest & -> & Ha & Hp & Hm & _). destruct rest as [|c' rest]; cbn [rmatch] in Hm; [discriminate Hm|].
    destruct (Ascii.eqb_spec c c') as [<-|]; [|discriminate Hm]. apply rmatch_last in Hm.
    destruct Hm as (r2 & -> & Hd & Hq & He). exists r2. repeat split; auto.
  - intros (rest & -> & Ha & Hp & Hd & Hq & He). exists (c :: d ++ rest). repeat split; auto.
    + cbn [rmatch]. rewrite Ascii.eqb_refl. apply rmatch_last. eauto.
    + intros a' rest' Heq Ha' Hl. destruct rest' as [|c' rest']; [reflexivity|]. cbn [rmatch].
      destruct (Ascii.eqb_spec c c') as [<-|]; auto. destruct (app_split_sep p c _ _ _ _ Hc Hp Ha' Heq) as [-> _]. lia.
Qed.

Lemma rmatch_sep_none : forall p q c s,
  (rmatch [RPlus p; ch c; RPlus q] s = None <->
   forall a x rest, s = a ++ c :: x :: rest -> a <> [] -> forallb p a = true -> q x = false).
Proof.
  intros p q c s. rewrite rmatch_plus_none. unfold ch. split.
  - intros H a x rest -> Ha Hp. specialize (H a (c :: x :: rest) eq_refl Ha Hp). cbn [rmatch] in H.
    rewrite Ascii.eqb_refl in H. apply rmatch_last_none in H. exact H.
  - intros H a rest -> Ha Hp. destruct rest as [|c' rest]; [reflexivity|]. cbn [rmatch].
    destruct (Ascii.eqb_spec c c') as [<-|]; auto. apply rmatch_last_none. destruct rest as [|x rest]; simpl; auto. eapply H; eauto.
Qed.

Lemma rmatch_sep_shape : forall p q c s, rmatch [RPlus p; ch c; RPlus q] s = None \/ exists a d, rmatch [RPlus p; ch c; RPlus q] s = Some [a; d].
Proof.
  intros p q c s. destruct (rmatch [RPlus p; ch c; RPlus q] s) as [g|] eqn:E; auto. right.
  destruct (rmatch_plus_shape _ _ _ _ E) as (a & g' & ->). apply rmatch_plus in E. destruct E as (rest & _ & _ & _ & E & _).
  unfold ch in E. destruct rest as [|c' rest]; cbn [rmatch] in E; [discriminate E|]. destruct (Ascii.eqb c c'); [|discriminate E].
  change (rmatch [RPlus q] rest = Some g') in E.
  destruct (rmatch_plus_shape _ _ _ _ E) as (d & g2 & ->). apply rmatch_plus in E. destruct E as (r2 & _ & _ & _ & E & _).
  injection E as <-. eauto.
Qed.

(** ** Membership, blanks *)

Lemma has_In : forall c s, has c s = true <-> In c s.
Proof.
  intros c s. unfold has. rewrite existsb_exists. split.
  - intros (x & H & E). apply Ascii.eqb_eq in E. subst. auto.
  - intros H. exists c. rewrite Ascii.eqb_refl. auto.
Qed.
Lemma has_false : forall c s, has c s = false <-> ~ In c s.
Proof. intros c s. rewrite <- has_In. destruct (has c s); split; congruence. Qed.

Lemma unblank_idem : forall s, unblank (unblank s) = unblank s.
Proof.
  intros s. unfold unblank. induction s as [|c s IH]; auto. simpl. destruct (Ascii.eqb c " ") eqn:E; simpl; auto.
  rewrite E. simpl. rewrite IH. auto.
Qed.
Lemma unblank_app : forall a b, unblank (a ++ b) = unblank a ++ unblank b.
Proof. intros. unfold unblank. apply filter_app. Qed.
Lemma unblank_id : forall s, ~ In " "%char s -> unblank s = s.
Proof.
  intros s. unfold unblank. induction s as [|c s IH]; auto. simpl. intros H.
  destruct (Ascii.eqb_spec c " ") as [->|]; [exfalso; apply H; auto|]. simpl. rewrite IH; auto.
Qed.
Lemma In_unblank : forall c s, In c (unblank s) <-> In c s /\ c <> " "%char.
Proof.
  intros c s. unfold unblank. rewrite filter_In. split; intros [H1 H2]; split; auto.
  - intros ->. discriminate H2.
  - destruct (Ascii.eqb_spec c " "); auto; congruence.
Qed.

(** ** Lines *)

Lemma lines_nonempty : forall s, lines s <> [].
Proof. intros s. destruct s as [|c s]; simpl; [discriminate|]. destruct (Ascii.eqb c nl); [discriminate|]. destruct (lines s); discriminate. Qed.

Lemma lines_one : forall s, ~ In nl s -> lines s = [s].
Proof.
  intros s. induction s as [|c s IH]; intros H; auto. cbn [lines]. destruct (Ascii.eqb_spec c nl) as [->|]; [exfalso; apply H; simpl; auto|].
  rewrite IH; auto. intros K. apply H. simpl; auto.
Qed.

Lemma lines_app : forall a b, ~ In nl a -> lines (a ++ nl :: b) = a :: lines b.
Proof.
  intros a b. induction a as [|c a IH]; intros H.
  - reflexivity.
  - cbn [lines app]. destruct (Ascii.eqb_spec c nl) as [->|]; [exfalso; apply H; simpl; auto|].
    rewrite IH; auto. intros K. apply H. simpl; auto.
Qed.

Lemma lines_join : forall ls, ls <> [] -> (forall l, In l ls -> ~ In nl l) -> lines (join [nl] ls) = ls.
Proof.
  intros ls. induction ls as [|l ls IH]; [congruence|]. intros _ H. destruct ls as [|l2 ls].
  - apply lines_one. apply H. simpl; auto.
  - change (join [nl] (l :: l2 :: ls)) with (l ++ nl :: join [nl] (l2 :: ls)). rewrite lines_app by (apply H; simpl; auto).
    rewrite IH; auto; [discriminate|]. intros. apply H. simpl; auto.
Qed.

Lemma T_S : forall s, S_ (T s) = s. Proof. exact string_of_list_ascii_of_string. Qed.
Lemma S_T : forall t, T (S_ t) = t. Proof. exact list_ascii_of_string_of_list_ascii. Qed.
