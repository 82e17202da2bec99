(** * Correctness of the graph algorithms of ModelGraph.v *)

Require Import Verif.Base Verif.ModelGraph Verif.Spec Verif.ProofBase.

Lemma edge_eqb_eq : forall e f, edge_eqb e f = true <-> e = f.
Proof.
  intros [a b] [c d]. unfold edge_eqb. simpl. rewrite andb_true_iff, !String.eqb_eq.
  split; [intros [-> ->]; auto|intros H; inversion H; auto].
Qed.

Lemma edge_eqb_neq : forall e f, edge_eqb e f = false <-> e <> f.
Proof. intros e f. rewrite <- edge_eqb_eq. destruct (edge_eqb e f); split; congruence. Qed.

Lemma has_edge_spec : forall g a b, has_edge g a b = true <-> edge g a b.
Proof.
  intros g a b. unfold has_edge, edge. rewrite existsb_exists. split.
  - intros [e [He H]]. apply edge_eqb_eq in H. subst; auto.
  - intros H. exists (a, b). split; auto. apply edge_eqb_eq; auto.
Qed.

Lemma has_edge_false : forall g a b, has_edge g a b = false <-> ~ edge g a b.
Proof. intros g a b. rewrite <- has_edge_spec. destruct (has_edge g a b); split; congruence. Qed.

Lemma has_node_spec : forall g n, has_node g n = true <-> In n (gnodes g).
Proof. intros. apply mem_In. Qed.

Lemma has_node_false : forall g n, has_node g n = false <-> ~ In n (gnodes g).
Proof. intros. apply mem_false. Qed.

Lemma preds_In : forall g a b, In a (preds g b) <-> edge g a b.
Proof.
  intros g a b. unfold preds, edge. rewrite in_map_iff. split.
  - intros [[x y] [H1 H2]]. simpl in H1. subst. apply filter_In in H2. destruct H2 as [H2 H3].
    simpl in H3. apply String.eqb_eq in H3. subst; auto.
  - intros H. exists (a, b). split; auto. apply filter_In. split; auto. simpl. apply String.eqb_refl.
Qed.

Lemma succs_In : forall g a b, In b (succs g a) <-> edge g a b.
Proof.
  intros g a b. unfold succs, edge. rewrite in_map_iff. split.
  - intros [[x y] [H1 H2]]. simpl in H1. subst. apply filter_In in H2. destruct H2 as [H2 H3].
    simpl in H3. apply String.eqb_eq in H3. subst; auto.
  - intros H. exists (a, b). split; auto. apply filter_In. split; auto. simpl. apply String.eqb_refl.
Qed.

Lemma preds_NoDup : forall g b, NoDup (gedges g) -> NoDup (preds g b).
Proof.
  intros g b. unfold preds. induction (gedges g) as [|[x y] l IH]; intros H; simpl; [constructor|].
  inversion H as [|? ? Hx Hl]; subst. destruct (String.eqb b y) eqn:E; simpl; auto.
  apply String.eqb_eq in E. subst. constructor; auto.
  rewrite in_map_iff. intros [[u v] [H1 H2]]. simpl in H1. subst. apply filter_In in H2.
  destruct H2 as [H2 H3]. simpl in H3. apply String.eqb_eq in H3. subst. auto.
Qed.

Lemma succs_NoDup : forall g b, NoDup (gedges g) -> NoDup (succs g b).
Proof.
  intros g b. unfold succs. induction (gedges g) as [|[x y] l IH]; intros H; simpl; [constructor|].
  inversion H as [|? ? Hx Hl]; subst. destruct (String.eqb b x) eqn:E; simpl; auto.
  apply String.eqb_eq in E. subst. constructor; auto.
  rewrite in_map_iff. intros [[u v] [H1 H2]]. simpl in H1. subst. apply filter_In in H2.
  destruct H2 as [H2 H3]. simpl in H3. apply String.eqb_eq in H3. subst. auto.
Qed.

(** ** Paths *)

Lemma path_trans : forall g a b c, path g a b -> path g b c -> path g a c.
Proof.
  intros g a b c H. induction H as [a b H|a b d H _ IH]; intros H'.
  - eapply path_step; eauto.
  - eapply path_step; eauto.
Qed.

Lemma path_snoc : forall g a b c, path g a b -> edge g b c -> path g a c.
Proof. intros. eapply path_trans; eauto. apply path_edge; auto. Qed.

(** last edge of a path *)
Lemma path_last : forall g a c, path g a c -> edge g a c \/ exists b, path g a b /\ edge g b c.
Proof.
  intros g a c H. induction H as [a b H|a b c H Hp IH]; auto.
  right. destruct IH as [He|[d [Hd He]]].
  - exists b. split; auto. apply path_edge; auto.
  - exists d. split; auto. eapply path_step; eauto.
Qed.

Lemma path_first : forall g a c, path g a c -> exists b, edge g a b /\ (b = c \/ path g b c).
Proof. intros g a c H. destruct H; eauto. Qed.

Lemma path_nodes : forall g a b, wf g -> path g a b -> In a (gnodes g) /\ In b (gnodes g).
Proof.
  intros g a b W H. induction H as [a b H|a b c H _ IH].
  - split; [eapply wf_src|eapply wf_dst]; eauto.
  - split; [eapply wf_src; eauto|tauto].
Qed.

Lemma path_src : forall g a b, wf g -> path g a b -> In a (gnodes g).
Proof. intros g a b W H. apply (path_nodes g a b W H). Qed.

Lemma path_dst : forall g a b, wf g -> path g a b -> In b (gnodes g).
Proof. intros g a b W H. apply (path_nodes g a b W H). Qed.

Lemma path_incl : forall g g' a b,
  (forall x y, edge g x y -> edge g' x y) -> path g a b -> path g' a b.
Proof.
  intros g g' a b H Hp. induction Hp as [a b He|a b c He _ IH].
  - apply path_edge; auto.
  - eapply path_step; eauto.
Qed.

Lemma acyclic_incl : forall g g',
  (forall x y, edge g x y -> edge g' x y) -> acyclic g' -> acyclic g.
Proof. intros g g' H Ha x Hx. apply (Ha x). eapply path_incl; eauto. Qed.

(** ** Breadth-first search *)

Section BFS.
  Variable nbr : name -> list name.

  Inductive nreach : name -> name -> Prop :=
  | nr_refl : forall x, nreach x x
  | nr_step : forall x y z, nreach x y -> In z (nbr y) -> nreach x z.

  Lemma bfs_spec : forall fuel U q s,
    NoDup s -> incl q s -> incl s U ->
    (forall x, In x U -> incl (nbr x) U) ->
    (forall x, In x s -> ~ In x q -> incl (nbr x) s) ->
    length q + (length U - length s) <= fuel ->
    let r := bfs fuel nbr q s in
    incl s r /\ (forall x, In x r -> incl (nbr x) r)
    /\ (forall x, In x r -> exists y, In y s /\ nreach y x) /\ incl r U /\ NoDup r.
  Proof.
    induction fuel as [|f IH]; intros U q s Hnd Hqs HsU Hcl Hdone Hf; simpl.
    - destruct q as [|x q]; simpl in Hf; [|lia].
      repeat split; auto using incl_refl.
      intros x Hx. exists x. split; auto. constructor.
    - destruct q as [|x q].
      + repeat split; auto using incl_refl.
        intros x Hx. exists x. split; auto. constructor.
      + set (new := filter (fun y => negb (mem y s)) (to_set (nbr x))).
        assert (Hnew : forall y, In y new <-> In y (nbr x) /\ ~ In y s).
        { intros y. unfold new. rewrite filter_In, to_set_In, negb_true_iff, mem_false. tauto. }
        assert (Hxs : In x s) by (apply Hqs; simpl; auto).
        assert (Hnd' : NoDup (s ++ new)).
        { apply NoDup_app_intro; auto.
          - apply NoDup_filter. apply to_set_NoDup.
          - intros y Hy Hy'. apply Hnew in Hy'. tauto. }
        assert (HsU' : incl (s ++ new) U).
        { intros y Hy. apply in_app_iff in Hy. destruct Hy as [Hy|Hy]; auto.
          apply Hnew in Hy. apply (Hcl x); auto. tauto. }
        assert (Hlen : length (s ++ new) <= length U) by (apply NoDup_incl_length; auto).
        destruct (IH U (q ++ new) (s ++ new)) as [R1 [R2 [R3 [R4 R5]]]]; auto.
        * intros y Hy. apply in_app_iff in Hy. apply in_app_iff. destruct Hy as [Hy|Hy]; auto.
          left. apply Hqs. simpl; auto.
        * intros y Hy Hny z Hz. rewrite in_app_iff in Hny.
          apply in_app_iff in Hy. destruct Hy as [Hy|Hy]; [|tauto].
          destruct (string_dec y x) as [->|Hne].
          -- apply in_app_iff. destruct (In_dec_name z s) as [H|H]; auto.
             right. apply Hnew. auto.
          -- apply in_app_iff. left. apply (Hdone y); auto. simpl. intros [H|H]; auto.
        * rewrite app_length in *. simpl in Hf. rewrite app_length. lia.
        * repeat split; auto.
          -- intros y Hy. apply R1. apply in_app_iff; auto.
          -- intros y Hy. destruct (R3 y Hy) as [z [Hz Hr]].
             apply in_app_iff in Hz. destruct Hz as [Hz|Hz]; eauto.
             apply Hnew in Hz. exists x. split; auto.
             assert (nreach x z) by (eapply nr_step; [constructor|tauto]).
             clear - Hr H. induction Hr as [|u v w Huv IHr Hw]; auto. eapply nr_step; [apply IHr; auto|auto].
  Qed.

  Lemma nreach_closed : forall r x y, (forall z, In z r -> incl (nbr z) r) ->
    In x r -> nreach x y -> In y r.
  Proof. intros r x y Hc Hx H. induction H as [x|x y z H IH Hz]; auto. apply (Hc y); auto. Qed.
End BFS.

Lemma nreach_succs : forall g x y, nreach (succs g) x y <-> x = y \/ path g x y.
Proof.
  intros g x y. split.
  - intros H. induction H as [x|x y z H IH Hz]; auto.
    apply succs_In in Hz. right. destruct IH as [->|IH].
    + apply path_edge; auto.
    + eapply path_snoc; eauto.
  - intros [->|H]; [constructor|].
    assert (G : forall w, nreach (succs g) w x -> nreach (succs g) w y).
    { induction H as [a b He|a b c He _ IH]; intros w Hw.
      - eapply nr_step; eauto. apply succs_In; auto.
      - apply IH. eapply nr_step; eauto. apply succs_In; auto. }
    apply G. constructor.
Qed.

Lemma nreach_preds : forall g x y, nreach (preds g) x y <-> x = y \/ path g y x.
Proof.
  intros g x y. split.
  - intros H. induction H as [x|x y z H IH Hz]; auto.
    apply preds_In in Hz. right. destruct IH as [->|IH].
    + apply path_edge; auto.
    + eapply path_step; eauto.
  - intros [->|H]; [constructor|].
    induction H as [a b He|a b c He _ IH].
    + eapply nr_step; [constructor|]. apply preds_In; auto.
    + eapply nr_step; eauto. apply preds_In; auto.
Qed.

Lemma nx_reach_spec : forall g nbr n,
  NoDup (gnodes g) -> (forall x, In x (gnodes g) -> incl (nbr x) (gnodes g)) ->
  In n (gnodes g) ->
  exists l, nx_reach g nbr n = Ok l /\ lists l (fun x => x <> n /\ nreach nbr n x).
Proof.
  intros g nbr n Hnd Hcl Hn. unfold nx_reach.
  replace (has_node g n) with true by (symmetry; apply has_node_spec; auto).
  eexists. split; [reflexivity|].
  destruct (bfs_spec nbr (S (length (gnodes g))) (gnodes g) [n] [n]) as [H1 [H2 [H3 [H4 H5]]]].
  - constructor; auto. constructor.
  - apply incl_refl.
  - intros x [->|[]]; auto.
  - auto.
  - intros x Hx Hnx. tauto.
  - simpl. lia.
  - split.
    + apply NoDup_filter. auto.
    + intros x. rewrite diff_In. split.
      * intros [Hx Hne]. split; [intros ->; apply Hne; simpl; auto|].
        destruct (H3 x Hx) as [y [[->|[]] Hr]]. auto.
      * intros [Hne Hr]. split.
        -- eapply nreach_closed; eauto. apply H1. simpl; auto.
        -- intros [H|[]]; auto.
Qed.

Lemma descendants_spec : forall g n, wf g -> In n (gnodes g) ->
  exists l, descendants g n = Ok l /\ lists l (fun x => x <> n /\ path g n x).
Proof.
  intros g n W Hn. destruct (nx_reach_spec g (succs g) n) as [l [Hl [Hd Hi]]]; auto.
  - apply W.
  - intros x Hx y Hy. apply succs_In in Hy. eapply wf_dst; eauto.
  - exists l. split; auto. split; auto. intros x. rewrite Hi, nreach_succs. intuition congruence.
Qed.

Lemma ancestors_spec : forall g n, wf g -> In n (gnodes g) ->
  exists l, ancestors g n = Ok l /\ lists l (fun x => x <> n /\ path g x n).
Proof.
  intros g n W Hn. destruct (nx_reach_spec g (preds g) n) as [l [Hl [Hd Hi]]]; auto.
  - apply W.
  - intros x Hx y Hy. apply preds_In in Hy. eapply wf_src; eauto.
  - exists l. split; auto. split; auto. intros x. rewrite Hi, nreach_preds. intuition congruence.
Qed.

Lemma ancestors_missing : forall g n, ~ In n (gnodes g) -> ancestors g n = Err NetworkXError.
Proof. intros g n H. unfold ancestors, nx_reach. apply has_node_false in H. rewrite H. auto. Qed.

Lemma descendants_missing : forall g n, ~ In n (gnodes g) -> descendants g n = Err NetworkXError.
Proof. intros g n H. unfold descendants, nx_reach. apply has_node_false in H. rewrite H. auto. Qed.

(** In an acyclic graph the node itself is never listed, so the side condition vanishes. *)
Lemma ancestors_ok : forall g n l, wf g -> acyclic g -> ancestors g n = Ok l ->
  In n (gnodes g) /\ NoDup l /\ forall x, In x l <-> path g x n.
Proof.
  intros g n l W A H. destruct (In_dec_name n (gnodes g)) as [Hn|Hn].
  - destruct (ancestors_spec g n W Hn) as [l' [Hl' [Hd Hi]]]. rewrite H in Hl'. inversion Hl'; subst.
    repeat split; auto; rewrite Hi in *; try tauto. intros Hp. split; auto. intros ->. apply (A n); auto.
  - rewrite ancestors_missing in H; auto. discriminate.
Qed.

Lemma descendants_ok : forall g n l, wf g -> acyclic g -> descendants g n = Ok l ->
  In n (gnodes g) /\ NoDup l /\ forall x, In x l <-> path g n x.
Proof.
  intros g n l W A H. destruct (In_dec_name n (gnodes g)) as [Hn|Hn].
  - destruct (descendants_spec g n W Hn) as [l' [Hl' [Hd Hi]]]. rewrite H in Hl'. inversion Hl'; subst.
    repeat split; auto; rewrite Hi in *; try tauto. intros Hp. split; auto. intros ->. apply (A n); auto.
  - rewrite descendants_missing in H; auto. discriminate.
Qed.

Lemma union_over_spec : forall (g : graph) (f : name -> res (list name)) (P : name -> name -> Prop) ns,
  (forall n, In n ns -> exists l, f n = Ok l /\ lists l (P n)) ->
  ns <> [] ->
  exists l, (do ls <- mapM f ns; set_union_star ls) = Ok l
            /\ lists l (fun x => exists n, In n ns /\ P n x).
Proof.
  intros g f P ns H Hne.
  destruct (mapM_all_ok _ _ f ns) as [ls Hls].
  { intros x Hx. destruct (H x Hx) as [l [Hl _]]. eauto. }
  rewrite Hls. simpl. apply mapM_ok in Hls.
  destruct ns as [|n ns]; [congruence|].
  inversion Hls as [|? l0 ? ls0 Hl0 Hls0]; subst.
  eexists. split; [reflexivity|].
  destruct (set_union_star_ok (l0 :: ls0) _ eq_refl) as [_ [Hd Hi]].
  split; auto. intros x. rewrite Hi. split.
  - intros [s [Hs Hx]].
    assert (G : exists m, In m (n :: ns) /\ f m = Ok s).
    { clear - Hls Hs. induction Hls as [|m l ms ls Hf Hrest IH]; [destruct Hs|].
      destruct Hs as [->|Hs]; [exists m; simpl; auto|].
      destruct (IH Hs) as [m' [Hm' Hf']]. exists m'; simpl; auto. }
    destruct G as [m [Hm Hf]]. exists m. split; auto.
    destruct (H m Hm) as [l [Hl [_ Hl']]]. rewrite Hf in Hl. inversion Hl; subst. apply Hl'; auto.
  - intros [m [Hm HP]]. destruct (H m Hm) as [l [Hl [_ Hl']]].
    exists l. split; [|apply Hl'; auto].
    clear - Hls Hm Hl. induction Hls as [|m' l' ms ls Hf Hrest IH]; [destruct Hm|].
    destruct Hm as [->|Hm]; [left; congruence|right; auto].
Qed.

Lemma union_over_missing : forall (f : name -> res (list name)) ns n e,
  In n ns -> f n = Err e -> (forall m l, In m ns -> f m = l -> (exists r, l = Ok r) \/ l = Err e) ->
  (do ls <- mapM f ns; set_union_star ls) = Err e.
Proof.
  intros f ns n e Hn He Hall.
  destruct (mapM f ns) as [ls|e'] eqn:Em.
  - apply mapM_ok in Em. exfalso. clear Hall.
    induction Em as [|m l ms ls Hf Hrest IH]; [destruct Hn|].
    destruct Hn as [->|Hn]; [congruence|auto].
  - simpl. apply mapM_err in Em. destruct Em as [m [Hm Hf]].
    destruct (Hall m _ Hm Hf) as [[r Hr]|Hr]; [discriminate|auto].
Qed.

(** ** Roots and leaves *)

Lemma roots_spec : forall g, wf g ->
  lists (roots g) (fun x => In x (gnodes g) /\ forall a, ~ edge g a x).
Proof.
  intros g W. unfold roots. split.
  - apply NoDup_filter. apply W.
  - intros x. rewrite filter_In, Nat.eqb_eq. split.
    + intros [H1 H2]. split; auto. intros a Ha. apply preds_In in Ha.
      destruct (preds g x); simpl in *; [tauto|discriminate].
    + intros [H1 H2]. split; auto. destruct (preds g x) as [|a l] eqn:E; auto.
      exfalso. apply (H2 a). apply preds_In. rewrite E. simpl; auto.
Qed.

Lemma leaves_spec : forall g, wf g ->
  lists (leaves g) (fun x => In x (gnodes g) /\ forall a, ~ edge g x a).
Proof.
  intros g W. unfold leaves. split.
  - apply NoDup_filter. apply W.
  - intros x. rewrite filter_In, Nat.eqb_eq. split.
    + intros [H1 H2]. split; auto. intros a Ha. apply succs_In in Ha.
      destruct (succs g x); simpl in *; [tauto|discriminate].
    + intros [H1 H2]. split; auto. destruct (succs g x) as [|a l] eqn:E; auto.
      exfalso. apply (H2 a). apply succs_In. rewrite E. simpl; auto.
Qed.

(** ** A finite set where every member has a predecessor in the set contains a cycle *)

Lemma no_source_cycle : forall g U,
  U <> [] -> (forall x, In x U -> exists y, In y U /\ edge g y x) -> exists x, path g x x.
Proof.
  intros g U Hne Hs.
  (* walk backwards k steps collecting a chain *)
  assert (G : forall k x, In x U -> exists l, length l = k /\ incl l U /\
             (forall l1 a l2, x :: l = l1 ++ a :: l2 -> forall b, In b l2 -> path g b a)).
  { induction k as [|k IH]; intros x Hx.
    - exists []. repeat split; auto. intros y [].
      intros l1 a l2 H b Hb. destruct l1 as [|? [|]]; inversion H; subst; destruct Hb.
    - destruct (Hs x Hx) as [y [Hy He]]. destruct (IH y Hy) as [l [Hl [Hi Hp]]].
      exists (y :: l). repeat split; simpl; auto.
      + intros z [->|Hz]; auto.
      + intros l1 a l2 H b Hb. destruct l1 as [|c l1]; simpl in H; inversion H; subst.
        * destruct Hb as [->|Hb]; [apply path_edge; auto|].
          eapply path_snoc; [|exact He]. eapply (Hp []); simpl; eauto.
        * eapply Hp; eauto. }
  destruct U as [|x0 U]; [congruence|].
  destruct (G (length (x0 :: U)) x0) as [l [Hl [Hi Hp]]]; [simpl; auto|].
  assert (Hdup : ~ NoDup (x0 :: l)).
  { intros Hnd. assert (length (x0 :: l) <= length (x0 :: U)).
    { apply NoDup_incl_length; auto. intros z [->|Hz]; simpl; auto. apply Hi; auto. }
    simpl in *. lia. }
  (* a duplicate gives a cycle *)
  assert (D : exists a l1 l2, x0 :: l = l1 ++ a :: l2 /\ In a l2).
  { clear - Hdup. induction (x0 :: l) as [|y m IH].
    - exfalso. apply Hdup. constructor.
    - destruct (In_dec_name y m) as [Hy|Hy].
      + exists y, [], m. auto.
      + destruct IH as [a [l1 [l2 [E Ha]]]].
        * intros Hm. apply Hdup. constructor; auto.
        * exists a, (y :: l1), l2. rewrite E. auto. }
  destruct D as [a [l1 [l2 [E Ha]]]]. exists a. eapply Hp; eauto.
Qed.

Lemma no_sink_cycle : forall g U,
  U <> [] -> (forall x, In x U -> exists y, In y U /\ edge g x y) -> exists x, path g x x.
Proof.
  intros g U Hne Hs.
  set (g' := mkGraph (gnodes g) (map (fun e => (snd e, fst e)) (gedges g))).
  assert (He : forall a b, edge g' a b <-> edge g b a).
  { intros a b. unfold edge, g'. simpl. rewrite in_map_iff. split.
    - intros [[u v] [H1 H2]]. inversion H1; subst. auto.
    - intros H. exists (b, a). auto. }
  destruct (no_source_cycle g' U Hne) as [x Hx].
  { intros x Hx. destruct (Hs x Hx) as [y [Hy H]]. exists y. split; auto. apply He; auto. }
  exists x.
  assert (G : forall a b, path g' a b -> path g b a).
  { intros a b H. induction H as [a b H|a b c H _ IH].
    - apply path_edge. apply He; auto.
    - eapply path_snoc; eauto. apply He; auto. }
  apply G; auto.
Qed.

(** ** Kahn's algorithm *)

Definition waiting (g : graph) (out : list name) (v : name) : nat :=
  length (filter (fun p => negb (mem p out)) (preds g v)).

Definition topo_prefix (g : graph) (l : list name) : Prop :=
  forall l1 v l2, l = l1 ++ v :: l2 -> forall p, edge g p v -> In p l1.

(** effect of decrementing the in-degree of a duplicate-free list of children *)
Lemma dec_children_spec : forall chd indeg d new,
  NoDup chd -> NoDup (dkeys indeg) ->
  (forall c, In c chd -> exists k, dget indeg c = Some (S k)) ->
  dec_children indeg chd = (d, new) ->
  NoDup new /\ NoDup (dkeys d)
  /\ (forall c, In c new <-> In c chd /\ dget indeg c = Some 1)
  /\ (forall v, dget d v = if mem v chd
                            then match dget indeg v with
                                 | Some (S (S k)) => Some (S k)
                                 | _ => None end
                            else dget indeg v).
Proof.
  induction chd as [|c chd IH]; intros indeg d new Hc Hi Hk H; simpl in H.
  - inversion H; subst. split; [constructor|]. split; auto. split; [simpl; tauto|].
    intros v. simpl. auto.
  - inversion Hc as [|? ? Hnc Hc']; subst.
    destruct (Hk c) as [k Hck]; [simpl; auto|]. rewrite Hck in H.
    destruct (Nat.eqb k 0) eqn:Ek.
    + apply Nat.eqb_eq in Ek. subst k.
      destruct (dec_children (ddel indeg c) chd) as [d' new'] eqn:E. inversion H; subst; clear H.
      destruct (IH (ddel indeg c) d new') as [H1 [H2 [H3 H4]]]; auto.
      { apply NoDup_ddel; auto. }
      { intros c' Hc''. destruct (Hk c') as [k' Hk']; [simpl; auto|].
        exists k'. rewrite dget_ddel. destruct (String.eqb c' c) eqn:Ec; auto.
        apply String.eqb_eq in Ec. subst. tauto. }
      split; [|split; [auto|split]].
      * constructor; auto. rewrite H3. tauto.
      * intros c0. simpl. rewrite H3, dget_ddel. split.
        -- intros [->|[H5 H6]]; auto. destruct (String.eqb c0 c) eqn:Ec; [discriminate|auto].
        -- intros [[->|H5] H6]; auto. right. split; auto.
           destruct (String.eqb c0 c) eqn:Ec; auto. apply String.eqb_eq in Ec. subst. tauto.
      * intros v. rewrite H4, dget_ddel. unfold mem at 2. simpl. fold (mem v chd).
        destruct (String.eqb v c) eqn:Ec; simpl; auto.
        apply String.eqb_eq in Ec. subst. rewrite Hck. destruct (mem c chd); auto.
    + apply Nat.eqb_neq in Ek.
      destruct (IH (dset indeg c k) d new) as [H1 [H2 [H3 H4]]]; auto.
      { apply NoDup_dset; auto. }
      { intros c' Hc''. destruct (Hk c') as [k' Hk']; [simpl; auto|].
        exists k'. rewrite dget_dset. destruct (String.eqb c' c) eqn:Ec; auto.
        apply String.eqb_eq in Ec. subst. tauto. }
      split; [auto|split; [auto|split]].
      * intros c0. simpl. rewrite H3, dget_dset. split.
        -- intros [H5 H6]. destruct (String.eqb c0 c) eqn:Ec; auto.
           apply String.eqb_eq in Ec. subst. tauto.
        -- intros [[->|H5] H6]; [rewrite Hck in H6; inversion H6; lia|].
           split; auto. destruct (String.eqb c0 c) eqn:Ec; auto. apply String.eqb_eq in Ec. subst. tauto.
      * intros v. rewrite H4, dget_dset. unfold mem at 2. simpl. fold (mem v chd).
        destruct (String.eqb v c) eqn:Ec; simpl; auto.
        apply String.eqb_eq in Ec. subst. rewrite Hck.
        replace (mem c chd) with false by (symmetry; apply mem_false; auto).
        destruct k; [lia|auto].
Qed.

Lemma filter_length_le : forall (A : Type) (f : A -> bool) l, length (filter f l) <= length l.
Proof. intros A f l. induction l as [|x l IH]; simpl; auto. destruct (f x); simpl; lia. Qed.

(** marking [x] as processed reduces the waiting count of its children by one *)
Lemma waiting_snoc : forall g out x v, NoDup (gedges g) -> ~ In x out ->
  waiting g (out ++ [x]) v = if has_edge g x v then waiting g out v - 1 else waiting g out v.
Proof.
  intros g out x v Hn Hx. unfold waiting.
  assert (G : forall l, NoDup l ->
     length (filter (fun p => negb (mem p (out ++ [x]))) l) =
     if mem x l then length (filter (fun p => negb (mem p out)) l) - 1
     else length (filter (fun p => negb (mem p out)) l)).
  { assert (Hm : forall p, mem p (out ++ [x]) = mem p out || String.eqb p x).
    { intros p. unfold mem. rewrite existsb_app. simpl. rewrite orb_false_r. auto. }
    assert (Hmx : mem x out = false) by (apply mem_false; auto).
    induction l as [|p l IH]; intros Hl; [reflexivity|].
    inversion Hl as [|? ? Hp Hl']; subst. specialize (IH Hl'). cbn [filter]. rewrite Hm.
    change (mem x (p :: l)) with (String.eqb x p || mem x l).
    destruct (String.eqb x p) eqn:E.
    - apply String.eqb_eq in E. subst p. rewrite String.eqb_refl, orb_true_r, Hmx. simpl.
      replace (mem x l) with false in IH by (symmetry; apply mem_false; auto). rewrite IH. lia.
    - rewrite String.eqb_sym in E. rewrite E, orb_false_r. simpl.
      destruct (mem p out) eqn:Ep; simpl; auto.
      rewrite IH. destruct (mem x l) eqn:Em; auto.
      assert (1 <= length (filter (fun p => negb (mem p out)) l)).
      { apply mem_In in Em. apply in_split in Em. destruct Em as [a [b ->]].
        rewrite filter_app, app_length. simpl. rewrite Hmx. simpl. lia. }
      lia. }
  rewrite G; [|apply preds_NoDup; auto].
  assert (mem x (preds g v) = has_edge g x v).
  { destruct (has_edge g x v) eqn:E.
    - apply mem_In, preds_In, has_edge_spec; auto.
    - apply mem_false. rewrite preds_In, <- has_edge_spec. congruence. }
  rewrite H. auto.
Qed.

Lemma waiting_zero : forall g out v, waiting g out v = 0 <-> forall p, edge g p v -> In p out.
Proof.
  intros g out v. unfold waiting. split.
  - intros H p Hp. apply preds_In in Hp. destruct (In_dec_name p out) as [Hi|Hi]; auto.
    apply length_zero_iff_nil in H.
    assert (Hf : In p (filter (fun p => negb (mem p out)) (preds g v))).
    { apply filter_In. split; auto. apply negb_true_iff, mem_false; auto. }
    rewrite H in Hf. destruct Hf.
  - intros H. destruct (filter (fun p => negb (mem p out)) (preds g v)) as [|p l] eqn:E; auto.
    assert (Hf : In p (filter (fun p => negb (mem p out)) (preds g v))) by (rewrite E; simpl; auto).
    apply filter_In in Hf. destruct Hf as [Hp Hm]. apply preds_In in Hp.
    apply negb_true_iff, mem_false in Hm. exfalso. auto.
Qed.

(** invariant of the loop *)
Record kinv (g : graph) (indeg : dict nat) (queue out : list name) : Prop := mkKinv {
  ki_nodup : NoDup (out ++ queue);
  ki_sub : incl (out ++ queue) (gnodes g);
  ki_dn : NoDup (dkeys indeg);
  ki_deg : forall v, In v (gnodes g) -> ~ In v (out ++ queue) ->
             dget indeg v = Some (waiting g out v) /\ 0 < waiting g out v;
  ki_keys : forall v, In v (dkeys indeg) -> In v (gnodes g) /\ ~ In v (out ++ queue);
  ki_topo : topo_prefix g out;
  ki_ready : forall v, In v queue -> forall p, edge g p v -> In p out
}.

Lemma topo_prefix_snoc : forall g l v, topo_prefix g l -> (forall p, edge g p v -> In p l) ->
  topo_prefix g (l ++ [v]).
Proof.
  intros g l v H Hv l1 w l2 E p Hp.
  destruct (exists_last (l := w :: l2)) as [l2' [w' E2]]; [discriminate|].
  rewrite E2 in E. rewrite app_assoc in E. apply app_inj_tail in E. destruct E as [E1 E3]. subst w'.
  destruct l2' as [|y l2'].
  - simpl in E2. inversion E2; subst. rewrite app_nil_r in Hv. auto.
  - simpl in E2. inversion E2; subst. eapply H; eauto.
Qed.

Lemma kahn_spec : forall fuel g indeg queue out,
  wf g -> kinv g indeg queue out ->
  length (gnodes g) - length out <= fuel ->
  match kahn fuel g indeg queue out with
  | Ok l => NoDup l /\ (forall x, In x l <-> In x (gnodes g)) /\ topo_prefix g l
  | Err e => e = NetworkXUnfeasible /\ exists x, path g x x
  end.
Proof.
  induction fuel as [|f IH]; intros g indeg queue out W K Hf.
  - destruct queue as [|x q].
    + simpl. destruct indeg as [|[v k] indeg'].
      * destruct K as [K1 K2 K3 K4 K5 K6 K7]. rewrite app_nil_r in *. repeat split; auto.
        intros Hx. destruct (In_dec_name x out) as [Ho|Ho]; auto.
        destruct (K4 x Hx Ho) as [H _]. discriminate.
      * split; auto.
        apply (no_source_cycle g (dkeys ((v, k) :: indeg'))); [discriminate|].
        intros x Hx. destruct K as [K1 K2 K3 K4 K5 K6 K7]. rewrite app_nil_r in *.
        destruct (K5 x Hx) as [Hg Ho]. destruct (K4 x Hg Ho) as [Hd Hw].
        assert (Hex : exists p, edge g p x /\ ~ In p out).
        { unfold waiting in Hw. destruct (filter (fun p => negb (mem p out)) (preds g x)) as [|p l] eqn:E; [simpl in Hw; lia|].
          assert (Hp : In p (filter (fun p => negb (mem p out)) (preds g x))) by (rewrite E; simpl; auto).
          apply filter_In in Hp. destruct Hp as [Hp Hm]. apply preds_In in Hp.
          apply negb_true_iff, mem_false in Hm. eauto. }
        destruct Hex as [p [Hp Hpo]]. exists p. split; auto.
        assert (Hpg : In p (gnodes g)) by (eapply wf_src; eauto).
        destruct (K4 p Hpg Hpo) as [Hdp _]. apply dget_In. eauto.
    + exfalso. destruct K as [K1 K2 K3 K4 K5 K6 K7].
      assert (length (out ++ x :: q) <= length (gnodes g)) by (apply NoDup_incl_length; auto).
      rewrite app_length in H. simpl in H. lia.
  - destruct queue as [|x q].
    + simpl. destruct indeg as [|[v k] indeg'].
      * destruct K as [K1 K2 K3 K4 K5 K6 K7]. rewrite app_nil_r in *. repeat split; auto.
        intros Hx. destruct (In_dec_name x out) as [Ho|Ho]; auto.
        destruct (K4 x Hx Ho) as [H _]. discriminate.
      * split; auto.
        apply (no_source_cycle g (dkeys ((v, k) :: indeg'))); [discriminate|].
        intros x Hx. destruct K as [K1 K2 K3 K4 K5 K6 K7]. rewrite app_nil_r in *.
        destruct (K5 x Hx) as [Hg Ho]. destruct (K4 x Hg Ho) as [Hd Hw].
        assert (Hex : exists p, edge g p x /\ ~ In p out).
        { unfold waiting in Hw. destruct (filter (fun p => negb (mem p out)) (preds g x)) as [|p l] eqn:E; [simpl in Hw; lia|].
          assert (Hp : In p (filter (fun p => negb (mem p out)) (preds g x))) by (rewrite E; simpl; auto).
          apply filter_In in Hp. destruct Hp as [Hp Hm]. apply preds_In in Hp.
          apply negb_true_iff, mem_false in Hm. eauto. }
        destruct Hex as [p [Hp Hpo]]. exists p. split; auto.
        assert (Hpg : In p (gnodes g)) by (eapply wf_src; eauto).
        destruct (K4 p Hpg Hpo) as [Hdp _]. apply dget_In. eauto.
    + simpl. destruct (dec_children indeg (succs g x)) as [d new] eqn:E.
      destruct K as [K1 K2 K3 K4 K5 K6 K7].
      assert (Hxo : ~ In x out).
      { apply NoDup_app_elim in K1. destruct K1 as [_ [_ K1]]. intros H. apply (K1 x H). simpl; auto. }
      (* children of x are still waiting *)
      assert (Hch : forall c, edge g x c -> In c (gnodes g) /\ ~ In c (out ++ x :: q)).
      { intros c Hc. split; [eapply wf_dst; eauto|]. intros Hi. apply in_app_iff in Hi.
        destruct Hi as [Hi|Hi].
        - apply in_split in Hi. destruct Hi as [l1 [l2 ->]].
          assert (In x l1) by (eapply K6; eauto). apply Hxo. apply in_app_iff; auto.
        - apply Hxo. eapply K7; eauto. }
      destruct (dec_children_spec (succs g x) indeg d new) as [D1 [D2 [D3 D4]]]; auto.
      { apply succs_NoDup. apply W. }
      { intros c Hc. apply succs_In in Hc. destruct (Hch c Hc) as [Hg Ho].
        destruct (K4 c Hg Ho) as [Hd Hw]. exists (waiting g out c - 1). rewrite Hd. f_equal. lia. }
      assert (Hsub : forall v, In v ((out ++ [x]) ++ q ++ new) <-> In v (out ++ x :: q) \/ In v new).
      { intros v. rewrite !in_app_iff. simpl. tauto. }
      apply IH; auto.
      * constructor; auto.
        -- replace ((out ++ [x]) ++ q ++ new) with ((out ++ x :: q) ++ new)
             by (rewrite <- !app_assoc; reflexivity).
           apply NoDup_app_intro; auto.
           intros y Hy Hyn. apply D3 in Hyn. destruct Hyn as [Hyn _]. apply succs_In in Hyn.
           destruct (Hch y Hyn). tauto.
        -- intros v Hv. apply Hsub in Hv. destruct Hv as [Hv|Hv]; auto.
           apply D3 in Hv. destruct Hv as [Hv _]. apply succs_In in Hv. eapply wf_dst; eauto.
        -- intros v Hv Hnv. rewrite Hsub in Hnv.
           assert (Hnv' : ~ In v (out ++ x :: q)) by tauto.
           destruct (K4 v Hv Hnv') as [Hd Hw].
           rewrite waiting_snoc; [|apply W|auto]. rewrite D4.
           destruct (has_edge g x v) eqn:Ee.
           ++ replace (mem v (succs g x)) with true
                by (symmetry; apply mem_In, succs_In, has_edge_spec; auto).
              rewrite Hd. destruct (waiting g out v) as [|[|k]] eqn:Ew; try lia.
              ** exfalso. apply Hnv. right. apply D3. split; [apply succs_In, has_edge_spec; auto|auto].
              ** simpl. split; [f_equal; lia|lia].
           ++ replace (mem v (succs g x)) with false; auto.
              symmetry. apply mem_false. rewrite succs_In. apply has_edge_false; auto.
        -- intros v Hv. rewrite Hsub. apply dget_In in Hv. destruct Hv as [k Hk]. rewrite D4 in Hk.
           assert (Hin : In v (dkeys indeg)).
           { apply dget_In. destruct (mem v (succs g x)); [|eauto].
             destruct (dget indeg v) as [[|[|?]]|]; try discriminate; eauto. }
           destruct (K5 v Hin) as [Hg Ho]. split; auto. intros [H|H]; auto.
           apply D3 in H. destruct H as [H1 H2].
           replace (mem v (succs g x)) with true in Hk by (symmetry; apply mem_In; auto).
           rewrite H2 in Hk. discriminate.
        -- apply topo_prefix_snoc; auto. intros p Hp. apply (K7 x); simpl; auto.
        -- intros v Hv p Hp. apply in_app_iff. apply in_app_iff in Hv. destruct Hv as [Hv|Hv].
           ++ left. apply (K7 v); simpl; auto.
           ++ apply D3 in Hv. destruct Hv as [Hv1 Hv2]. apply succs_In in Hv1.
              destruct (Hch v Hv1) as [Hg Ho]. destruct (K4 v Hg Ho) as [Hd Hw].
              rewrite Hd in Hv2. inversion Hv2 as [Hw1].
              assert (Hz : waiting g (out ++ [x]) v = 0).
              { rewrite waiting_snoc; [|apply W|auto].
                replace (has_edge g x v) with true by (symmetry; apply has_edge_spec; auto). lia. }
              rewrite waiting_zero in Hz. specialize (Hz p Hp). apply in_app_iff in Hz. auto.
      * rewrite app_length. simpl. lia.
Qed.

Lemma order_spec : forall g, wf g ->
  match order g with
  | Ok l => NoDup l /\ (forall x, In x l <-> In x (gnodes g)) /\ topo_prefix g l
  | Err e => e = NetworkXUnfeasible /\ exists x, path g x x
  end.
Proof.
  intros g W. unfold order. apply kahn_spec; auto; [|lia].
  assert (Hk : dkeys (map (fun n => (n, in_degree g n))
             (filter (fun n => negb (Nat.eqb (in_degree g n) 0)) (gnodes g)))
          = filter (fun n => negb (Nat.eqb (in_degree g n) 0)) (gnodes g)).
  { unfold dkeys. rewrite map_map. simpl. apply map_id. }
  constructor; simpl.
  - apply NoDup_filter. apply W.
  - intros x Hx. apply filter_In in Hx. tauto.
  - rewrite Hk. apply NoDup_filter. apply W.
  - intros v Hv Hn.
    assert (Hw : waiting g [] v = in_degree g v).
    { unfold waiting, in_degree. induction (preds g v) as [|y l IHl]; simpl; auto. }
    assert (Hpos : in_degree g v <> 0).
    { intros H. apply Hn. apply filter_In. split; auto. apply Nat.eqb_eq; auto. }
    rewrite Hw. split; [|lia].
    apply in_pair_dget.
    + rewrite Hk. apply NoDup_filter. apply W.
    + apply in_map_iff. exists v. split; auto. apply filter_In. split; auto.
      apply negb_true_iff, Nat.eqb_neq. auto.
  - intros v Hv. rewrite Hk in Hv. apply filter_In in Hv. destruct Hv as [Hv H]. split; auto.
    intros H'. apply filter_In in H'. destruct H' as [_ H']. rewrite H' in H. discriminate.
  - intros l1 v l2 H. destruct l1; discriminate.
  - intros v Hv p Hp. apply filter_In in Hv. destruct Hv as [_ Hv]. apply Nat.eqb_eq in Hv.
    unfold in_degree in Hv. apply preds_In in Hp. destruct (preds g v); [destruct Hp|discriminate].
Qed.

Lemma topo_prefix_before : forall g l a b, topo_prefix g l -> edge g a b -> In b l -> before l a b.
Proof.
  intros g l a b H He Hb. apply in_split in Hb. destruct Hb as [l1 [l2 ->]].
  assert (Ha : In a l1) by (eapply H; eauto). apply in_split in Ha. destruct Ha as [m1 [m2 ->]].
  exists m1, m2, l2. rewrite <- app_assoc. auto.
Qed.

Lemma topo_prefix_path : forall g l a b, wf g -> NoDup l -> (forall x, In x l <-> In x (gnodes g)) ->
  topo_prefix g l -> path g a b -> before l a b.
Proof.
  intros g l a b W Hn Hi Ht Hp. induction Hp as [a b He|a b c He Hp IH].
  - eapply topo_prefix_before; eauto. apply Hi. eapply wf_dst; eauto.
  - eapply before_trans; eauto. eapply topo_prefix_before; eauto. apply Hi. eapply wf_dst; eauto.
Qed.

Lemma order_ok : forall g l, wf g -> order g = Ok l ->
  acyclic g /\ NoDup l /\ (forall x, In x l <-> In x (gnodes g)) /\ topo_prefix g l.
Proof.
  intros g l W H. pose proof (order_spec g W) as S. rewrite H in S. destruct S as [S1 [S2 S3]].
  split; [|auto]. intros x Hx.
  apply (before_neq _ l x x); auto. eapply topo_prefix_path; eauto.
Qed.

Lemma order_total : forall g, wf g -> acyclic g -> exists l, order g = Ok l.
Proof.
  intros g W A. pose proof (order_spec g W) as S. destruct (order g) as [l|e]; eauto.
  destruct S as [_ [x Hx]]. exfalso. apply (A x); auto.
Qed.

Lemma order_err : forall g e, wf g -> order g = Err e -> e = NetworkXUnfeasible /\ ~ acyclic g.
Proof.
  intros g e W H. pose proof (order_spec g W) as S. rewrite H in S. destruct S as [-> [x Hx]].
  split; auto. intros A. apply (A x); auto.
Qed.

Lemma order_topo : forall g l, wf g -> order g = Ok l -> topo g l (fun x => In x (gnodes g)).
Proof.
  intros g l W H. destruct (order_ok g l W H) as [A [Hn [Hi Ht]]]. split; [split; auto|].
  intros a b He Ha Hb. eapply topo_prefix_before; eauto.
Qed.

Lemma order_before_path : forall g l a b, wf g -> order g = Ok l -> path g a b -> before l a b.
Proof.
  intros g l a b W H. destruct (order_ok g l W H) as [A [Hn [Hi Ht]]].
  intros. eapply topo_prefix_path; eauto.
Qed.

Lemma check_acyclic_spec : forall g, wf g -> (check_acyclic g = true <-> acyclic g).
Proof.
  intros g W. unfold check_acyclic. split.
  - destruct (order g) as [l|e] eqn:E; [|discriminate]. intros _. eapply order_ok; eauto.
  - intros A. destruct (order_total g W A) as [l ->]. auto.
Qed.

Lemma acyclic_dec : forall g, wf g -> acyclic g \/ exists x, path g x x.
Proof.
  intros g W. pose proof (order_spec g W) as S. destruct (order g) as [l|e] eqn:E.
  - left. eapply order_ok; eauto.
  - right. tauto.
Qed.

Lemma sort_spec : forall g ns, wf g -> acyclic g ->
  exists l, sort g ns = Ok l /\ topo g l (fun x => In x ns /\ In x (gnodes g)).
Proof.
  intros g ns W A. destruct (order_total g W A) as [od Hod]. unfold sort. rewrite Hod. simpl.
  eexists. split; [reflexivity|].
  destruct (order_ok g od W Hod) as [_ [Hn [Hi Ht]]]. split; [split|].
  - apply NoDup_filter; auto.
  - intros x. rewrite filter_In, mem_In, Hi. tauto.
  - intros a b He Ha Hb. apply before_filter. apply filter_In in Ha, Hb.
    repeat split; try tauto. eapply topo_prefix_before; eauto. tauto.
Qed.

Lemma sort_cyclic : forall g ns, wf g -> ~ acyclic g -> sort g ns = Err NetworkXUnfeasible.
Proof.
  intros g ns W A. unfold sort. destruct (order g) as [l|e] eqn:E.
  - exfalso. apply A. eapply order_ok; eauto.
  - apply order_err in E; auto. destruct E as [-> _]. auto.
Qed.

Lemma sort_ok : forall g ns l, wf g -> sort g ns = Ok l ->
  acyclic g /\ topo g l (fun x => In x ns /\ In x (gnodes g)).
Proof.
  intros g ns l W H.
  destruct (acyclic_dec g W) as [A|[x Hx]].
  - split; auto. destruct (sort_spec g ns W A) as [l' [Hl' Ht]]. rewrite H in Hl'. inversion Hl'; subst; auto.
  - rewrite sort_cyclic in H; auto; [discriminate|]. intros A. apply (A x); auto.
Qed.

(** ** Well-formedness of the editing operations *)

Lemma wf_gempty : wf gempty.
Proof. constructor; simpl; try constructor; unfold edge; simpl; tauto. Qed.

Lemma add_edge_edge : forall g a b x y, edge (add_edge g a b) x y <-> edge g x y \/ (x = a /\ y = b).
Proof.
  intros g a b x y. unfold add_edge, edge. simpl. destruct (has_edge g a b) eqn:E.
  - apply has_edge_spec in E. split; auto. intros [H|[-> ->]]; auto.
  - rewrite in_app_iff. simpl. split; intros [H|H]; auto.
    + destruct H as [H|[]]. inversion H; auto.
    + destruct H as [-> ->]; auto.
Qed.

Lemma del_node_edge : forall g n x y, edge (del_node g n) x y <-> edge g x y /\ x <> n /\ y <> n.
Proof.
  intros g n x y. unfold del_node, edge. simpl. rewrite filter_In, andb_true_iff, !negb_true_iff, !String.eqb_neq.
  simpl. intuition congruence.
Qed.

Lemma del_node_nodes : forall g n x, In x (gnodes (del_node g n)) <-> In x (gnodes g) /\ x <> n.
Proof.
  intros g n x. unfold del_node. simpl. rewrite filter_In, negb_true_iff, String.eqb_neq. intuition congruence.
Qed.

Lemma del_edge_edge : forall g a b x y, edge (del_edge g a b) x y <-> edge g x y /\ ~ (x = a /\ y = b).
Proof.
  intros g a b x y. unfold del_edge, edge. simpl. rewrite filter_In, negb_true_iff, edge_eqb_neq.
  split; intros [H1 H2]; split; auto.
  - intros [-> ->]. auto.
  - intros H. inversion H; subst. auto.
Qed.

Lemma wf_add_node : forall g n, wf g -> wf (add_node g n).
Proof.
  intros g n W. constructor; simpl.
  - apply sadd_NoDup. apply W.
  - apply W.
  - intros a b H. apply sadd_In. right. eapply wf_src; eauto.
  - intros a b H. apply sadd_In. right. eapply wf_dst; eauto.
Qed.

Lemma wf_add_edge : forall g a b, wf g -> wf (add_edge g a b).
Proof.
  intros g a b W. constructor.
  - simpl. apply sadd_NoDup, sadd_NoDup. apply W.
  - simpl. destruct (has_edge g a b) eqn:E; [apply W|].
    apply NoDup_app_intro; [apply W|constructor; auto; constructor|].
    intros e He [<-|[]]. apply has_edge_false in E. auto.
  - intros x y H. apply add_edge_edge in H. simpl. rewrite !sadd_In.
    destruct H as [H|[-> ->]]; auto. right; right. eapply wf_src; eauto.
  - intros x y H. apply add_edge_edge in H. simpl. rewrite !sadd_In.
    destruct H as [H|[-> ->]]; auto. right; right. eapply wf_dst; eauto.
Qed.

Lemma wf_del_node : forall g n, wf g -> wf (del_node g n).
Proof.
  intros g n W. constructor.
  - simpl. apply NoDup_filter. apply W.
  - simpl. apply NoDup_filter. apply W.
  - intros x y H. apply del_node_edge in H. apply del_node_nodes. split; [|tauto]. eapply wf_src; eauto. apply H.
  - intros x y H. apply del_node_edge in H. apply del_node_nodes. split; [|tauto]. eapply wf_dst; eauto. apply H.
Qed.

Lemma wf_del_edge : forall g a b, wf g -> wf (del_edge g a b).
Proof.
  intros g a b W. constructor.
  - apply W.
  - simpl. apply NoDup_filter. apply W.
  - intros x y H. apply del_edge_edge in H. simpl. eapply wf_src; eauto. apply H.
  - intros x y H. apply del_edge_edge in H. simpl. eapply wf_dst; eauto. apply H.
Qed.

(** ** Removing edges around a node *)

Lemma children_ok : forall g n, In n (gnodes g) ->
  children g n = Ok (to_set (succs g n)).
Proof. intros g n H. unfold children. apply has_node_spec in H. rewrite H. auto. Qed.

Lemma parents_ok : forall g n, In n (gnodes g) ->
  parents g n = Ok (to_set (preds g n)).
Proof. intros g n H. unfold parents. apply has_node_spec in H. rewrite H. auto. Qed.

(** removing a duplicate-free list of existing edges one by one *)
Lemma remove_edges_fold : forall (A : Type) (ea eb : A -> name) (cs : list A) g,
  wf g ->
  NoDup (map (fun c => (ea c, eb c)) cs) ->
  (forall c, In c cs -> edge g (ea c) (eb c)) ->
  exists g', foldM (fun g c => remove_edge g (ea c) (eb c)) cs g = Ok g'
    /\ wf g' /\ gnodes g' = gnodes g
    /\ forall x y, edge g' x y <-> edge g x y /\ ~ exists c, In c cs /\ x = ea c /\ y = eb c.
Proof.
  intros A ea eb cs. induction cs as [|c cs IH]; intros g W Hn He; simpl.
  - exists g. splits; auto. intros x y. split; [|tauto]. intros H. split; auto. intros [c [[] _]].
  - assert (Hr : remove_edge g (ea c) (eb c) = Ok (del_edge g (ea c) (eb c))).
    { unfold remove_edge. replace (has_edge g (ea c) (eb c)) with true; auto.
      symmetry; apply has_edge_spec; apply He; simpl; auto. }
    rewrite Hr. simpl. inversion Hn as [|? ? Hx Hn']; subst.
    destruct (IH (del_edge g (ea c) (eb c))) as [g' [Hg' [W' [Hnod Hed]]]]; auto.
    + apply wf_del_edge; auto.
    + intros d Hd. apply del_edge_edge. split; [apply He; simpl; auto|].
      intros [E1 E2]. apply Hx. apply in_map_iff. exists d. split; auto. congruence.
    + exists g'. splits; auto. intros x y. rewrite Hed, del_edge_edge. split.
      * intros [[H1 H2] H3]. split; auto.
        intros [d [[->|Hd] E]]; [tauto|]. apply H3. eauto.
      * intros [H1 H2]. splits; auto.
        -- intros E. apply H2. exists c. simpl; auto.
        -- intros [d [Hd E]]. apply H2. exists d. simpl; auto.
Qed.

Lemma remove_out_edges_spec : forall g n, wf g -> In n (gnodes g) ->
  exists g', remove_out_edges g n = Ok g' /\ wf g' /\ gnodes g' = gnodes g
    /\ forall x y, edge g' x y <-> edge g x y /\ x <> n.
Proof.
  intros g n W Hn. unfold remove_out_edges. rewrite children_ok; auto. simpl.
  destruct (remove_edges_fold name (fun _ => n) (fun c => c) (to_set (succs g n)) g) as [g' [H1 [H2 [H3 H4]]]]; auto.
  - assert (G : forall l : list name, NoDup l -> NoDup (map (fun c => (n, c)) l)).
    { induction l as [|z l IH]; intros Hl; simpl; constructor; inversion Hl; subst; auto.
      rewrite in_map_iff. intros [w [E Hw]]. inversion E; subst. auto. }
    apply G. apply to_set_NoDup.
  - intros c Hc. apply to_set_In, succs_In in Hc. auto.
  - exists g'. splits; auto. intros x y. rewrite H4. split.
    + intros [H H']. split; auto. intros ->. apply H'. exists y. rewrite to_set_In, succs_In. auto.
    + intros [Ha Hb]. split; auto. intros [c [Hc [E1 E2]]]. auto.
Qed.

Lemma remove_in_edges_fails : forall g n a, wf g -> acyclic g -> edge g a n ->
  remove_in_edges g n = (Err NetworkXError, g).
Proof.
  intros g n a W A He. unfold remove_in_edges.
  rewrite parents_ok by (eapply wf_dst; eauto).
  destruct (to_set (preds g n)) as [|p ps] eqn:E.
  - exfalso. assert (In a (to_set (preds g n))) by (apply to_set_In, preds_In; auto).
    rewrite E in H. destruct H.
  - simpl. assert (Hp : edge g p n).
    { apply preds_In. apply to_set_In. rewrite E. simpl; auto. }
    unfold remove_edge. replace (has_edge g n p) with false; auto.
    symmetry. apply has_edge_false. intros H. apply (A n). eapply path_step; eauto. apply path_edge; auto.
Qed.

Lemma remove_in_edges_root : forall g n, In n (gnodes g) -> (forall a, ~ edge g a n) ->
  remove_in_edges g n = (Ok tt, g).
Proof.
  intros g n Hn H. unfold remove_in_edges. rewrite parents_ok; auto.
  destruct (preds g n) as [|p ps] eqn:E; simpl; auto.
  exfalso. apply (H p). apply preds_In. rewrite E. simpl; auto.
Qed.

(** ** remove_upstream / remove_downstream *)

Section RemoveStream.
  (** common loop: process a list [od] of nodes, deleting those for which the
      reach set meets [ns] *)
  Variable ns : list name.

  Lemma inter_nonempty : forall l, Nat.eqb (length (inter ns l)) 0 = false <-> exists x, In x ns /\ In x l.
  Proof.
    intros l. rewrite Nat.eqb_neq. split.
    - intros H. destruct (inter ns l) as [|x m] eqn:E; [simpl in H; lia|].
      exists x. apply inter_In. rewrite E. simpl; auto.
    - intros [x Hx]. apply inter_In in Hx. intros H. apply length_zero_iff_nil in H. rewrite H in Hx. destruct Hx.
  Qed.

  Lemma inter_empty : forall l, Nat.eqb (length (inter ns l)) 0 = true <-> forall x, In x ns -> ~ In x l.
  Proof.
    intros l. destruct (Nat.eqb (length (inter ns l)) 0) eqn:E; split; auto; try congruence.
    - intros _ x H1 H2. assert (Nat.eqb (length (inter ns l)) 0 = false) by (apply inter_nonempty; eauto). congruence.
    - intros H. apply inter_nonempty in E. destruct E as [x [H1 H2]]. exfalso. eapply H; eauto.
  Qed.
End RemoveStream.

(** state of remove_upstream after processing the prefix [done] of the order:
    exactly the processed outside nodes with a listed parent are gone *)
Definition removed_children (g : graph) (ns done : list name) (x : name) : Prop :=
  In x done /\ ~ In x ns /\ exists p, In p ns /\ edge g p x.

Lemma remove_upstream_loop : forall g ns, wf g -> acyclic g -> incl ns (gnodes g) ->
  forall rest done od g1, order g = Ok od -> od = done ++ rest ->
  wf g1 ->
  (forall x, In x (gnodes g1) <-> In x (gnodes g) /\ ~ removed_children g ns done x) ->
  (forall x y, edge g1 x y <-> edge g x y /\ ~ removed_children g ns done x /\ ~ removed_children g ns done y) ->
  exists g', foldM (fun g s =>
           if mem s ns then Ok g
           else do anc <- ancestors g s;
                if Nat.eqb (length (inter ns anc)) 0 then Ok g else remove_node g s) rest g1 = Ok g'
   /\ wf g'
   /\ (forall x, In x (gnodes g') <-> In x (gnodes g) /\ ~ removed_children g ns od x)
   /\ (forall x y, edge g' x y <-> edge g x y /\ ~ removed_children g ns od x /\ ~ removed_children g ns od y).
Proof.
  intros g ns W A Hns. induction rest as [|s rest IH]; intros done od g1 Hod E W1 Hnod Hed.
  - rewrite app_nil_r in E. subst. exists g1. auto.
  - pose proof Hod as Hod'. apply order_ok in Hod'; auto. destruct Hod' as [_ [Hnd [Hin Htp]]].
    assert (Hs : In s (gnodes g)). { apply Hin. rewrite E. apply in_app_iff. right; simpl; auto. }
    assert (Hsd : ~ In s done).
    { rewrite E in Hnd. apply NoDup_app_elim in Hnd. destruct Hnd as [_ [_ H]]. intros H'. apply (H s H'). simpl; auto. }
    assert (Hs1 : In s (gnodes g1)).
    { apply Hnod. split; auto. intros [H _]. auto. }
    assert (Hpd : forall p, edge g p s -> In p done).
    { intros p Hp. eapply Htp; eauto. }
    assert (E' : od = (done ++ [s]) ++ rest) by (rewrite <- app_assoc; auto).
    assert (Hrc : forall x, removed_children g ns (done ++ [s]) x <->
                  removed_children g ns done x \/ (x = s /\ ~ In s ns /\ exists p, In p ns /\ edge g p s)).
    { intros x. unfold removed_children. rewrite in_app_iff. simpl. split.
      - intros [[H|[<-|[]]] H']; auto.
      - intros [[H1 H2]|[-> H]]; auto. }
    assert (A1 : acyclic g1). { apply (acyclic_incl g1 g); auto. intros x y H. apply Hed in H. tauto. }
    simpl. destruct (mem s ns) eqn:Em; simpl.
    + apply mem_In in Em. apply (IH (done ++ [s])); auto.
      * intros x. rewrite Hnod, Hrc. tauto.
      * intros x y. rewrite Hed, !Hrc. tauto.
    + apply mem_false in Em.
      destruct (ancestors_spec g1 s W1 Hs1) as [anc [Hanc _]].
      pose proof (ancestors_ok g1 s anc W1 A1 Hanc) as [_ [_ Hai]].
      rewrite Hanc. simpl. destruct (Nat.eqb (length (inter ns anc)) 0) eqn:Ei; simpl.
      * (* no listed ancestor left: no listed parent *)
        assert (Hno : ~ exists p, In p ns /\ edge g p s).
        { intros [p [Hp1 Hp2]]. assert (Ht := proj1 (inter_empty ns anc) Ei p Hp1). apply Ht. apply Hai.
          apply path_edge. apply Hed. split; auto. split; intros [H1 [H2 _]]; auto. }
        apply (IH (done ++ [s])); auto.
        -- intros x. rewrite Hnod, Hrc. tauto.
        -- intros x y. rewrite Hed, !Hrc. tauto.
      * (* a listed ancestor x remains: the path must be a direct edge *)
        apply inter_nonempty in Ei. destruct Ei as [p [Hp Hpa]]. apply Hai in Hpa.
        assert (Hyes : exists p, In p ns /\ edge g p s).
        { (* last listed node on the path *)
          assert (G : forall a b, path g1 a b -> b = s -> In a ns -> exists q, In q ns /\ edge g q s).
          { intros a b Hpt. induction Hpt as [a b He|a b c He Hpt IHp]; intros Hb Ha.
            - subst b. exists a. split; auto. apply Hed in He. tauto.
            - subst c. apply IHp; auto.
              (* b is a child of the listed node a and still present, so it is listed *)
              destruct (In_dec_name b ns) as [Hb|Hb]; auto. exfalso.
              assert (Hbd : In b done).
              { assert (Hbf : before od b s).
                { apply (order_before_path g od); auto. apply (path_incl g1 g); auto.  intros x y H. apply Hed in H. tauto. }
                rewrite E in Hbf. rewrite before_app in Hbf.
                destruct Hbf as [Hbf|[Hbf|[Hbf _]]]; auto.
                - apply before_In in Hbf. tauto.
                - rewrite before_cons in Hbf. exfalso.
                  rewrite E in Hnd. apply NoDup_app_elim in Hnd. destruct Hnd as [_ [Hnd _]].
                  inversion Hnd as [|? ? Hx _]; subst. destruct Hbf as [[-> H]|H]; auto.
                  apply before_In in H. tauto. }
              apply Hed in He. destruct He as [He [_ Hr]]. apply Hr. split; auto. split; auto. eauto. }
          eapply G; eauto. }
        unfold remove_node. replace (has_node g1 s) with true by (symmetry; apply has_node_spec; auto).
        simpl. apply (IH (done ++ [s])); auto.
        -- apply wf_del_node; auto.
        -- intros x. rewrite del_node_nodes, Hnod, Hrc. split.
           ++ intros [[H1 H2] H3]. split; auto. tauto.
           ++ intros [H1 H2]. split; [tauto|]. intros ->. apply H2. auto.
        -- intros x y. rewrite del_node_edge, Hed, !Hrc. split.
           ++ tauto.
           ++ intros [H1 [H2 H3]]. repeat split; try tauto; intros ->; tauto.
Qed.

Lemma remove_upstream_spec : forall g ns, wf g -> acyclic g -> incl ns (gnodes g) ->
  exists g', remove_upstream g ns = Ok g' /\ wf g'
   /\ (forall x, In x (gnodes g') <-> In x (gnodes g) /\ ~ (~ In x ns /\ exists p, In p ns /\ edge g p x))
   /\ (forall x y, edge g' x y <-> edge g x y /\ In x (gnodes g') /\ In y (gnodes g')).
Proof.
  intros g ns W A Hns. destruct (order_total g W A) as [od Hod]. unfold remove_upstream. rewrite Hod. simpl.
  destruct (remove_upstream_loop g ns W A Hns od [] od g Hod eq_refl W) as [g' [H1 [H2 [H3 H4]]]].
  - intros x. unfold removed_children. simpl. tauto.
  - intros x y. unfold removed_children. simpl. tauto.
  - exists g'. split; auto. split; auto.
    destruct (order_ok g od W Hod) as [_ [_ [Hin _]]].
    split.
    + intros x. rewrite H3. unfold removed_children. split; intros [Ha Hb]; split; auto.
      * intros H. apply Hb. split; auto. apply Hin; auto.
      * tauto.
    + intros x y. rewrite H4, !H3. split; [|tauto]. intros [He Hr]. repeat split; try tauto.
      * eapply wf_src; eauto.
      * eapply wf_dst; eauto.
Qed.

Definition removed_parents (g : graph) (ns done : list name) (x : name) : Prop :=
  In x done /\ ~ In x ns /\ exists p, In p ns /\ edge g x p.

Lemma remove_downstream_loop : forall g ns, wf g -> acyclic g -> incl ns (gnodes g) ->
  forall rest done od g1, order g = Ok od -> rev od = done ++ rest ->
  wf g1 ->
  (forall x, In x (gnodes g1) <-> In x (gnodes g) /\ ~ removed_parents g ns done x) ->
  (forall x y, edge g1 x y <-> edge g x y /\ ~ removed_parents g ns done x /\ ~ removed_parents g ns done y) ->
  exists g', foldM (fun g s =>
           if mem s ns then Ok g
           else do anc <- descendants g s;
                if Nat.eqb (length (inter ns anc)) 0 then Ok g else remove_node g s) rest g1 = Ok g'
   /\ wf g'
   /\ (forall x, In x (gnodes g') <-> In x (gnodes g) /\ ~ removed_parents g ns (rev od) x)
   /\ (forall x y, edge g' x y <-> edge g x y /\ ~ removed_parents g ns (rev od) x /\ ~ removed_parents g ns (rev od) y).
Proof.
  intros g ns W A Hns. induction rest as [|s rest IH]; intros done od g1 Hod E W1 Hnod Hed.
  - rewrite app_nil_r in E. rewrite E. exists g1. auto.
  - pose proof Hod as Hod'. apply order_ok in Hod'; auto. destruct Hod' as [_ [Hnd0 [Hin0 Htp]]].
    assert (Hnd : NoDup (rev od)) by (apply NoDup_rev; auto).
    assert (Hin : forall x, In x (rev od) <-> In x (gnodes g)) by (intros x; rewrite <- in_rev; auto).
    assert (Hs : In s (gnodes g)). { apply Hin. rewrite E. apply in_app_iff. right; simpl; auto. }
    assert (Hsd : ~ In s done).
    { rewrite E in Hnd. apply NoDup_app_elim in Hnd. destruct Hnd as [_ [_ H]]. intros H'. apply (H s H'). simpl; auto. }
    assert (Hs1 : In s (gnodes g1)).
    { apply Hnod. split; auto. intros [H _]. auto. }
    assert (Hbd : forall b, path g s b -> In b done).
    { intros b Hb. assert (Hbf : before (rev od) b s) by (apply before_rev; apply (order_before_path g od); auto).
      rewrite E in Hbf. rewrite before_app in Hbf.
      destruct Hbf as [Hbf|[Hbf|[Hbf _]]]; auto.
      - apply before_In in Hbf. tauto.
      - rewrite before_cons in Hbf. exfalso.
        rewrite E in Hnd. apply NoDup_app_elim in Hnd. destruct Hnd as [_ [Hnd _]].
        inversion Hnd as [|? ? Hx _]; subst. destruct Hbf as [[-> H]|H]; auto.
        apply before_In in H. tauto. }
    assert (E' : rev od = (done ++ [s]) ++ rest) by (rewrite <- app_assoc; auto).
    assert (Hrc : forall x, removed_parents g ns (done ++ [s]) x <->
                  removed_parents g ns done x \/ (x = s /\ ~ In s ns /\ exists p, In p ns /\ edge g s p)).
    { intros x. unfold removed_parents. rewrite in_app_iff. simpl. split.
      - intros [[H|[<-|[]]] H']; auto.
      - intros [[H1 H2]|[-> H]]; auto. }
    assert (A1 : acyclic g1). { apply (acyclic_incl g1 g); auto. intros x y H. apply Hed in H. tauto. }
    simpl. destruct (mem s ns) eqn:Em; simpl.
    + apply mem_In in Em. apply (IH (done ++ [s])); auto.
      * intros x. rewrite Hnod, Hrc. tauto.
      * intros x y. rewrite Hed, !Hrc. tauto.
    + apply mem_false in Em.
      destruct (descendants_spec g1 s W1 Hs1) as [anc [Hanc _]].
      pose proof (descendants_ok g1 s anc W1 A1 Hanc) as [_ [_ Hai]].
      rewrite Hanc. simpl. destruct (Nat.eqb (length (inter ns anc)) 0) eqn:Ei; simpl.
      * assert (Hno : ~ exists p, In p ns /\ edge g s p).
        { intros [p [Hp1 Hp2]]. assert (Ht := proj1 (inter_empty ns anc) Ei p Hp1). apply Ht. apply Hai.
          apply path_edge. apply Hed. split; auto. split; intros [H1 [H2 _]]; auto. }
        apply (IH (done ++ [s])); auto.
        -- intros x. rewrite Hnod, Hrc. tauto.
        -- intros x y. rewrite Hed, !Hrc. tauto.
      * apply inter_nonempty in Ei. destruct Ei as [p [Hp Hpa]]. apply Hai in Hpa.
        assert (Hyes : exists p, In p ns /\ edge g s p).
        { apply path_first in Hpa. destruct Hpa as [b [He Hb]].
          assert (G : forall a b, path g1 a b -> In b ns -> In a (gnodes g1) -> path g s a -> In a ns).
          { intros a c Hpt. induction Hpt as [a b' He'|a b' c He' Hpt IHp]; intros Hc Ha Hsa.
            - destruct (In_dec_name a ns) as [Hn|Hn]; auto. exfalso.
              assert (Had : In a done) by (apply Hbd; auto).
              apply Hed in He'. apply (proj1 (proj2 He')). split; auto. split; auto. exists b'. tauto.
            - assert (Hb' : In b' ns).
              { apply IHp; auto. eapply wf_dst; eauto. eapply path_snoc; eauto. apply Hed in He'. tauto. }
              destruct (In_dec_name a ns) as [Hn|Hn]; auto. exfalso.
              assert (Had : In a done) by (apply Hbd; auto).
              apply Hed in He'. apply (proj1 (proj2 He')). split; auto. split; auto. exists b'. tauto. }
          destruct Hb as [->|Hb].
          - exists p. split; auto. apply Hed in He. tauto.
          - exists b. split; [|apply Hed in He; tauto]. eapply G; eauto.
            + eapply wf_dst; eauto.
            + apply path_edge. apply Hed in He. tauto. }
        unfold remove_node. replace (has_node g1 s) with true by (symmetry; apply has_node_spec; auto).
        simpl. apply (IH (done ++ [s])); auto.
        -- apply wf_del_node; auto.
        -- intros x. rewrite del_node_nodes, Hnod, Hrc. split.
           ++ intros [[H1 H2] H3]. split; auto. tauto.
           ++ intros [H1 H2]. split; [tauto|]. intros ->. apply H2. auto.
        -- intros x y. rewrite del_node_edge, Hed, !Hrc. split.
           ++ tauto.
           ++ intros [H1 [H2 H3]]. repeat split; try tauto; intros ->; tauto.
Qed.

Lemma remove_downstream_spec : forall g ns, wf g -> acyclic g -> incl ns (gnodes g) ->
  exists g', remove_downstream g ns = Ok g' /\ wf g'
   /\ (forall x, In x (gnodes g') <-> In x (gnodes g) /\ ~ (~ In x ns /\ exists p, In p ns /\ edge g x p))
   /\ (forall x y, edge g' x y <-> edge g x y /\ In x (gnodes g') /\ In y (gnodes g')).
Proof.
  intros g ns W A Hns. destruct (order_total g W A) as [od Hod]. unfold remove_downstream. rewrite Hod. simpl.
  destruct (remove_downstream_loop g ns W A Hns (rev od) [] od g Hod eq_refl W) as [g' [H1 [H2 [H3 H4]]]].
  - intros x. unfold removed_parents. simpl. tauto.
  - intros x y. unfold removed_parents. simpl. tauto.
  - exists g'. split; auto. split; auto.
    destruct (order_ok g od W Hod) as [_ [_ [Hin _]]].
    split.
    + intros x. rewrite H3. unfold removed_parents. rewrite <- in_rev. split; intros [Ha Hb]; split; auto.
      * intros H. apply Hb. split; auto. apply Hin; auto.
      * tauto.
    + intros x y. rewrite H4, !H3. split; [|tauto]. intros [He Hr]. repeat split; try tauto.
      * eapply wf_src; eauto.
      * eapply wf_dst; eauto.
Qed.

(** ** merge_dag *)

Lemma merge_dag_spec : forall g1 g2, wf g1 -> wf g2 ->
  wf (merge_dag g1 g2)
  /\ (forall x, In x (gnodes (merge_dag g1 g2)) <-> In x (gnodes g1) \/ In x (gnodes g2))
  /\ (forall a b, edge (merge_dag g1 g2) a b <-> edge g1 a b \/ edge g2 a b).
Proof.
  intros g1 g2 W1 W2.
  assert (G : forall l acc, NoDup acc ->
     let r := fold_left (fun acc e => if existsb (edge_eqb e) acc then acc else acc ++ [e]) l acc in
     NoDup r /\ forall e, In e r <-> In e acc \/ In e l).
  { induction l as [|e l IH]; intros acc Ha; simpl; [split; [auto|tauto]|].
    destruct (existsb (edge_eqb e) acc) eqn:E.
    - destruct (IH acc Ha) as [H1 H2]. split; auto. intros f. rewrite H2.
      apply existsb_exists in E. destruct E as [f' [Hf E]]. apply edge_eqb_eq in E. subst f'.
      split; intros [H|H]; auto. destruct H as [->|H]; auto.
    - assert (Hn : NoDup (acc ++ [e])).
      { apply NoDup_app_intro; auto. constructor; auto; constructor.
        intros f Hf [<-|[]]. assert (existsb (edge_eqb e) acc = true).
        { apply existsb_exists. exists e. split; auto. apply edge_eqb_eq; auto. } congruence. }
      destruct (IH (acc ++ [e]) Hn) as [H1 H2]. split; auto. intros f. rewrite H2, in_app_iff. simpl. tauto. }
  destruct (G (gedges g2) (gedges g1)) as [G1 G2]; [apply W1|].
  assert (Hn : forall x, In x (gnodes (merge_dag g1 g2)) <-> In x (gnodes g1) \/ In x (gnodes g2)).
  { intros x. unfold merge_dag. simpl. apply union_In. }
  assert (He : forall a b, edge (merge_dag g1 g2) a b <-> edge g1 a b \/ edge g2 a b).
  { intros a b. unfold merge_dag, edge. simpl. apply G2. }
  split; [|auto]. constructor.
  - simpl. apply union_NoDup. apply W1.
  - simpl. auto.
  - intros a b H. apply Hn. apply He in H. destruct H as [H|H]; [left|right]; eapply wf_src; eauto.
  - intros a b H. apply Hn. apply He in H. destruct H as [H|H]; [left|right]; eapply wf_dst; eauto.
Qed.

(** ** minimal_requirements *)

Lemma minimal_requirements_spec : forall g t cond, wf g -> acyclic g -> In t (gnodes g) ->
  exists l, minimal_requirements g t cond = Ok l
    /\ topo g l (fun x => path g x t /\ ~ exists s, In s cond /\ path g s t /\ path g x s).
Proof.
  intros g t cond W A Ht. unfold minimal_requirements.
  destruct (ancestors_spec g t W Ht) as [anc [Hanc _]].
  pose proof (ancestors_ok g t anc W A Hanc) as [_ [_ Hai]]. rewrite Hanc. simpl.
  assert (G : forall cs done anc1,
     (forall x, In x anc1 <-> path g x t /\ ~ exists s, In s done /\ path g s t /\ path g x s) ->
     exists anc2, foldM (fun anc s => if mem s anc then do a <- ancestors g s; Ok (diff anc a) else Ok anc) cs anc1 = Ok anc2
     /\ forall x, In x anc2 <-> path g x t /\ ~ exists s, In s (done ++ cs) /\ path g s t /\ path g x s).
  { induction cs as [|s cs IH]; intros done anc1 H1; simpl.
    - rewrite app_nil_r. eauto.
    - replace (done ++ s :: cs) with ((done ++ [s]) ++ cs) by (rewrite <- app_assoc; auto).
      destruct (mem s anc1) eqn:Em; simpl.
      + apply mem_In in Em. pose proof (proj1 (H1 s) Em) as [Hst _].
        assert (Hs : In s (gnodes g)) by (apply (path_src g s t); auto).
        destruct (ancestors_spec g s W Hs) as [a [Ha _]].
        pose proof (ancestors_ok g s a W A Ha) as [_ [_ Hai']]. rewrite Ha. simpl.
        apply IH. intros x. rewrite diff_In, H1, Hai'. split.
        * intros [[Hx Hn] Hxs]. split; auto. intros [u [Hu [Hut Hxu]]].
          apply in_app_iff in Hu. destruct Hu as [Hu|[<-|[]]]; auto. apply Hn; eauto.
        * intros [Hx Hn]. repeat split; auto.
          -- intros [u [Hu Hr]]. apply Hn. exists u. rewrite in_app_iff. auto.
          -- intros Hxs. apply Hn. exists s. rewrite in_app_iff. simpl; auto.
      + apply mem_false in Em. apply IH. intros x. rewrite H1. split.
        * intros [Hx Hn]. split; auto. intros [u [Hu [Hut Hxu]]].
          apply in_app_iff in Hu. destruct Hu as [Hu|[<-|[]]]; [apply Hn; eauto|].
          (* s was already removed by an earlier condition *)
          rewrite H1 in Em. apply Em. split; auto. intros [w [Hw [Hwt Hsw]]].
          apply Hn. exists w. repeat split; auto. eapply path_trans; eauto.
        * intros [Hx Hn]. split; auto. intros [u [Hu Hr]]. apply Hn. exists u. rewrite in_app_iff. auto. }
  destruct (G cond [] anc) as [anc2 [H1 H2]].
  - intros x. rewrite Hai. split; [|tauto]. intros H. split; auto. intros [s [[] _]].
  - rewrite H1. simpl. destruct (sort_spec g anc2 W A) as [l [Hl [[Hd Hi] Hb]]].
    exists l. split; auto. split; [split|]; auto. intros x. rewrite Hi, H2. simpl. split; [tauto|].
    intros [Hx Hn]. repeat split; auto. apply (path_src g x t); auto.
Qed.

(** ** get_sufficient_nodes *)

Lemma cut_given_spec : forall g n, wf g -> In n (gnodes g) ->
  exists g', cut_given g n = Ok g' /\ wf g' /\ gnodes g' = gnodes g
    /\ forall x y, edge g' x y <-> edge g x y /\ y <> n.
Proof.
  intros g n W Hn. unfold cut_given.
  replace (has_node g n) with true by (symmetry; apply has_node_spec; auto).
  destruct (remove_edges_fold name (fun c => c) (fun _ => n) (preds g n) g) as [g' [H1 [H2 [H3 H4]]]]; auto.
  - assert (G : forall l : list name, NoDup l -> NoDup (map (fun c => (c, n)) l)).
    { induction l as [|z l IH]; intros Hl; simpl; constructor; inversion Hl; subst; auto.
      rewrite in_map_iff. intros [w [E Hw]]. inversion E; subst. auto. }
    apply G. apply preds_NoDup. apply W.
  - intros c Hc. apply preds_In in Hc. auto.
  - exists g'. splits; auto. intros x y. rewrite H4. split.
    + intros [H H']. split; auto. intros ->. apply H'. exists x. rewrite preds_In. auto.
    + intros [Ha Hb]. split; auto. intros [c [Hc [E1 E2]]]. auto.
Qed.

Lemma cut_all_spec : forall given g, wf g -> incl given (gnodes g) ->
  exists g', foldM cut_given given g = Ok g' /\ wf g' /\ gnodes g' = gnodes g
    /\ forall x y, edge g' x y <-> edge g x y /\ ~ In y given.
Proof.
  induction given as [|n given IH]; intros g W Hi; simpl.
  - exists g. splits; auto. tauto.
  - destruct (cut_given_spec g n W) as [g1 [H1 [W1 [Hn1 He1]]]]; [apply Hi; simpl; auto|].
    rewrite H1. simpl. destruct (IH g1 W1) as [g' [H2 [W2 [Hn2 He2]]]].
    { rewrite Hn1. intros x Hx. apply Hi. simpl; auto. }
    exists g'. splits; auto; [congruence|]. intros x y. rewrite He2, He1. split.
    + intros [[H1' H2'] H3]. split; auto. intros [->|Hy]; tauto.
    + intros [Ha Hb]. splits; auto; intros H'; apply Hb; simpl; auto.
Qed.

Lemma cut_all_missing : forall given g n, wf g -> In n given -> ~ In n (gnodes g) ->
  foldM cut_given given g = Err NetworkXError.
Proof.
  induction given as [|m given IH]; intros g n W Hin Hn; simpl; [destruct Hin|].
  destruct (In_dec_name m (gnodes g)) as [Hm|Hm].
  - destruct (cut_given_spec g m W Hm) as [g1 [H1 [W1 [Hn1 He1]]]]. rewrite H1. simpl.
    apply (IH g1 n); auto; [|rewrite Hn1; auto].
    destruct Hin as [->|Hin]; auto. tauto.
  - assert (Hc : cut_given g m = Err NetworkXError).
    { unfold cut_given. apply has_node_false in Hm. rewrite Hm. auto. }
    rewrite Hc. auto.
Qed.

Lemma get_sufficient_nodes_spec : forall g included given, wf g ->
  incl included (gnodes g) -> incl given (gnodes g) -> included <> [] ->
  exists l, get_sufficient_nodes g included given = Ok l /\ lists l (needed g included given).
Proof.
  intros g included given W Hi Hg Hne. unfold get_sufficient_nodes.
  destruct (cut_all_spec given g W Hg) as [mi [H1 [W1 [Hn1 He1]]]]. rewrite H1. simpl.
  destruct (union_over_spec mi (ancestors mi) (fun n x => x <> n /\ path mi x n) included) as [u [Hu [Hud Hui]]]; auto.
  { intros n Hn. apply ancestors_spec; auto. rewrite Hn1. auto. }
  destruct (mapM (ancestors mi) included) as [ls|e]; simpl in *; [|discriminate].
  rewrite Hu. simpl. eexists. split; [reflexivity|]. split.
  - apply union_NoDup; auto.
  - intros x. rewrite union_In, Hui. split.
    + intros [[n [Hn [_ Hp]]]|Hx]; [|apply need_incl; auto].
      assert (G : forall a b, path mi a b -> needed g included given b -> needed g included given a).
      { clear - He1. intros a b Hp. induction Hp as [a b He|a b c He Hp IH]; intros Hb.
        - apply He1 in He. eapply need_par; eauto; tauto.
        - apply He1 in He. eapply need_par; [apply IH; auto| |]; tauto. }
      eapply G; eauto. apply need_incl; auto.
    + intros H. induction H as [x Hx|x p Hx IH Hng He]; auto.
      assert (He' : edge mi p x) by (apply He1; auto).
      destruct IH as [[n [Hn [Hne' Hp]]]|Hx'].
      * destruct (string_dec p n) as [->|Hpn]; [auto|].
        left. exists n. repeat split; auto. eapply path_step; eauto.
      * destruct (string_dec p x) as [->|Hpn]; [auto|].
        left. exists x. repeat split; auto. apply path_edge; auto.
Qed.

Lemma get_sufficient_nodes_ok : forall g included given l, wf g ->
  get_sufficient_nodes g included given = Ok l ->
  incl included (gnodes g) /\ incl given (gnodes g) /\ included <> []
  /\ lists l (needed g included given).
Proof.
  intros g included given l W H.
  assert (Hg : incl given (gnodes g)).
  { intros x Hx. destruct (In_dec_name x (gnodes g)) as [Hn|Hn]; auto.
    unfold get_sufficient_nodes in H. rewrite (cut_all_missing given g x) in H; auto. discriminate. }
  assert (Hi : incl included (gnodes g)).
  { intros x Hx. unfold get_sufficient_nodes in H.
    destruct (cut_all_spec given g W Hg) as [mi [H1 [W1 [Hn1 He1]]]]. rewrite H1 in H. simpl in H.
    apply bind_ok in H. destruct H as [ls [Hls _]]. apply mapM_ok in Hls. rewrite <- Hn1.
    clear - Hls Hx. induction Hls as [|n l ns ls Hf Hrest IH]; [destruct Hx|].
    destruct Hx as [->|Hx]; auto.
    destruct (In_dec_name x (gnodes mi)) as [Hn|Hn]; auto.
    rewrite ancestors_missing in Hf; auto. discriminate. }
  assert (Hne : included <> []).
  { intros ->. unfold get_sufficient_nodes in H.
    destruct (cut_all_spec given g W Hg) as [mi [H1 _]]. rewrite H1 in H. discriminate. }
  repeat split; auto;
  destruct (get_sufficient_nodes_spec g included given W Hi Hg Hne) as [l' [Hl' [Hd Hx]]];
  rewrite H in Hl'; inversion Hl'; subst; auto; apply Hx.
Qed.

(** [needed] really is least *)
Lemma needed_least : forall g included given (S : name -> Prop),
  (forall x, In x included -> S x) ->
  (forall x p, S x -> ~ In x given -> edge g p x -> S p) ->
  forall x, needed g included given x -> S x.
Proof. intros g included given S H1 H2 x H. induction H; eauto. Qed.

(** ** Simple paths and minimal_dag *)

(** [chain g l]: consecutive members of [l] are linked by edges *)
Fixpoint chain (g : graph) (l : list name) : Prop :=
  match l with
  | a :: (b :: _) as l' => edge g a b /\ chain g l'
  | _ => True
  end.

Lemma chain_path : forall g l a b, chain g (a :: l) -> In b l -> path g a b.
Proof.
  intros g l. induction l as [|c l IH]; intros a b H Hb; [destruct Hb|].
  simpl in H. destruct H as [He Hc]. destruct Hb as [->|Hb].
  - apply path_edge; auto.
  - eapply path_step; eauto.
Qed.

Lemma chain_app : forall g l m, chain g (l ++ m) -> chain g m.
Proof.
  intros g l. induction l as [|a l IH]; intros m H; simpl in H; auto.
  destruct (l ++ m) eqn:E; [|destruct H; apply IH; rewrite E; auto].
  apply app_eq_nil in E. destruct E as [_ ->]. simpl. auto.
Qed.

Lemma chain_cons : forall g a b l, chain g (a :: b :: l) <-> edge g a b /\ chain g (b :: l).
Proof. intros. simpl. tauto. Qed.

Lemma chain_snoc : forall g l a b, chain g (l ++ [a]) -> edge g a b -> chain g (l ++ [a; b]).
Proof.
  intros g l. induction l as [|c l IH]; intros a b H He.
  - simpl. auto.
  - destruct l as [|d l].
    + simpl in *. tauto.
    + change ((c :: d :: l) ++ [a]) with (c :: d :: (l ++ [a])) in H.
      change ((c :: d :: l) ++ [a; b]) with (c :: d :: (l ++ [a; b])).
      rewrite chain_cons in *. destruct H as [H1 H2]. split; auto. apply (IH a b); auto.
Qed.

Lemma simple_paths_sound : forall fuel g vis a b p,
  chain g (vis ++ [a]) -> In p (simple_paths fuel g vis a b) ->
  chain g p /\ exists mid, p = vis ++ a :: mid ++ [b].
Proof.
  induction fuel as [|f IH]; intros g vis a b p Hc Hp; simpl in Hp; [destruct Hp|].
  apply in_flat_map in Hp. destruct Hp as [c [Hcs Hp]]. apply succs_In in Hcs.
  destruct (String.eqb c b) eqn:E.
  - apply String.eqb_eq in E. subst c. destruct Hp as [<-|[]]. split.
    + apply chain_snoc; auto.
    + exists []. auto.
  - destruct (mem c (vis ++ [a])); [destruct Hp|].
    apply IH in Hp.
    + destruct Hp as [H1 [mid ->]]. split; auto. exists (c :: mid). rewrite <- app_assoc. auto.
    + rewrite <- app_assoc. simpl. apply chain_snoc; auto.
Qed.

Lemma simple_paths_complete : forall fuel g mid vis a b,
  chain g (a :: mid ++ [b]) -> NoDup (vis ++ a :: mid ++ [b]) ->
  S (length mid) <= fuel ->
  In (vis ++ a :: mid ++ [b]) (simple_paths fuel g vis a b).
Proof.
  induction fuel as [|f IH]; intros g mid vis a b Hc Hn Hf; [lia|].
  simpl. apply in_flat_map. destruct mid as [|c mid]; simpl in *.
  - exists b. split; [apply succs_In; tauto|]. rewrite String.eqb_refl. simpl; auto.
  - exists c. split; [apply succs_In; tauto|].
    assert (Hcb : c <> b).
    { intros ->. apply NoDup_app_elim in Hn. destruct Hn as [_ [Hn _]].
      inversion Hn as [|? ? _ Hn']; subst. inversion Hn' as [|? ? Hx _]; subst.
      apply Hx. apply in_app_iff. simpl; auto. }
    replace (String.eqb c b) with false by (symmetry; apply String.eqb_neq; auto).
    replace (vis ++ a :: c :: mid ++ [b]) with ((vis ++ [a]) ++ c :: mid ++ [b]) in *
      by (rewrite <- app_assoc; auto).
    replace (mem c (vis ++ [a])) with false.
    + apply IH; auto; [tauto|lia].
    + symmetry. apply mem_false. apply NoDup_app_elim in Hn. destruct Hn as [_ [_ Hn]].
      intros H. apply (Hn c H). simpl; auto.
Qed.

(** a path yields a chain; in an acyclic graph it has no repetition *)
Lemma path_chain : forall g a b, path g a b -> exists mid, chain g (a :: mid ++ [b]).
Proof.
  intros g a b H. induction H as [a b He|a b c He _ [mid IH]].
  - exists []. simpl. auto.
  - exists (b :: mid). simpl. split; auto.
Qed.

Lemma chain_NoDup : forall g l, acyclic g -> chain g l -> NoDup l.
Proof.
  intros g l A. induction l as [|a l IH]; intros H; constructor.
  - intros Hi. apply (A a). eapply chain_path; eauto.
  - apply IH. apply (chain_app g [a]); auto.
Qed.

Lemma all_simple_paths_nodes : forall g a b x, wf g -> acyclic g ->
  ((exists p, In p (all_simple_paths g a b) /\ In x p) <->
   path g a b /\ (x = a \/ x = b \/ (path g a x /\ path g x b))).
Proof.
  intros g a b x W A. unfold all_simple_paths. split.
  - intros [p [Hp Hx]]. destruct (String.eqb a b); [destruct Hp|].
    apply simple_paths_sound in Hp; [|simpl; auto]. destruct Hp as [Hc [mid ->]]. cbn [app] in *.
    assert (Hab : path g a b). { eapply chain_path; eauto. apply in_app_iff. simpl; auto. }
    split; auto. destruct Hx as [<-|Hx]; auto. apply in_app_iff in Hx. destruct Hx as [Hx|[<-|[]]]; auto.
    right; right. split.
    + eapply chain_path; eauto. apply in_app_iff; auto.
    + apply in_split in Hx. destruct Hx as [l1 [l2 ->]].
      rewrite <- app_assoc in Hc. change (a :: l1 ++ (x :: l2) ++ [b]) with ((a :: l1) ++ x :: l2 ++ [b]) in Hc.
      apply chain_app in Hc. eapply chain_path; eauto. apply in_app_iff. simpl; auto.
  - intros [Hab Hx].
    assert (Hne : a <> b) by (intros ->; apply (A b); auto).
    replace (String.eqb a b) with false by (symmetry; apply String.eqb_neq; auto).
    assert (G : forall mid, chain g (a :: mid ++ [b]) ->
               In (a :: mid ++ [b]) (simple_paths (length (gnodes g)) g [] a b)).
    { intros mid Hc. assert (Hnd : NoDup (a :: mid ++ [b])) by (eapply chain_NoDup; eauto).
      apply (simple_paths_complete _ g mid [] a b); auto.
      assert (Hinc : incl (a :: mid ++ [b]) (gnodes g)).
      { intros z [<-|Hz]; [apply (path_src g a b); auto|].
        apply (path_dst g a z); auto. eapply chain_path; eauto. }
      assert (length (a :: mid ++ [b]) <= length (gnodes g)) by (apply NoDup_incl_length; auto).
      simpl in H. rewrite app_length in H. simpl in H. lia. }
    destruct Hx as [->|[->|[Hx1 Hx2]]].
    + destruct (path_chain g a b Hab) as [mid Hc]. exists (a :: mid ++ [b]). split; auto. simpl; auto.
    + destruct (path_chain g a b Hab) as [mid Hc]. exists (a :: mid ++ [b]). split; auto.
      simpl. right. apply in_app_iff. simpl; auto.
    + destruct (path_chain g a x Hx1) as [m1 Hc1]. destruct (path_chain g x b Hx2) as [m2 Hc2].
      exists (a :: (m1 ++ x :: m2) ++ [b]). split.
      * apply G. rewrite <- app_assoc. cbn [app].
        clear - Hc1 Hc2. revert a Hc1. induction m1 as [|c m1 IH]; intros a Hc1; cbn [app] in *.
        -- rewrite chain_cons in *. split; [tauto|exact Hc2].
        -- rewrite chain_cons in *. destruct Hc1 as [He Hc1]. split; [exact He|]. apply IH. exact Hc1.
      * right. apply in_app_iff. left. apply in_app_iff. right; simpl; auto.
Qed.

Lemma fold_union_In : forall ls acc x,
  In x (fold_left union ls acc) <-> In x acc \/ exists s, In s ls /\ In x s.
Proof.
  induction ls as [|b ls IH]; intros acc x; simpl.
  - split; auto. intros [H|[s [[] _]]]; auto.
  - rewrite IH, union_In. split.
    + intros [[H|H]|[s [Hs Hx]]]; eauto.
    + intros [H|[s [[->|Hs] Hx]]]; eauto.
Qed.

Lemma collect_inner_In : forall g a bs acc x,
  In x (fold_left (fun acc b => fold_left union (all_simple_paths g a b) acc) bs acc) <->
  In x acc \/ exists b, In b bs /\ exists p, In p (all_simple_paths g a b) /\ In x p.
Proof.
  intros g a bs. induction bs as [|b bs IH]; intros acc x; simpl.
  - split; auto. intros [H|[b [[] _]]]; auto.
  - rewrite IH, fold_union_In. split.
    + intros [[H|[p [Hp Hx]]]|[c [Hc Hp]]]; [left; auto| |right; exists c; auto].
      right. exists b. split; auto. exists p; auto.
    + intros [H|[c [[->|Hc] [p [Hp Hx]]]]]; [left; left; auto|left; right; exists p; auto|].
      right. exists c. split; auto. exists p; auto.
Qed.

Lemma collect_paths_In : forall g ns acc x,
  In x (collect_paths g ns acc) <->
  In x acc \/ exists l1 a l2, ns = l1 ++ a :: l2 /\ exists b, In b (a :: l2) /\
       exists p, In p (all_simple_paths g a b) /\ In x p.
Proof.
  intros g ns. induction ns as [|a ns IH]; intros acc x.
  - simpl. split; auto. intros [H|[l1 [a [l2 [H _]]]]]; auto. destruct l1; discriminate.
  - cbn [collect_paths]. rewrite IH, collect_inner_In. split.
    + intros [[H|[b [Hb Hp]]]|[l1 [c [l2 [-> H]]]]]; auto.
      * right. exists [], a, ns. split; auto. exists b. auto.
      * right. exists (a :: l1), c, l2. auto.
    + intros [H|[l1 [c [l2 [E [b [Hb Hp]]]]]]]; auto.
      destruct l1 as [|d l1]; simpl in E; inversion E; subst.
      * left. right. eauto.
      * right. exists l1, c, l2. eauto.
Qed.

Lemma wf_subgraph : forall g ns, wf g -> wf (subgraph g ns).
Proof.
  intros g ns W. constructor; simpl.
  - apply NoDup_filter. apply W.
  - apply NoDup_filter. apply W.
  - intros a b H. unfold edge in H. simpl in H. apply filter_In in H. destruct H as [H1 H2].
    apply andb_true_iff in H2. simpl in H2. rewrite !mem_In in H2. apply inter_In. split; [|tauto].
    eapply wf_src; eauto.
  - intros a b H. unfold edge in H. simpl in H. apply filter_In in H. destruct H as [H1 H2].
    apply andb_true_iff in H2. simpl in H2. rewrite !mem_In in H2. apply inter_In. split; [|tauto].
    eapply wf_dst; eauto.
Qed.

Lemma minimal_dag_spec : forall g ns, wf g -> acyclic g ->
  exists g', minimal_dag g ns = Ok g' /\ wf g'
   /\ (forall x, In x (gnodes g') <->
         In x (gnodes g) /\ (In x ns \/ exists a b, In a ns /\ In b ns /\ path g a x /\ path g x b))
   /\ (forall x y, edge g' x y <-> edge g x y /\ In x (gnodes g') /\ In y (gnodes g')).
Proof.
  intros g ns W A. unfold minimal_dag.
  destruct (sort_spec g ns W A) as [l [Hl [[Hd Hi] Hb]]]. pose proof Hl as Hsort. rewrite Hl. simpl.
  set (S := collect_paths g l (to_set l)).
  assert (HS : forall x, In x S <-> In x l \/ exists a b, In a l /\ In b l /\ path g a x /\ path g x b).
  { intros x. unfold S. rewrite collect_paths_In, to_set_In. split.
    - intros [H|[l1 [a [l2 [E [b [Hb' Hp]]]]]]]; auto.
      apply all_simple_paths_nodes in Hp; auto. destruct Hp as [Hab Hx].
      assert (Ha : In a l) by (rewrite E; apply in_app_iff; simpl; auto).
      assert (Hbl : In b l) by (rewrite E; apply in_app_iff; simpl in *; tauto).
      destruct Hx as [->|[->|[H1 H2]]]; auto. right. eauto 6.
    - intros [H|[a [b [Ha [Hb' [H1 H2]]]]]]; auto. right.
      assert (Hab : path g a b) by (eapply path_trans; eauto).
      assert (Hbf : before l a b).
      { unfold sort in Hsort. apply bind_ok in Hsort. destruct Hsort as [od [Hod E]]. inversion E; subst l.
        apply before_filter. apply filter_In in Ha, Hb'. repeat split; try tauto.
        apply (order_before_path g od); auto. }
      destruct Hbf as [l1 [l2 [l3 E]]]. exists l1, a, (l2 ++ b :: l3). split; auto.
      exists b. split; [right; apply in_app_iff; simpl; auto|].
      apply all_simple_paths_nodes; auto. }
  eexists. split; [reflexivity|]. split; [apply wf_subgraph; auto|].
  assert (Hn : forall x, In x (gnodes (subgraph g S)) <-> In x (gnodes g) /\ In x S).
  { intros x. unfold subgraph. simpl. apply inter_In. }
  split.
  - intros x. rewrite Hn, HS, Hi. split.
    + intros [Hx [[H1 H2]|[a [b [Ha [Hb' Hp]]]]]]; split; auto.
      apply Hi in Ha, Hb'. right. exists a, b. tauto.
    + intros [Hx [H|[a [b [Ha [Hb' [H1 H2]]]]]]]; split; auto.
      right. exists a, b. rewrite !Hi. pose proof (path_nodes g a x W H1). pose proof (path_nodes g x b W H2). tauto.
  - intros x y. rewrite !Hn. unfold edge at 1. simpl. rewrite filter_In, andb_true_iff, !mem_In. simpl.
    unfold edge. split; [|tauto]. intros [He [H1 H2]]. repeat split; auto.
    + eapply wf_src; eauto.
    + eapply wf_dst; eauto.
Qed.

(** ** Consequences used by the property theorems *)

Lemma sort_same_set : forall g a b, same_set a b -> sort g a = sort g b.
Proof.
  intros g a b H. unfold sort. destruct (order g) as [l|e]; simpl; auto. f_equal.
  apply filter_ext. intros x. destruct (mem x a) eqn:E.
  - symmetry. apply mem_In, H, mem_In; auto.
  - symmetry. apply mem_false. intros Hb. apply mem_false in E. apply E, H; auto.
Qed.

Lemma sort_result_eq : forall g ns1 ns2 l1 l2,
  sort g ns1 = Ok l1 -> sort g ns2 = Ok l2 -> same_set l1 l2 -> l1 = l2.
Proof.
  intros g ns1 ns2 l1 l2 H1 H2 Hs. unfold sort in *. destruct (order g) as [od|e]; simpl in *; [|discriminate].
  inversion H1; inversion H2; subst. apply filter_ext_in. intros x Hx.
  specialize (Hs x). rewrite !filter_In in Hs.
  destruct (mem x ns1), (mem x ns2); auto; exfalso.
  - destruct Hs as [Hs _]. destruct Hs; auto. discriminate.
  - destruct Hs as [_ Hs]. destruct Hs; auto. discriminate.
Qed.

Lemma minimal_requirements_is_sort : forall g t cond l,
  minimal_requirements g t cond = Ok l -> exists ns, sort g ns = Ok l.
Proof.
  intros g t cond l H. unfold minimal_requirements in H.
  apply bind_ok in H. destruct H as [anc [_ H]]. apply bind_ok in H. destruct H as [anc2 [_ H]]. eauto.
Qed.

Lemma minimal_requirements_cond_ext : forall g t c1 c2, wf g -> acyclic g -> In t (gnodes g) ->
  (forall s, path g s t -> (In s c1 <-> In s c2)) ->
  minimal_requirements g t c1 = minimal_requirements g t c2.
Proof.
  intros g t c1 c2 W A Ht H.
  destruct (minimal_requirements_spec g t c1 W A Ht) as [l1 [H1 [[_ I1] _]]].
  destruct (minimal_requirements_spec g t c2 W A Ht) as [l2 [H2 [[_ I2] _]]].
  rewrite H1, H2. f_equal.
  destruct (minimal_requirements_is_sort _ _ _ _ H1) as [n1 S1].
  destruct (minimal_requirements_is_sort _ _ _ _ H2) as [n2 S2].
  eapply sort_result_eq; eauto. intros x. rewrite I1, I2. simpl.
  split; intros [Hx Hn]; split; auto; intros [s [Hs [Hst Hxs]]]; apply Hn; exists s; repeat split; auto;
    apply H; auto.
Qed.

Lemma mapM_missing : forall (f : name -> res (list name)) g ns n,
  (forall m, In m (gnodes g) -> exists l, f m = Ok l) ->
  (forall m, ~ In m (gnodes g) -> f m = Err NetworkXError) ->
  In n ns -> ~ In n (gnodes g) ->
  (do ls <- mapM f ns; set_union_star ls) = Err NetworkXError.
Proof.
  intros f g ns n H1 H2 Hn Hg. eapply union_over_missing; eauto.
  intros m l _ Hm. destruct (In_dec_name m (gnodes g)) as [Hi|Hi].
  - left. destruct (H1 m Hi) as [r Hr]. exists r. congruence.
  - right. rewrite <- Hm. auto.
Qed.

Lemma upstream_spec : forall g ns, wf g -> incl ns (gnodes g) -> ns <> [] ->
  exists l, upstream g ns = Ok l /\ lists l (fun x => exists n, In n ns /\ x <> n /\ path g x n).
Proof.
  intros g ns W Hi Hne. apply (union_over_spec g); auto. intros n Hn. apply ancestors_spec; auto.
Qed.

Lemma downstream_spec : forall g ns, wf g -> incl ns (gnodes g) -> ns <> [] ->
  exists l, downstream g ns = Ok l /\ lists l (fun x => exists n, In n ns /\ x <> n /\ path g n x).
Proof.
  intros g ns W Hi Hne. apply (union_over_spec g); auto. intros n Hn. apply descendants_spec; auto.
Qed.

Lemma upstream_missing : forall g ns n, wf g -> In n ns -> ~ In n (gnodes g) -> upstream g ns = Err NetworkXError.
Proof.
  intros g ns n W H1 H2. apply (mapM_missing (ancestors g) g ns n); auto.
  - intros m Hm. destruct (ancestors_spec g m W Hm) as [l [Hl _]]. eauto.
  - intros m Hm. apply ancestors_missing; auto.
Qed.

Lemma downstream_missing : forall g ns n, wf g -> In n ns -> ~ In n (gnodes g) -> downstream g ns = Err NetworkXError.
Proof.
  intros g ns n W H1 H2. apply (mapM_missing (descendants g) g ns n); auto.
  - intros m Hm. destruct (descendants_spec g m W Hm) as [l [Hl _]]. eauto.
  - intros m Hm. apply descendants_missing; auto.
Qed.

Lemma roots_nonempty : forall g, wf g -> acyclic g -> gnodes g <> [] -> roots g <> [].
Proof.
  intros g W A Hne Hr. destruct (no_source_cycle g (gnodes g) Hne) as [x Hx]; [|apply (A x); auto].
  intros x Hx. destruct (preds g x) as [|p l] eqn:E.
  - exfalso. assert (Hi : In x (roots g)).
    { unfold roots. apply filter_In. split; auto. rewrite E. auto. }
    rewrite Hr in Hi. destruct Hi.
  - assert (He : edge g p x) by (apply preds_In; rewrite E; simpl; auto).
    exists p. split; auto. apply (wf_src g W p x); auto.
Qed.

Lemma leaves_nonempty : forall g, wf g -> acyclic g -> gnodes g <> [] -> leaves g <> [].
Proof.
  intros g W A Hne Hr. destruct (no_sink_cycle g (gnodes g) Hne) as [x Hx]; [|apply (A x); auto].
  intros x Hx. destruct (succs g x) as [|p l] eqn:E.
  - exfalso. assert (Hi : In x (leaves g)).
    { unfold leaves. apply filter_In. split; auto. rewrite E. auto. }
    rewrite Hr in Hi. destruct Hi.
  - assert (He : edge g x p) by (apply succs_In; rewrite E; simpl; auto).
    exists p. split; auto. apply (wf_dst g W x p); auto.
Qed.

Lemma get_minimal_nodes_spec : forall g included given, wf g ->
  incl included (gnodes g) -> incl given (gnodes g) -> included <> [] ->
  exists l, get_minimal_nodes g included (Some given) = Ok l
    /\ lists l (fun x => needed g included given x /\ ~ In x given).
Proof.
  intros g included given W H1 H2 H3. unfold get_minimal_nodes.
  destruct (get_sufficient_nodes_spec g included given W H1 H2 H3) as [l [Hl [Hd Hi]]].
  rewrite Hl. simpl. eexists. split; [reflexivity|]. split.
  - apply NoDup_filter; auto.
  - intros x. rewrite diff_In, Hi. tauto.
Qed.

Lemma get_minimal_nodes_none : forall g included, wf g -> exists e,
  get_minimal_nodes g included None = Err e /\ (e = TypeError \/ e = NetworkXError).
Proof.
  intros g included W. unfold get_minimal_nodes.
  destruct (get_sufficient_nodes g included []) as [l|e] eqn:E; simpl; eauto.
  exists e. split; auto. unfold get_sufficient_nodes in E. simpl in E.
  destruct (mapM (ancestors g) included) as [ls|e'] eqn:Em; simpl in E.
  - destruct ls; simpl in E; [inversion E; auto|discriminate].
  - inversion E; subst. apply mapM_err in Em. destruct Em as [x [_ Hx]].
    unfold ancestors, nx_reach in Hx. destruct (has_node g x); [discriminate|inversion Hx; auto].
Qed.
