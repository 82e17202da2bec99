(** * Properties C116, C117: the order of definitions and of parents; sampling what is needed

    Parents are a set in Python (util.py:111), iterated in an order that changes from one run of
    the interpreter to the next; the graph, and with it the order of sampling, remembers it. *)

Require Import Verif.Base Verif.World Verif.ModelGraph Verif.ModelExpr Verif.ModelLoci Verif.ModelBN Verif.ModelSample
        Verif.Spec Verif.SpecBN Verif.SpecExpr Verif.SpecSample Verif.ProofBase Verif.ProofGraph Verif.ProofExpr Verif.ProofBN
        Verif.ProofBNViews Verif.ProofBNHist Verif.ProofSample Verif.PropsBN Verif.PropsSample Verif.ExWorld.
Require Import Coq.ZArith.ZArith.

Section Spec.
  Context {w : world}.
  (** the same definition, the parents being listed in any order *)
  Inductive same_loci : loci w -> loci w -> Prop :=
  | sl_value : forall n v, same_loci (LValue n v) (LValue n v)
  | sl_exo : forall n, same_loci (LExo n) (LExo n)
  | sl_dist : forall n f ps ps', (forall p, In p ps <-> In p ps') -> same_loci (LDist n f ps) (LDist n f ps')
  | sl_func : forall n e ps ps', (forall p, In p ps <-> In p ps') -> same_loci (LFunc n e ps) (LFunc n e ps')
  | sl_pseudo : forall n ps ps', (forall p, In p ps <-> In p ps') -> same_loci (LPseudo n ps) (LPseudo n ps').
  (** the same definitions, given in any order *)
  Definition same_defs (b b' : bn w) : Prop :=
    (forall n l, holds b n l -> exists l', holds b' n l' /\ same_loci l l') /\ (forall n, node b' n -> node b n).

  Lemma holds_fun : forall (b : bn w) n l l', holds b n l -> holds b n l' -> l = l'.
  Proof. intros b n l l' [a [H1 H2]] [a' [H3 H4]]. congruence. Qed.
  Lemma same_sym : forall l l', same_loci l l' -> same_loci l' l.
  Proof. intros l l' H. inversion H; subst; constructor; intros p; symmetry; auto. Qed.
  Lemma same_back : forall b b', same_defs b b' -> forall n l', holds b' n l' -> exists l, holds b n l /\ same_loci l l'.
  Proof.
    intros b b' [S1 S2] n l' H. destruct (node_holds b n (S2 n (holds_node b' n l' H))) as [l Hl]. exists l. split; auto.
    destruct (S1 n l Hl) as [l2 [H2 H3]]. rewrite (holds_fun b' n l' l2 H H2). auto.
  Qed.
  Lemma same_swap : forall b b', same_defs b b' -> same_defs b' b.
  Proof.
    intros b b' S. split.
    - intros n l' H. destruct (same_back b b' S n l' H) as [l [H1 H2]]. exists l. split; auto. apply same_sym. auto.
    - intros n H. destruct (node_holds b n H) as [l Hl]. destruct (proj1 S n l Hl) as [l' [H' _]]. exact (holds_node b' n l' H').
  Qed.
  Lemma same_parents : forall l l', same_loci l l' -> forall p, In p (loci_parents l) <-> In p (loci_parents l').
  Proof. intros l l' H p. inversion H; subst; simpl; auto; tauto. Qed.

  (** what a definition without a draw gave is given by the same definition from the same values *)
  Lemma again : forall b b' (d : env w) n l', coherent b -> same_defs b b' -> produced b d n -> holds b' n l' -> is_rv_l l' = false ->
    forall rho r, below rho d -> (forall p, In p (loci_parents l') -> rho p <> None) ->
    exists v, render l' rho r = Ok (v, r) /\ d n = Some v.
  Proof.
    intros b b' d n l' C S P H' N rho r B Q. destruct (same_back b b' S n l' H') as [l [H L]].
    destruct P as (l0 & rho0 & r1 & v & r2 & P1 & P2 & P3 & P4 & P5 & P6). rewrite (holds_fun b n l0 l P1 H) in *. clear l0 P1.
    exists v. inversion L; subst l l'; cbn [render] in *.
    - injection P5 as <- <-. auto.
    - pose proof (co_name b C n _ H) as X. cbn [loci_name] in X. subst n0. rewrite P3 in P5. discriminate.
    - discriminate N.
    - destruct (restrict_ok rho0 ps) as [d0 [R1 R2]]; [intros p Hp; apply P4; auto|].
      destruct (restrict_ok rho ps') as [d1 [R3 R4]]; [intros p Hp; apply Q; auto|].
      rewrite R1 in P5. rewrite R3.
      assert (E : execute e (dget d0) = execute e (dget d1)).
      { unfold execute. apply eval_agree. intros x _. rewrite R2, R4. destruct (mem x ps) eqn:M.
        - apply mem_In in M. assert (M' : In x ps') by (apply H0; auto). replace (mem x ps') with true by (symmetry; apply mem_In; auto).
          rewrite (below_agree rho0 d x P2 (P4 x M)), (below_agree rho d x B (Q x M')). auto.
        - replace (mem x ps') with false; auto. symmetry. apply mem_false. intros K. apply H0, mem_In in K. congruence. }
      rewrite <- E. destruct (execute e (dget d0)) as [u|[]]; try discriminate P5. injection P5 as <- <-. auto.
    - discriminate P5.
  Qed.
End Spec.

(** The log-probability of given values. *)
Theorem C116_density : forall w (b b' : bn w) pars, same_defs b b' -> evaluate_nodes b pars = evaluate_nodes b' pars.
Proof.
  intros w b b' pars S. unfold evaluate_nodes.
  assert (I : forall n, in_dag b n = in_dag b' n).
  { intros n. apply eq_iff_eq_true. rewrite !in_dag_spec. split; [apply (same_swap b b' S)|apply S]. }
  rewrite (filter_ext (in_dag b) (in_dag b') I). f_equal. apply mapM_ext_in. intros k K. apply filter_In in K. destruct K as [_ K].
  apply in_dag_spec in K. destruct (node_holds b' k K) as [l' H']. destruct (same_back b b' S k l' H') as [l [H L]].
  rewrite (proj2 (bget_holds b k l) H), (proj2 (bget_holds b' k l') H'). cbn [bind]. inversion L; subst; auto.
Qed.
Print Assumptions C116_density.

Lemma render_quiet : forall w (l : loci w) rho r v r', is_rv_l l = false -> render l rho r = Ok (v, r') -> r' = r.
Proof.
  intros w l rho r v r' N H. destruct l; cbn [render is_rv_l] in *; try discriminate.
  - congruence.
  - destruct (rho n); congruence.
  - destruct (restrict rho pas) as [d0|x]; [|discriminate]. destruct (execute e (dget d0)) as [u|[]]; congruence.
Qed.
Lemma run_quiet : forall w (b : bn w) ns d r d2 r2, run b ns d r d2 r2 -> (forall n l, In n ns -> holds b n l -> is_rv_l l = false) -> r2 = r.
Proof.
  intros w b ns d r d2 r2 H. induction H; intros N; auto. rewrite IHrun; [|intros m l0 K; apply N; right; auto].
  eapply render_quiet; [|eauto]. apply (N n); [left; auto|auto].
Qed.
Lemma run_agree : forall w (b b' : bn w) (d : dict (V w)), coherent b -> same_defs b b' -> forall ns d0 r d' r', run b' ns d0 r d' r' ->
  below (dget d0) (dget d) -> (forall n, In n ns -> produced b (dget d) n) ->
  (forall n l', holds b' n l' -> is_rv_l l' = true -> In n ns -> dget d n = dget d' n) -> below (dget d') (dget d).
Proof.
  intros w b b' d C S ns d0 r d' r' H. induction H as [|n l ns d0 r v r1 d2 r2 H1 H2 H3 H4 H5 IH]; intros B P A; auto.
  apply IH; [|intros m K; apply P; right; auto|intros m l' K1 K2 K3; apply (A m l'); auto; right; auto].
  assert (V : dget d n = Some v).
  { destruct (is_rv_l l) eqn:N.
    - rewrite (A n l H1 N (or_introl eq_refl)). apply (run_below b' ns _ _ _ _ H5). rewrite dget_dset, String.eqb_refl. auto.
    - destruct (again b b' (dget d) n l C S (P n (or_introl eq_refl)) H1 N (dget d0) r B) as [u [U1 U2]].
      + intros p Hp. apply in_keys_some. apply H3. auto.
      + rewrite H4 in U1. injection U1 as <- _. auto. }
  intros x u. rewrite dget_dset. destruct (String.eqb_spec x n) as [->|K]; [congruence|]. apply B.
Qed.

(** Samples of the same definitions with the same values given and drawn are the same. *)
Theorem C116_agree : forall w (b b' : bn w) cond r r1 r2 r3 d d', built b -> built b' -> same_defs b b' ->
  sample b cond r = (Ok d, r1) -> sample b' cond r2 = (Ok d', r3) ->
  (forall n, random b n -> dget d n = dget d' n) -> forall k, dget d k = dget d' k.
Proof.
  intros w b b' cond r r1 r2 r3 d d' B B' S H H' A k.
  destruct (C25_complete w b cond r d r1 B H) as [K1 [K2 K3]]. destruct (C25_complete w b' cond r2 d' r3 B' H') as [K1' [K2' K3']].
  destruct (C25_sample_run w b' cond r2 d' r3 B' H') as [ns [[[T1 T2] T3] R]].
  assert (X : below (dget d') (dget d)).
  { apply (run_agree w b b' d (proj1 (built_coherent b B)) S ns cond r2 d' r3 R).
    - exact K2.
    - intros n Hn. apply T2 in Hn. apply K3; [apply S|]; tauto.
    - intros n l' L N _. destruct (same_back b b' S n l' L) as [l [L1 L2]]. apply A. exists l. split; auto. inversion L2; subst; auto. }
  destruct (dget d' k) as [v|] eqn:E; [apply X; auto|]. destruct (dget d k) as [v|] eqn:E2; auto. exfalso.
  assert (I : In k (dkeys d)) by (apply dget_In; eauto). apply K1 in I.
  assert (J : In k (dkeys d')) by (apply K1'; destruct I as [I|I]; [left; apply (same_swap b b' S); auto|auto]).
  apply dget_In in J. destruct J. congruence.
Qed.
Print Assumptions C116_agree.

(** If no draw is needed, the order matters not at all: success, values, and the generator untouched. *)
Theorem C116_no_draws : forall w (b b' : bn w) cond r r1 r2 d, built b -> built b' -> same_defs b b' ->
  (forall n, random b n -> In n (dkeys cond)) -> sample b cond r = (Ok d, r1) ->
  r1 = r /\ exists d', sample b' cond r2 = (Ok d', r2) /\ forall k, dget d k = dget d' k.
Proof.
  intros w b b' cond r r1 r2 d B B' S N H.
  destruct (C25_complete w b cond r d r1 B H) as [K1 [K2 K3]]. pose proof (proj1 (built_coherent b B)) as C.
  assert (Q : forall n l, holds b n l -> ~ In n (dkeys cond) -> is_rv_l l = false).
  { intros n l L K. destruct (is_rv_l l) eqn:E; auto. destruct K. apply N. exists l. auto. }
  assert (Q' : forall n l', holds b' n l' -> ~ In n (dkeys cond) -> is_rv_l l' = false).
  { intros n l' L K. destruct (same_back b b' S n l' L) as [l [L1 L2]]. specialize (Q n l L1 K). inversion L2; subst; auto. }
  split.
  - destruct (C25_sample_run w b cond r d r1 B H) as [ns [[[T1 T2] T3] R]]. apply (run_quiet w b ns cond r d r1 R).
    intros n l Hn L. apply (Q n l L). apply T2. auto.
  - destruct (C25_succeeds w b' cond r2 (fun k v => dget d k = Some v) B') as [d' [r3 [H' X]]].
    + intros n L. destruct (same_back b b' S n _ L) as [l [L1 L2]]. inversion L2; subst. destruct (In_dec_name n (dkeys cond)) as [|K]; auto.
      rewrite (C26_missing_exo w b cond r B) in H; [discriminate|exists n; auto].
    + exact K2.
    + intros n Hn Hc l' rho r0 L Hr Hp.
      destruct (again b b' (dget d) n l' C S (K3 n (proj2 S n Hn) Hc) L (Q' n l' L Hc) rho r0) as [v [V1 V2]].
      * intros x v Hx. apply (Hr x v Hx).
      * exact Hp.
      * exists v, r0. auto.
    + assert (E : r3 = r2).
      { destruct (C25_sample_run w b' cond r2 d' r3 B' H') as [ns [[[T1 T2] T3] R]]. apply (run_quiet w b' ns cond r2 d' r3 R).
        intros n l Hn L. apply (Q' n l L). apply T2. auto. }
      subst r3. exists d'. split; auto. apply (C116_agree w b b' cond r r1 r2 r2 d d' B B' S H H').
      intros n Hn. apply N in Hn. apply dget_In in Hn. destruct Hn as [v V]. rewrite (K2 n v V). symmetry.
      apply (C25_complete w b' cond r2 d' r2 B' H'). auto.
Qed.
Print Assumptions C116_no_draws.

(** With draws it matters: z = x - y before x ~ norm(0, 1) and y ~ norm(0, 1), the parents of z
    iterated as x, y and as y, x. The same script with the same seed gives other values. *)
Definition ls1 : list (loci exw) := [LFunc "z" (EOp "-" [EName "x"; EName "y"]) ["x"; "y"]; LDist "x" (e_norm (ENum "0") (ENum "1")) []; LDist "y" (e_norm (ENum "0") (ENum "1")) []].
Definition ls2 : list (loci exw) := [LFunc "z" (EOp "-" [EName "x"; EName "y"]) ["y"; "x"]; LDist "x" (e_norm (ENum "0") (ENum "1")) []; LDist "y" (e_norm (ENum "0") (ENum "1")) []].
Definition net1 : bn exw := mkBn "net"
  [("z", mkAttr (LFunc "z" (EOp "-" [EName "x"; EName "y"]) ["x"; "y"]) None); ("x", mkAttr (LDist "x" (e_norm (ENum "0") (ENum "1")) []) None);
   ("y", mkAttr (LDist "y" (e_norm (ENum "0") (ENum "1")) []) None)] [("x", "z"); ("y", "z")] false None [].
Definition net2 : bn exw := mkBn "net"
  [("z", mkAttr (LFunc "z" (EOp "-" [EName "x"; EName "y"]) ["y"; "x"]) None); ("y", mkAttr (LDist "y" (e_norm (ENum "0") (ENum "1")) []) None);
   ("x", mkAttr (LDist "x" (e_norm (ENum "0") (ENum "1")) []) None)] [("y", "z"); ("x", "z")] false None [].
Lemma net1_defs : defs (bn_new "net") ls1 = net1. Proof. exact (eq_refl net1 <: defs (bn_new "net") ls1 = net1). Qed.
Lemma net2_defs : defs (bn_new "net") ls2 = net2. Proof. exact (eq_refl net2 <: defs (bn_new "net") ls2 = net2). Qed.
Lemma net1_built : built net1. Proof. rewrite <- net1_defs. apply defs_built; [constructor|vm_compute; reflexivity]. Qed.
Lemma net2_built : built net2. Proof. rewrite <- net2_defs. apply defs_built; [constructor|vm_compute; reflexivity]. Qed.
Lemma nets_same : same_defs net1 net2.
Proof.
  assert (D : forall n a, dget (b_attrs net1) n = Some a -> exists a', dget (b_attrs net2) n = Some a' /\ same_loci (a_loci a) (a_loci a')).
  { intros n a. cbn [net1 net2 b_attrs dget]. destruct (String.eqb n "z") eqn:Z; [intros K; injection K as <-; eexists; split; [reflexivity|constructor; simpl; tauto]|].
    destruct (String.eqb n "x") eqn:X.
    - intros K. injection K as <-. apply String.eqb_eq in X. subst n. eexists. split; [reflexivity|constructor; simpl; tauto].
    - destruct (String.eqb n "y") eqn:Y; [|discriminate]. intros K. injection K as <-. eexists. split; [reflexivity|constructor; simpl; tauto]. }
  split.
  - intros n l [a [A1 A2]]. destruct (D n a A1) as [a' [D1 D2]]. exists (a_loci a'). subst l. split; [exists a'; auto|auto].
  - intros n H. unfold node in *. cbn in *. tauto.
Qed.

Theorem C116_seed_refuted : exists w (ls ls' : list (loci w)) b b' r d d' r1 r2 n, Forall2 same_loci ls ls'
  /\ defs (bn_new "net") ls = b /\ defs (bn_new "net") ls' = b' /\ built b /\ built b' /\ same_defs b b'
  /\ sample b [] r = (Ok d, r1) /\ sample b' [] r = (Ok d', r2) /\ dget d n <> dget d' n.
Proof.
  exists exw, ls1, ls2, net1, net2, 0, [("x", PZ 0); ("y", PZ 1); ("z", PZ (-1))], [("y", PZ 0); ("x", PZ 1); ("z", PZ 1)], 2, 2, "z".
  splits; [|exact net1_defs|exact net2_defs|exact net1_built|exact net2_built|exact nets_same|vm_compute; reflexivity|vm_compute; reflexivity|discriminate].
  unfold ls1, ls2. apply Forall2_cons; [apply sl_func; simpl; tauto|]. apply Forall2_cons; [apply sl_dist; simpl; tauto|].
  apply Forall2_cons; [apply sl_dist; simpl; tauto|apply Forall2_nil].
Qed.
Print Assumptions C116_seed_refuted.

(** the hypotheses of the theorems above: x and y given, or drawn with the same values *)
Example C116_example : built net1 /\ built net2 /\ same_defs net1 net2
  /\ (forall n, random net1 n -> In n (dkeys [("x", PZ 4); ("y", PZ 3)]))
  /\ sample net1 [("x", PZ 4); ("y", PZ 3)] 7 = (Ok [("x", PZ 4); ("y", PZ 3); ("z", PZ 1)], 7)
  /\ sample net2 [("x", PZ 4); ("y", PZ 3)] 9 = (Ok [("x", PZ 4); ("y", PZ 3); ("z", PZ 1)], 9)
  /\ evaluate_nodes net2 [("x", PZ 4); ("y", PZ 3); ("z", PZ 1)] = Ok (LZ (-7)).
Proof.
  splits; [exact net1_built|exact net2_built|exact nets_same| |vm_compute; reflexivity|vm_compute; reflexivity|vm_compute; reflexivity].
  intros n [l [[a [A1 A2]] A3]]. cbn [net1 b_attrs dget] in A1. simpl.
  destruct (String.eqb n "z") eqn:Z; [injection A1 as <-; subst l; discriminate A3|].
  destruct (String.eqb_spec n "x") as [->|X]; [auto|]. destruct (String.eqb_spec n "y") as [->|Y]; [auto|discriminate].
Qed.

(** ** C117: sampling what is needed and sampling everything *)

Lemma same_refl : forall w (b : bn w), same_defs b b.
Proof.
  intros w b. split; auto. intros n l H. exists l. split; auto. destruct l; constructor; tauto.
Qed.

(** With the same values given, and the same values drawn for the random nodes both compute,
    both give the same values to all nodes that are needed. *)
Theorem C117_agree : forall w (b : bn w) included cond r r1 r2 r3 d si me, built b ->
  sample b cond r = (Ok d, r1) -> sample_minimally b included cond r2 = (Ok (si, me), r3) ->
  (forall n, random b n -> In n (dkeys si) \/ In n (dkeys me) -> dget d n = match dget si n with Some v => Some v | None => dget me n end) ->
  (forall k v, dget si k = Some v -> dget d k = Some v) /\ (forall k v, dget me k = Some v -> dget d k = Some v)
  /\ (forall k, In k included -> exists v, dget si k = Some v /\ dget d k = Some v).
Proof.
  intros w b included cond r r1 r2 r3 d si me B H M A.
  destruct (C25_complete w b cond r d r1 B H) as [K1 [K2 K3]].
  destruct (C27_minimal w b included cond r2 si me r3 B M) as [ns [d0 [[[T1 T2] T3] [R [H1 [H2 [H3 H4]]]]]]].
  assert (ME : forall k v, dget d0 k = Some v -> match dget si k with Some v => Some v | None => dget me k end = Some v).
  { intros k v V. destruct (dget si k) as [u|] eqn:E; [apply H2 in E; destruct E; congruence|].
    apply H3. split; auto. intros I. assert (X : dget si k = Some v) by (apply H2; auto). congruence. }
  assert (Nd : forall n, In n ns -> node b n).
  { intros n Hn. destruct (In_dec_name n (dkeys (b_attrs b))) as [|N]; auto. exfalso.
    apply in_split in Hn. destruct Hn as [n1 [n2 ->]]. clear - R N. revert cond r2 d0 r3 R. induction n1 as [|m n1 IH]; intros c q d0 q' R; inversion R; subst.
    - apply N. eapply holds_node; eassumption.
    - eapply IH; eauto. }
  assert (X : below (dget d0) (dget d)).
  { apply (run_agree w b b d (proj1 (built_coherent b B)) (same_refl w b) ns cond r2 d0 r3 R).
    - exact K2.
    - intros n Hn. apply K3; [apply Nd; auto|apply T2; auto].
    - intros n l' L N Hn.
      assert (I : In n (dkeys d0)) by (rewrite (run_keys b ns cond r2 d0 r3 R); apply in_or_app; auto).
      apply dget_In in I. destruct I as [v V]. pose proof (ME n v V) as Z. rewrite V.
      assert (Q : dget d n = Some v).
      { rewrite <- Z. apply A; [exists l'; auto|]. destruct (dget si n) as [u|] eqn:E; [left; apply dget_In; eauto|right; apply dget_In; eauto]. }
      congruence. }
  splits.
  - intros k v K. apply X. apply H2. auto.
  - intros k v K. apply X. apply H3. auto.
  - intros k K. pose proof (H1 k K) as I. apply dget_In in I. destruct I as [v V]. exists v. split; [apply H2; auto|apply X; auto].
Qed.
Print Assumptions C117_agree.

(** If no draw is needed, sampling everything successfully means that sampling what is needed
    succeeds too, with the same values and the generator untouched. *)
Theorem C117_no_draws : forall w (b : bn w) included cond r r1 r2 d, built b ->
  included <> [] -> (forall n, In n included -> node b n) -> (forall n, In n (dkeys cond) -> node b n) ->
  (forall n, random b n -> In n (dkeys cond)) -> sample b cond r = (Ok d, r1) ->
  exists si me, sample_minimally b included cond r2 = (Ok (si, me), r2)
    /\ (forall k v, dget si k = Some v <-> In k included /\ dget d k = Some v)
    /\ (forall k v, dget me k = Some v -> dget d k = Some v).
Proof.
  intros w b included cond r r1 r2 d B Ne Hi Hg N H.
  destruct (C25_complete w b cond r d r1 B H) as [K1 [K2 K3]]. pose proof (proj1 (built_coherent b B)) as C.
  assert (Q : forall n l, holds b n l -> ~ In n (dkeys cond) -> is_rv_l l = false).
  { intros n l L K. destruct (is_rv_l l) eqn:E; auto. destruct K. apply N. exists l. auto. }
  destruct (C27_succeeds w b included cond r2 (fun k v => dget d k = Some v) B Hi Hg Ne) as [si [me [r3 M]]].
  - intros n L _. destruct (In_dec_name n (dkeys cond)) as [|K]; auto. rewrite (C26_missing_exo w b cond r B) in H; [discriminate|exists n; auto].
  - exact K2.
  - intros n Hn Hc l rho r0 L Hr Hp.
    destruct (again b b (dget d) n l C (same_refl w b) (K3 n (holds_node b n l L) Hc) L (Q n l L Hc) rho r0) as [v [V1 V2]].
    + intros x v Hx. apply (Hr x v Hx).
    + exact Hp.
    + exists v, r0. auto.
  - destruct (C27_minimal w b included cond r2 si me r3 B M) as [ns [d0 [[[T1 T2] T3] [R [H1 [H2 [H3 H4]]]]]]].
    assert (E : r3 = r2).
    { apply (run_quiet w b ns cond r2 d0 r3 R). intros n l Hn L. apply (Q n l L). apply T2. auto. }
    subst r3. exists si, me. split; auto.
    destruct (C117_agree w b included cond r r1 r2 r2 d si me B H M) as [A1 [A2 A3]].
    + intros n Hn _. apply N in Hn. apply dget_In in Hn. destruct Hn as [v V]. rewrite (K2 n v V).
      assert (V0 : dget d0 n = Some v) by (apply (run_below b ns cond r2 d0 r2 R); auto).
      destruct (dget si n) as [u|] eqn:E; [apply H2 in E; destruct E; congruence|]. symmetry. apply H3. split; auto.
      intros I. assert (X : dget si n = Some v) by (apply H2; auto). congruence.
    + splits; auto. intros k v. split; [intros K; split; [apply H2 in K; tauto|auto]|].
      intros [I V]. destruct (A3 k I) as [u [U1 U2]]. congruence.
Qed.
Print Assumptions C117_no_draws.

(** With x given, y needs k only: where nothing is given for a and s, sampling everything raises and
    sampling what y needs does not. *)
Example C117_example : sample exnet [("a", PZ 1); ("s", PZ 2); ("x", PZ 3)] 5 = (Ok [("a", PZ 1); ("s", PZ 2); ("x", PZ 3); ("k", PZ 2); ("y", PZ 5); ("z", PZ 32)], 5)
  /\ sample_minimally exnet ["y"] [("a", PZ 1); ("s", PZ 2); ("x", PZ 3)] 9 = (Ok ([("y", PZ 5)], [("a", PZ 1); ("s", PZ 2); ("x", PZ 3); ("k", PZ 2)]), 9)
  /\ sample exnet [("x", PZ 3)] 5 = (Err ValueError, 5)
  /\ sample_minimally exnet ["y"] [("x", PZ 3)] 5 = (Ok ([("y", PZ 5)], [("x", PZ 3); ("k", PZ 2)]), 5).
Proof. splits; vm_compute; reflexivity. Qed.
