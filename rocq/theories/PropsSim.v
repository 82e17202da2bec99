(** * Properties C41-C47, C50: parameter cores (simulation/parcore.py, simugroup.py, actor.py) *)

Require Import Coq.ZArith.ZArith Coq.micromega.Lia.
Require Import Verif.Base Verif.World Verif.ModelGraph Verif.ModelExpr Verif.ModelLoci Verif.ModelBN Verif.ModelSample Verif.ModelSim
        Verif.Spec Verif.SpecBN Verif.SpecExpr Verif.SpecSample Verif.SpecSim
        Verif.ProofBase Verif.ProofGraph Verif.ProofExpr Verif.ProofBN Verif.ProofBNHist Verif.ProofSample
        Verif.ProofSim Verif.ProofSimResp Verif.ProofSimImp Verif.ProofSimActors Verif.ProofSimGen Verif.ExWorld Verif.PropsBN.
Notation lookup := ModelSim.lookup.

(** ** The examples: a is given and k fixed at the root, individuals have their own x and y, and
    sample z *)
Definition exsc : simcore exw := mkSC exnet "ag"
  [("ag", mkGroup "ag" ["ind"] [] ["a"; "s"; "k"] [("x", mkBp "x" Frozen ["a"; "s"] [])] []);
   ("ind", mkGroup "ind" [] ["a"; "s"; "k"] ["x"; "y"] [("z", mkBp "z" Frozen ["y"; "a"] [])] [("z", mkBp "z" Single ["y"; "a"] [])])].

(** comparing cores without their types *)
Definition show (c : core exw) : name * list (name * pv) * lp * option nat * list (name * nat) :=
  (k_nick c, k_locus c, k_lp c, k_parent c, k_children c).
Definition shows {A} (o : res A * cores exw * nat) : option exn * list (name * list (name * pv) * lp * option nat * list (name * nat)) * nat :=
  match o with (x, h, r) => (match x with Ok _ => None | Err e => Some e end, map show h, r) end.

Definition exh1 : cores exw := snd (fst (sc_generate exsc "root" [("a", PZ 1); ("s", PZ 2)] [] 0)).
Definition exh2 : cores exw := snd (fst (breed exsc 0 "i1" "ind" [] exh1 4)).
Definition exh3 : cores exw := snd (fst (get_actors exsc exh2 1 false 9)).

Lemma exh1_history : history exsc exh1.
Proof.
  destruct (sc_generate exsc "root" [("a", PZ 1); ("s", PZ 2)] [] 0) as [[o h] r] eqn:E.
  assert (h = exh1) by (unfold exh1; rewrite E; auto). subst. eapply hi_root; [constructor|exact E].
Qed.
Lemma exh2_history : history exsc exh2.
Proof.
  destruct (breed exsc 0 "i1" "ind" [] exh1 4) as [[o h] r] eqn:E.
  assert (h = exh2) by (unfold exh2; rewrite E; auto). subst. eapply hi_breed; [exact exh1_history|exact E].
Qed.
Lemma exh3_history : history exsc exh3.
Proof.
  destruct (get_actors exsc exh2 1 false 9) as [[o h] r] eqn:E.
  assert (h = exh3) by (unfold exh3; rewrite E; auto). subst. eapply hi_actors; [exact exh2_history|exact E].
Qed.
Lemma exh3_show : map show exh3 =
  [("root", [("a", PZ 1); ("s", PZ 2); ("k", PZ 2)], LZ 0, None, [("i1", 1)]);
   ("i1", [("x", PZ 5); ("y", PZ 7)], LZ (-4), Some 0, [])].
Proof. vm_compute. reflexivity. Qed.
Lemma exnet_edges : forall p n, edge (dag exnet) p n ->
  In (p, n) [("a", "x"); ("s", "x"); ("x", "y"); ("k", "y"); ("y", "z"); ("a", "z")].
Proof. intros p n H. exact H. Qed.
Ltac nodup := repeat (apply NoDup_cons; [simpl; intuition discriminate|]); apply NoDup_nil.
Lemma exsc_sorted : groups_sorted exsc.
Proof.
  assert (X : forall x, In x ["a"; "s"; "k"; "x"; "y"] -> node exnet x).
  { intros x H. simpl in H. intuition (subst; apply node_dec_true; reflexivity). }
  intros k g H. simpl in H. destruct (String.eqb k "ag"); [|destruct (String.eqb k "ind"); [|discriminate]]; inversion H; subst; clear H; simpl; unfold sorted.
  - splits.
    + nodup.
    + intros n Hn. apply X. simpl in *. tauto.
    + intros p n E A B. apply exnet_edges in E. simpl in E, A, B. exfalso. intuition (subst; discriminate || congruence).
  - splits.
    + nodup.
    + intros n Hn. apply X. simpl in *. tauto.
    + intros p n E A B. apply exnet_edges in E. simpl in E, A, B.
      assert (p = "x" /\ n = "y") as [-> ->] by (intuition (subst; discriminate || congruence)). exists [], [], []. auto.
Qed.
Lemma exsc_blueprints : blueprints_ok exsc.
Proof.
  intros gn g k p H B. simpl in H. destruct (String.eqb gn "ag"); [|destruct (String.eqb gn "ind"); [|discriminate]]; inversion H; subst; clear H; simpl in B.
  - destruct B as [[Q|[]]|[]]. inversion Q; subst. split; auto. intros _ x Hx. simpl in Hx. unfold edge. simpl. intuition (subst; auto 10).
  - destruct B as [[Q|[]]|[Q|[]]]; inversion Q; subst; split; auto; simpl; [|discriminate].
    intros _ x Hx. unfold edge. simpl. intuition (subst; auto 10).
Qed.

(** ** C41 *)

(** Missing: every exogenous name of the group must be given or visible in the parent. Without that
    the code replaces the value it has just computed by None, see C41_generate_refuted. *)
Theorem C41_generate_partial : forall w (sc : simcore w) g nick par exo h r i h' r',
  built (sc_bn sc) -> sorted (sc_bn sc) (g_fixed g) -> history sc h -> NoDup (dkeys exo) ->
  (forall d, In d (g_exo g) -> In d (dkeys exo) \/ exists v, from_parent h par d v) ->
  generate sc g nick par exo h r = (Ok i, h', r') ->
  exists c, h' = h ++ [c] /\ i = length h /\ k_nick c = nick /\ k_parent c = par /\ k_group c = g_name g /\
  (* given values are kept, and besides them only fixed nodes are held *)
  (forall x v, dget exo x = Some v -> dget (k_locus c) x = Some v)
  /\ (forall x, In x (dkeys (k_locus c)) -> In x (dkeys exo) \/ In x (g_fixed g))
  /\ exists seen : env w,
       (* what the new core sees *)
       (forall x v, seen x = Some v <-> dget (k_locus c) x = Some v \/ ~ In x (dkeys (k_locus c)) /\ In x (g_exo g) /\ from_parent h par x v)
       /\ (forall n, In n (g_fixed g) -> ~ In n (dkeys exo) ->
            match dget (k_locus c) n with
            | Some v => if mem n (g_exo g) then from_parent h par n v else made (sc_bn sc) seen n v
            | None => exists l, holds (sc_bn sc) n l /\ forall r, render l seen r = Err KeyError
            end).
Proof.
  intros w sc g nick par exo h r i h' r' B S H ND F G. destruct (built_coherent _ B) as [C _].
  pose proof (history_forest _ _ H) as Fo. unfold generate in G.
  destruct (gen_exo (sc_bn sc) h par (g_exo g) exo r) as [[vs|e] r1] eqn:E1; [|discriminate].
  destruct (gen_fixed (sc_bn sc) (g_fixed g) vs (lp_zero w) r1) as [[[vs' prior]|e] r2] eqn:E2; [|discriminate].
  inversion G; subst. clear G. destruct S as [S1 [S2 S3]].
  assert (Fp : forall x v, from_parent h par x v <-> (match par with Some p => lookup h p x | None => None end) = Some v).
  { intros x v. unfold from_parent. destruct par as [p|].
    - split; [intros [q [Q N]]; inversion Q; subst; apply lookup_nearest; auto|]. intros L. exists p. split; auto. apply lookup_nearest; auto.
    - split; [intros [q [Q _]]; discriminate|discriminate]. }
  assert (F' : forall d, In d (g_exo g) -> In d (dkeys exo) \/ exists p v, par = Some p /\ lookup h p d = Some v).
  { intros d Hd. destruct (F d Hd) as [|[v [p [Q N]]]]; auto. right. exists p, v. split; auto. apply lookup_nearest; auto. }
  pose proof (gen_exo_ok _ _ _ _ _ _ _ _ F' E1) as X.
  destruct (gen_fixed_ok _ C _ _ _ _ _ _ _ S1 S3 E2) as [Y1 [Y2 Y3]].
  set (loc := dupdate (dfilter (fun k => mem k (g_fixed g)) vs') exo).
  assert (L : forall x, dget loc x = match dget exo x with Some v => Some v | None => if mem x (g_fixed g) then dget vs' x else None end).
  { intros x. unfold loc. rewrite dget_dupdate_NoDup, dget_dfilter; auto. }
  (* vs' is what the core sees *)
  assert (Se : forall x v, dget vs' x = Some v <-> dget loc x = Some v \/ ~ In x (dkeys loc) /\ In x (g_exo g) /\ from_parent h par x v).
  { intros x v. rewrite <- dget_None, L, Fp. specialize (X x). destruct (dget exo x) as [u|] eqn:Ex.
    - rewrite (Y1 _ _ X). split; [auto|]. intros [|[Q _]]; auto. discriminate.
    - destruct (mem x (g_fixed g)) eqn:M.
      + split; auto. intros [|[Q [Q1 Q2]]]; auto. apply (proj2 (mem_In _ _)) in Q1. rewrite Q1 in X. rewrite Q2 in X. apply Y1. auto.
      + split.
        * intros Q. right. split; auto. destruct (dget vs x) as [u|] eqn:Ev.
          -- rewrite (Y1 _ _ Ev) in Q. inversion Q; subst. destruct (mem x (g_exo g)) eqn:Me; [|discriminate]. split; [apply mem_In; auto|auto].
          -- rewrite Y2 in Q; [discriminate|apply dget_None; auto|apply mem_false; auto].
        * intros [Q|[_ [Q1 Q2]]]; [discriminate|]. apply (proj2 (mem_In _ _)) in Q1. rewrite Q1, Q2 in X. auto. }
  eexists. splits; try reflexivity; cbn [k_locus]; fold loc.
  - intros x v Q. rewrite L, Q. auto.
  - intros x Q. apply dget_In in Q. destruct Q as [v Q]. rewrite L in Q. destruct (dget exo x) as [u|] eqn:Ex; [left; apply dget_In; eauto|].
    destruct (mem x (g_fixed g)) eqn:M; [right; apply mem_In; auto|discriminate].
  - exists (dget vs'). split; [exact Se|]. intros n Hn Hx. rewrite L. apply dget_None in Hx. rewrite Hx.
    rewrite (proj2 (mem_In _ _) Hn). specialize (X n). rewrite Hx in X.
    destruct (dget vs n) as [u|] eqn:Ev.
    + rewrite (Y1 _ _ Ev). destruct (mem n (g_exo g)); [|discriminate]. apply Fp. auto.
    + assert (Nv : ~ In n (dkeys vs)) by (apply dget_None; auto). specialize (Y3 n Hn Nv).
      destruct (mem n (g_exo g)) eqn:Me; [|exact Y3].
      destruct (F' n ltac:(apply mem_In; auto)) as [Q|[p [v [-> Q]]]]; [apply dget_None in Hx; tauto|congruence].
Qed.
Print Assumptions C41_generate_partial.

Example C41_example : sorted exnet ["x"; "y"] /\ history exsc exh1
  /\ (forall d, In d ["a"; "s"; "k"] -> exists v, from_parent exh1 (Some 0) d v)
  /\ shows (breed exsc 0 "i1" "ind" [] exh1 4)
     = (None, [("root", [("a", PZ 1); ("s", PZ 2); ("k", PZ 2)], LZ 0, None, [("i1", 1)]);
               ("i1", [("x", PZ 5); ("y", PZ 7)], LZ (-4), Some 0, [])], 5).
Proof.
  splits.
  - exact (exsc_sorted "ind" _ eq_refl).
  - exact exh1_history.
  - intros d Hd. pose proof (history_forest _ _ exh1_history) as F. simpl in Hd.
    destruct Hd as [<-|[<-|[<-|[]]]]; eexists; exists 0; (split; [auto|]); apply lookup_nearest; auto; vm_compute; reflexivity.
  - vm_compute. reflexivity.
Qed.

(** d has a definition, is neither given nor visible, and ends up as None: e = d is then filled with
    None, a value that follows from nothing the core sees. *)
Definition exnet2 : bn exw := defs (bn_new "n2") [LValue (w:=exw) "d" (PZ 5); LFunc "e" (EName "d") ["d"]].
Lemma exnet2_built : built exnet2.
Proof. unfold exnet2. apply defs_built; [constructor|vm_compute; reflexivity]. Qed.
Definition exg2 : group := mkGroup "g" [] ["d"] ["e"] [] [].

Theorem C41_generate_refuted : exists w (sc : simcore w) g nick par exo h r i h' r' n v c,
  built (sc_bn sc) /\ sorted (sc_bn sc) (g_fixed g) /\ history sc h /\ NoDup (dkeys exo)
  /\ generate sc g nick par exo h r = (Ok i, h', r') /\ at_ h' i c
  /\ In n (g_fixed g) /\ ~ In n (dkeys exo) /\ dget (k_locus c) n = Some v /\ ~ remade (sc_bn sc) (lookup h' i) n v.
Proof.
  pose (sc := mkSC exnet2 "g" [("g", exg2)] : simcore exw).
  exists exw, sc, exg2, "c", None, [], [], 0, 0, [mkCore (w:=exw) "c" "g" [("e", PNone)] (LZ 0) None None [] None None], 0, "e", PNone.
  eexists. splits.
  - exact exnet2_built.
  - unfold sorted; splits; [nodup|intros n [<-|[]]; apply node_dec_true; reflexivity|].
    intros p n E [<-|[]] [<-|[]]. exfalso. destruct (built_coherent _ exnet2_built) as [C _]. apply (co_acyclic _ C "e"). constructor. exact E.
  - constructor.
  - constructor.
  - vm_compute. reflexivity.
  - reflexivity.
  - left. auto.
  - simpl. tauto.
  - reflexivity.
  - intros [l [rho [r [r' [Hl [P R]]]]]].
    assert (He : holds exnet2 "e" (LFunc (w:=exw) "e" (EName "d") ["d"])) by (exists (mkAttr (LFunc (w:=exw) "e" (EName "d") ["d"]) None); split; vm_compute; reflexivity).
    rewrite (holds_fun _ _ _ _ Hl He) in *. specialize (P "d" (or_introl eq_refl)). vm_compute in P.
    simpl in R. rewrite P in R. discriminate.
Qed.
Print Assumptions C41_generate_refuted.

(** ** C42 *)

Theorem C42_lookup : forall w (sc : simcore w) h i x, history sc h -> i < length h ->
  (forall v, lookup h i x = Some v <-> nearest h i x v)
  /\ (lookup h i x = None <-> forall j c, above h i j -> at_ h j c -> ~ In x (dkeys (k_locus c))).
Proof.
  intros w sc h i x H L. pose proof (history_forest _ _ H) as F. split; [intros v; apply lookup_nearest; auto|apply lookup_none; auto].
Qed.
Print Assumptions C42_lookup.

(** The nearest value is unique, and it is the parent's for a name the core does not hold. *)
Theorem C42_inherits : forall w (sc : simcore w) h i c p x, history sc h -> at_ h i c -> k_parent c = Some p ->
  lookup h i x = match dget (k_locus c) x with Some v => Some v | None => lookup h p x end.
Proof.
  intros w sc h i c p x H Hc Hp. pose proof (history_forest _ _ H) as F. rewrite (lookup_eq _ _ _ _ F Hc), Hp. auto.
Qed.
Print Assumptions C42_inherits.

Example C42_example : history exsc exh3 /\ 1 < length exh3 /\ lookup exh3 1 "x" = Some (PZ 5) /\ lookup exh3 1 "a" = Some (PZ 1)
  /\ lookup exh3 1 "z" = None /\ lookup exh3 0 "x" = None.
Proof. split; [exact exh3_history|]. splits; vm_compute; auto. Qed.

(** ** C43 *)

Theorem C43_breed_refused : forall w (sc : simcore w) h i c g nick gname exo r, at_ h i c -> dget (sc_groups sc) (k_group c) = Some g ->
  (In nick (dkeys (k_children c)) -> breed sc i nick gname exo h r = (Err ValueError, h, r))
  /\ (~ In nick (dkeys (k_children c)) -> ~ In gname (g_children g) -> breed sc i nick gname exo h r = (Err KeyError, h, r)).
Proof.
  intros w sc h i c g nick gname exo r H G. unfold breed. unfold at_ in H. rewrite H. split.
  - intros Q. rewrite (proj2 (dmem_In _ _) Q). auto.
  - intros Q N. destruct (dmem nick (k_children c)) eqn:D; [apply dmem_In in D; tauto|].
    unfold sg_breed, group_of. rewrite H, G. apply mem_false in N. rewrite N. auto.
Qed.
Print Assumptions C43_breed_refused.

(** An exception leaves everything as it was; otherwise there is one new core, a child without
    children of its own, and the only other change is its entry in the parent's Children. *)
Theorem C43_breed : forall w (sc : simcore w) h i nick gname exo r o h' r', breed sc i nick gname exo h r = (o, h', r') ->
  match o with
  | Err _ => h' = h
  | Ok j => j = length h /\ length h' = S (length h)
      /\ (exists cj, at_ h' j cj /\ k_nick cj = nick /\ k_parent cj = Some i /\ k_children cj = [])
      /\ (exists c c', at_ h i c /\ at_ h' i c' /\ ~ In nick (dkeys (k_children c))
           /\ (forall k, dget (k_children c') k = if String.eqb k nick then Some j else dget (k_children c) k)
           /\ c' = set_children c (k_children c'))
      /\ (forall m, m <> i -> m <> j -> nth_error h' m = nth_error h m)
  end.
Proof.
  intros w sc h i nick gname exo r o h' r' H. unfold breed in H. destruct (nth_error h i) as [c|] eqn:E; [|inversion H; auto].
  destruct (dmem nick (k_children c)) eqn:D; [inversion H; auto|].
  destruct (sg_breed sc i nick gname exo h r) as [[[j|e] h1] r1] eqn:B; apply sg_breed_cases in B; inversion H; subst; auto.
  destruct B as [-> [cj [-> [N [P [Ch [_ [_ [_ L]]]]]]]]]. splits; auto.
  - rewrite kupd_length, app_length. simpl. lia.
  - exists cj. splits; auto. unfold at_. rewrite kupd_other by lia. apply at_app_last.
  - exists c, (set_children c (dset (k_children c) nick (length h))). splits; auto.
    + apply kupd_same with (f := fun c => set_children c (dset (k_children c) nick (length h))). apply at_app. auto.
    + intros Q. apply (proj2 (dmem_In _ _)) in Q. congruence.
    + intros k. simpl. apply dget_dset.
  - intros m N1 N2. rewrite kupd_other by auto. destruct (Nat.lt_ge_cases m (length h)) as [Lm|Lm].
    + apply nth_error_app1. auto.
    + transitivity (@None (core w)); [|symmetry; apply nth_error_None; auto]. apply nth_error_None. rewrite app_length. simpl. lia.
Qed.
Print Assumptions C43_breed.

(** The tree stays well-formed whatever is done to it: parents are older than their children, and
    a child is stored once, under its own nickname, in the Children of its parent. *)
Theorem C43_wellformed : forall w (sc : simcore w) h, history sc h -> forest h.
Proof. intros w sc h H. apply (history_forest sc); auto. Qed.
Print Assumptions C43_wellformed.

Theorem C43_remove : forall w (h : cores w) i c k, at_ h i c ->
  (exists c', at_ (remove_children h i k) i c' /\ c' = set_children c (k_children c')
     /\ forall k', dget (k_children c') k' = if String.eqb k' k then None else dget (k_children c) k')
  /\ forall m, m <> i -> nth_error (remove_children h i k) m = nth_error h m.
Proof.
  intros w h i c k H. unfold remove_children. split; [|intros; apply kupd_other; auto].
  eexists. split; [apply (kupd_same h i (fun c => set_children c (ddel (k_children c) k)) c H)|]. split; auto. intros k'. simpl. apply dget_ddel.
Qed.
Print Assumptions C43_remove.

Definition no_at (s : string) : Prop := ~ In "@"%char (list_ascii_of_string s).
Lemma split_one : forall s, no_at s -> split_at s = [s].
Proof.
  induction s as [|ch s IH]; intros H; auto. cbn [split_at]. unfold no_at in *. simpl in H.
  destruct (Ascii.eqb_spec ch "@"%char); [tauto|]. rewrite IH by tauto. auto.
Qed.
Lemma split_cons : forall s t, no_at s -> split_at (s ++ "@" ++ t) = s :: split_at t.
Proof.
  induction s as [|ch s IH]; intros t H; auto. cbn [split_at String.append]. unfold no_at in *. simpl in H.
  destruct (Ascii.eqb_spec ch "@"%char); [tauto|]. change (s ++ String "@"%char t)%string with (s ++ "@" ++ t)%string.
  rewrite IH by tauto. auto.
Qed.
Lemma split_join : forall ks, ks <> [] -> (forall k, In k ks -> no_at k) -> split_at (String.concat "@" ks) = ks.
Proof.
  induction ks as [|k ks IH]; intros N H; [tauto|]. destruct ks as [|k2 ks]; simpl.
  - apply split_one. apply H. left. auto.
  - change (split_at (k ++ "@" ++ String.concat "@" (k2 :: ks)) = k :: k2 :: ks). rewrite split_cons by (apply H; left; auto).
    rewrite IH; auto; [discriminate|]. intros; apply H; right; auto.
Qed.

(** find_descendant follows the nicknames joined by '@'. *)
Theorem C43_find_descendant : forall w (h : cores w) ks i j, ks <> [] -> (forall k, In k ks -> no_at k) ->
  find_descendant h i (String.concat "@" ks) = Ok j <-> route h i ks j /\ i < length h.
Proof.
  intros w h ks i j N K. unfold find_descendant. rewrite split_join by auto. clear K. split.
  - intros H. split.
    + revert i H. clear N. induction ks as [|k ks IH]; intros i H; simpl in H; [inversion H; constructor|].
      unfold get_child in H at 1. destruct (nth_error h i) as [c|] eqn:E; [|discriminate]. unfold dgetE in H.
      destruct (dget (k_children c) k) as [m|] eqn:D; [|discriminate]. eapply ro_cons; eauto.
    + destruct ks as [|k ks]; [tauto|]. simpl in H. unfold get_child in H at 1. destruct (nth_error h i) as [c|] eqn:E; [|discriminate].
      eapply at_length; eauto.
  - intros [H _]. clear N. induction H as [|i c k ks m j Hc D R IH]; simpl; auto.
    unfold get_child at 1. unfold at_ in Hc. rewrite Hc. unfold dgetE. rewrite D. auto.
Qed.
Print Assumptions C43_find_descendant.

Example C43_example : history exsc exh3 /\ map k_group exh3 = ["ag"; "ind"]
  /\ shows (breed exsc 0 "i1" "ind" [] exh3 0) = (Some ValueError, map show exh3, 0)
  /\ shows (breed exsc 0 "i2" "ag" [] exh3 0) = (Some KeyError, map show exh3, 0)
  /\ fst (fst (breed exsc 0 "i2" "ind" [("y", PZ 0)] exh3 0)) = Ok 2
  /\ find_descendant exh3 0 "i1" = Ok 1 /\ find_descendant exh3 0 "i1@i2" = Err KeyError /\ no_at "i1".
Proof. split; [exact exh3_history|]. splits; try (vm_compute; reflexivity). intros H. vm_compute in H. intuition discriminate. Qed.

(** ** C44 *)

Lemma setup : forall w (sc : simcore w) h i r h' r' A T, built (sc_bn sc) -> history sc h -> intervened sc h i r h' r' A T ->
  exists imp sh ci, coherent (sc_bn sc) /\ forest h /\ same_shape h h' /\ at_ h i ci
    /\ (forall j, ~ reached h i j -> nth_error h' j = nth_error h j) /\ (forall j, reached h i j -> ran sc imp sh h h' j)
    /\ (forall k v, A k v <-> dget imp k = Some v) /\ (forall x, T x <-> In x sh) /\ closed (sc_bn sc) imp sh.
Proof.
  intros w sc h i r h' r' A T B H I. destruct (built_coherent _ B) as [C _]. pose proof (history_forest _ _ H) as F.
  destruct (intervened_respond _ _ _ _ _ _ _ _ C I) as [imp [sh [R [HA [HT Cl]]]]].
  pose proof (respond_shape _ _ _ _ _ _ _ _ _ _ R) as S. destruct (respond_ran _ _ _ _ _ _ _ _ _ F R) as [Out Ran].
  assert (E : exists ci, at_ h i ci).
  { cbn [respond] in R. destruct (nth_error h i) as [ci|] eqn:E; [|discriminate]. exists ci. auto. }
  destruct E as [ci E]. exists imp, sh, ci. splits; auto.
Qed.
Lemma not_assigned : forall w (imp : dict (V w)) (A : name -> V w -> Prop) x, (forall k v, A k v <-> dget imp k = Some v) ->
  (forall v, ~ A x v) <-> ~ In x (dkeys imp).
Proof.
  intros w imp A x HA. rewrite <- dget_None. split.
  - intros N. destruct (dget imp x) as [v|] eqn:E; auto. apply HA in E. destruct (N v E).
  - intros N v Q. apply HA in Q. congruence.
Qed.

(** Cores that are not reached through Children are untouched, and the tree keeps its shape. *)
Theorem C44_frame : forall w (sc : simcore w) h i r h' r' A T, built (sc_bn sc) -> history sc h -> intervened sc h i r h' r' A T ->
  (forall j, ~ reached h i j -> nth_error h' j = nth_error h j)
  /\ (forall j c, at_ h j c -> exists c', at_ h' j c' /\ k_nick c' = k_nick c /\ k_group c' = k_group c
        /\ k_parent c' = k_parent c /\ k_children c' = k_children c).
Proof.
  intros w sc h i r h' r' A T B H I. destruct (setup w sc h i r h' r' A T B H I) as [imp [sh [ci [C [F [S [Hi [Out [Ran [HA [HT Cl]]]]]]]]]]].
  split; auto. intros j c Hc. destruct (shape_at _ _ _ _ S Hc) as [c' [Q1 Q2]]. apply shape_fields in Q2. exists c'. tauto.
Qed.
Print Assumptions C44_frame.

(** Nodes that are neither assigned nor to be computed anew keep their values, held and seen. *)
Theorem C44_kept : forall w (sc : simcore w) h i r h' r' A T j c c' x,
  built (sc_bn sc) -> groups_sorted sc -> history sc h -> intervened sc h i r h' r' A T ->
  reached h i j -> at_ h j c -> at_ h' j c' -> (forall v, ~ A x v) -> ~ T x ->
  dget (k_locus c') x = dget (k_locus c) x /\ lookup h' j x = lookup h j x.
Proof.
  intros w sc h i r h' r' A T j c c' x B G H I R Hc Hc' NA NT.
  destruct (setup w sc h i r h' r' A T B H I) as [imp [sh [ci [C [F [S [Hi [Out [Ran [HA [HT Cl]]]]]]]]]]].
  apply (not_assigned w imp A x HA) in NA. rewrite HT in NT. split.
  - eapply own_kept; eauto.
  - eapply seen_kept; eauto.
Qed.
Print Assumptions C44_kept.

(** Fixed nodes of a reached core: the assigned ones get the assigned value, the held ones to be
    computed anew are made by their definitions from the values the core sees afterwards. *)
Theorem C44_new_values : forall w (sc : simcore w) h i r h' r' A T j c c' g n,
  built (sc_bn sc) -> groups_sorted sc -> history sc h -> intervened sc h i r h' r' A T ->
  reached h i j -> at_ h j c -> at_ h' j c' -> dget (sc_groups sc) (k_group c) = Some g -> In n (g_fixed g) ->
  (forall v, A n v -> dget (k_locus c') n = Some v)
  /\ (In n (dkeys (k_locus c)) -> T n -> (forall v, ~ A n v) -> exists v, dget (k_locus c') n = Some v /\ remade (sc_bn sc) (lookup h' j) n v).
Proof.
  intros w sc h i r h' r' A T j c c' g n B G H I R Hc Hc' Hg Hn.
  destruct (setup w sc h i r h' r' A T B H I) as [imp [sh [ci [C [F [S [Hi [Out [Ran [HA [HT Cl]]]]]]]]]]]. split.
  - intros v Q. apply HA in Q. eapply own_assigned; eauto.
  - intros Hk Q NA. apply (not_assigned w imp A n HA), dget_None in NA. apply HT in Q.
    destruct (own_recomputed sc imp sh i h h' C G F S Ran j c g c' n R Hc Hg Hc' Hn Hk Q NA) as [l [rho [r1 [v [r2 [E1 [E2 [E3 E4]]]]]]]].
    exists v. split; auto. exists l, rho, r1, r2. auto.
Qed.
Print Assumptions C44_new_values.

(** The main statement. *)
Theorem C44_consistent : forall w (sc : simcore w) h i r h' r' A T j c g n,
  built (sc_bn sc) -> groups_sorted sc -> history sc h -> intervened sc h i r h' r' A T ->
  reached h i j -> at_ h j c -> dget (sc_groups sc) (k_group c) = Some g ->
  In n (g_fixed g) -> In n (dkeys (k_locus c)) -> (forall v, ~ A n v) ->
  consistent (sc_bn sc) (lookup h j) n \/ T n -> consistent (sc_bn sc) (lookup h' j) n.
Proof.
  intros w sc h i r h' r' A T j c g n B G H I R Hc Hg Hn Hk NA Q.
  destruct (setup w sc h i r h' r' A T B H I) as [imp [sh [ci [C [F [S [Hi [Out [Ran [HA [HT Cl]]]]]]]]]]].
  apply (not_assigned w imp A n HA) in NA. rewrite HT in Q. eapply consistent_after; eauto.
Qed.
Print Assumptions C44_consistent.

Example C44_example : groups_sorted exsc /\ history exsc exh3
  /\ shows (impulse_core exsc [("k", PZ 9)] 0 exh3 0) =
     (None, [("root", [("a", PZ 1); ("s", PZ 2); ("k", PZ 9)], LZ 0, None, [("i1", 1)]);
             ("i1", [("x", PZ 5); ("y", PZ 14)], LNan, Some 0, [])], 0)
  /\ shows (impulse_list exsc ["x"] 0 exh3 7) =
     (None, [("root", [("a", PZ 1); ("s", PZ 2); ("k", PZ 2)], LZ 0, None, [("i1", 1)]);
             ("i1", [("x", PZ 8); ("y", PZ 10)], LNan, Some 0, [])], 8).
Proof. split; [exact exsc_sorted|]. split; [exact exh3_history|]. split; vm_compute; reflexivity. Qed.

(** A prototype has the core as parent but is not among its Children: it sees the new values
    without being computed anew. *)
Definition exh4 : cores exw := snd (fst (get_prototype exsc 0 "ind" [] exh1 4)).
Lemma exh4_history : history exsc exh4.
Proof.
  destruct (get_prototype exsc 0 "ind" [] exh1 4) as [[o h] r] eqn:E.
  assert (h = exh4) by (unfold exh4; rewrite E; auto). subst. eapply hi_prototype; [exact exh1_history|exact E].
Qed.
Lemma ex_y : holds exnet "y" ly.
Proof. exists (mkAttr ly None). split; reflexivity. Qed.
Lemma consistent_y : forall (e : env exw) (x k y : Z), e "x" = Some (PZ x) -> e "k" = Some (PZ k) -> e "y" = Some (PZ y) -> (x + k = y)%Z ->
  consistent exnet e "y".
Proof.
  intros e x k y X K Y E ex ps Hl. pose proof (holds_fun _ _ _ _ ex_y Hl) as Q. inversion Q; subst. split.
  - intros p [<-|[<-|[]]]; congruence.
  - exists (PZ (x + k)). split; [|exact Y]. cbn. unfold ModelExpr.lookup. cbn. rewrite X, K. auto.
Qed.
Lemma inconsistent_y : forall (e : env exw) (x k y : Z), e "x" = Some (PZ x) -> e "k" = Some (PZ k) -> e "y" = Some (PZ y) -> (x + k <> y)%Z ->
  ~ consistent exnet e "y".
Proof.
  intros e x k y X K Y N H. destruct (H _ _ ex_y) as [_ [v [E V]]]. cbn in E. unfold ModelExpr.lookup in E. cbn in E. rewrite X, K in E. cbn in E. inversion E; subst.
  rewrite Y in V. inversion V. congruence.
Qed.
Theorem C44_prototypes_refuted : exists w (sc : simcore w) h i r h' r' A T j c g n,
  built (sc_bn sc) /\ groups_sorted sc /\ history sc h /\ intervened sc h i r h' r' A T
  /\ at_ h j c /\ k_parent c = Some i /\ dget (sc_groups sc) (k_group c) = Some g /\ In n (g_fixed g) /\ In n (dkeys (k_locus c))
  /\ (forall v, ~ A n v) /\ consistent (sc_bn sc) (lookup h j) n /\ ~ consistent (sc_bn sc) (lookup h' j) n.
Proof.
  destruct (impulse_core exsc [("k", PZ 9)] 0 exh4 0) as [[o h'] r'] eqn:E.
  assert (Eo : o = Ok tt) by (change o with (fst (fst (o, h', r'))); rewrite <- E; vm_compute; reflexivity).
  assert (Eh : h' = snd (fst (impulse_core exsc [("k", PZ 9)] 0 exh4 0))) by (rewrite E; auto). subst o.
  assert (Hc : exists c, at_ exh4 1 c).
  { apply at_exists. assert (Q : length (map show exh4) = 2) by (vm_compute; reflexivity). rewrite map_length in Q. lia. }
  destruct Hc as [c Hc].
  assert (Sc : show c = ("prototype", [("x", PZ 5); ("y", PZ 7)], LZ (-4), Some 0, [])).
  { assert (Q : nth_error (map show exh4) 1 = Some ("prototype", [("x", PZ 5); ("y", PZ 7)], LZ (-4), Some 0, [])) by (vm_compute; reflexivity).
    rewrite nth_error_map in Q. unfold at_ in Hc. rewrite Hc in Q. simpl in Q. congruence. }
  assert (Gc : k_group c = "ind").
  { assert (Q : nth_error (map (@k_group exw) exh4) 1 = Some "ind") by (vm_compute; reflexivity).
    rewrite nth_error_map in Q. unfold at_ in Hc. rewrite Hc in Q. simpl in Q. congruence. }
  unfold show in Sc. inversion Sc as [[S1 S2 S3 S4 S5]].
  exists exw, exsc, exh4, 0, 0, h', r', (assigns (w:=exw) [("k", PZ 9)]), (renews exnet [("k", PZ 9)]), 1, c.
  exists (mkGroup "ind" [] ["a"; "s"; "k"] ["x"; "y"] [("z", mkBp "z" Frozen ["y"; "a"] [])] [("z", mkBp "z" Single ["y"; "a"] [])]), "y".
  splits; auto.
  - exact exnet_built.
  - exact exsc_sorted.
  - exact exh4_history.
  - apply iv_dict; [nodup|exact E].
  - rewrite Gc. reflexivity.
  - simpl. auto.
  - rewrite S2. simpl. auto.
  - intros v [Q _]. discriminate Q.
  - apply (consistent_y _ 5 2 7); try (vm_compute; reflexivity).
  - apply (inconsistent_y _ 5 9 7); try (subst h'; vm_compute; reflexivity). discriminate.
Qed.
Print Assumptions C44_prototypes_refuted.

(** ** C45 *)

(** Missing: actors of nodes that are themselves assigned, see C45_frozen_refuted. *)
Theorem C45_frozen_partial : forall w (sc : simcore w) h i r h' r' A T q a,
  built (sc_bn sc) -> groups_sorted sc -> blueprints_ok sc -> history sc h -> intervened sc h i r h' r' A T ->
  reached h i (place_owner q) -> actor_at h q = Some a -> is_frozen a = true -> (forall v, ~ A (place_key q) v) ->
  up_to_date (lookup h (place_owner q)) a \/ T (place_key q) ->
  exists a', actor_at h' q = Some a' /\ is_frozen a' = true /\ up_to_date (lookup h' (place_owner q)) a'.
Proof.
  intros w sc h i r h' r' A T q a B G Bp H I R Ha Fr NA Q.
  destruct (setup w sc h i r h' r' A T B H I) as [imp [sh [ci [C [F [S [Hi [Out [Ran [HA [HT Cl]]]]]]]]]]].
  apply (not_assigned w imp A _ HA) in NA. rewrite HT in Q.
  apply (actor_after sc imp sh i h h' ci q a); auto. apply (history_actors sc h Bp H q a Ha).
Qed.
Print Assumptions C45_frozen_partial.

(** Actors are up to date when they are made. *)
Theorem C45_created : forall w (sc : simcore w) h i c r ps h' r', history sc h -> at_ h i c ->
  (k_actors c = None -> get_actors sc h i false r = (Ok ps, h', r') ->
     forall q, In q ps -> exists a, actor_at h' q = Some a /\ up_to_date (lookup h' i) a)
  /\ (forall p pc, k_parent c = Some p -> at_ h p pc -> (forall d, k_chactors pc = Some d -> dget d (k_group c) = None) ->
     get_actors sc h i true r = (Ok ps, h', r') ->
     forall q, In q ps -> exists a, actor_at h' q = Some a /\ up_to_date (lookup h' p) a).
Proof.
  intros w sc h i c r ps h' r' H Hc. pose proof (history_forest _ _ H) as F.
  assert (K : forall (vis vis' : env w) a, (forall x, vis x = vis' x) -> up_to_date vis a -> up_to_date vis' a).
  { intros vis vis' a E U. destruct a as [f l rd s|f l rd|f l rd fl]; simpl; auto. eapply up_to_date_agree; [|exact U]. auto. }
  assert (D : forall (d : dict (actor w)) k, In k (dkeys d) -> exists a, In (k, a) d /\ dget d k = Some a).
  { intros d k Q. apply dget_In in Q. destruct Q as [a Q]. exists a. split; auto. apply dget_in_pair. auto. }
  split.
  - intros N G. unfold get_actors, group_of in G. unfold at_ in Hc. rewrite Hc in G. destruct (dget (sc_groups sc) (k_group c)) as [g|]; [|discriminate].
    rewrite N in G. destruct (make_actors _ _ _ r) as [[acts|e] r1] eqn:M; [|discriminate]. inversion G; subst. clear G.
    intros q Q. apply in_map_iff in Q. destruct Q as [k [<- Q]]. destruct (D acts k Q) as [a [Q1 Q2]].
    exists a. split; [cbn [actor_at]; rewrite kupd_nth, Nat.eqb_refl, Hc; auto|].
    eapply K; [|apply (make_actors_get _ _ _ _ _ _ M k a Q1)]. intros x.
    apply lookup_ext; auto; [apply shape_kupd; intros []; auto|]. intros j d d' _ Hd Hd'. unfold at_ in *. rewrite kupd_nth in Hd'.
    destruct (Nat.eqb j i); [|congruence]. rewrite Hd in Hd'. simpl in Hd'. inversion Hd'; subst. auto.
  - intros p pc P Pc N G. unfold get_actors, group_of in G. unfold at_ in Hc, Pc. rewrite Hc in G. destruct (dget (sc_groups sc) (k_group c)) as [g|]; [|discriminate].
    rewrite P, Pc in G. assert (Nn : match k_chactors pc with Some d => dget d (k_group c) | None => None end = None) by (destruct (k_chactors pc); auto).
    rewrite Nn in G. destruct (make_actors _ _ _ r) as [[acts|e] r1] eqn:M; [|discriminate]. inversion G; subst. clear G.
    intros q Q. apply in_map_iff in Q. destruct Q as [k [<- Q]]. destruct (D acts k Q) as [a [Q1 Q2]].
    exists a. split; [cbn [actor_at]; rewrite kupd_nth, Nat.eqb_refl, Pc; simpl; rewrite dget_dset, String.eqb_refl; auto|].
    eapply K; [|apply (make_actors_get _ _ _ _ _ _ M k a Q1)]. intros x.
    apply lookup_ext; auto; [apply shape_kupd; intros []; auto|]. intros j d d' _ Hd Hd'. unfold at_ in *. rewrite kupd_nth in Hd'.
    destruct (Nat.eqb j p); [|congruence]. rewrite Hd in Hd'. simpl in Hd'. inversion Hd'; subst. auto.
Qed.
Print Assumptions C45_created.

(** The actor of node x of the root, and what it samples *)
Definition exh5 : cores exw := snd (fst (get_actors exsc exh2 0 false 9)).
Lemma exh5_history : history exsc exh5.
Proof.
  destruct (get_actors exsc exh2 0 false 9) as [[o h] r] eqn:E.
  assert (h = exh5) by (unfold exh5; rewrite E; auto). subst. eapply hi_actors; [exact exh2_history|exact E].
Qed.
Definition locscale (a : option (actor exw)) : option (Z * Z) :=
  match a with Some (AFrozen _ _ _ (SDist d)) => Some d | _ => None end.
Example C45_example : blueprints_ok exsc /\ history exsc exh5
  /\ locscale (actor_at exh5 (PLocal 0 "x")) = Some (1, 2)%Z
  /\ (let o := impulse_core exsc [("a", PZ 7)] 0 exh5 0 in
      fst (fst o) = Ok tt /\ locscale (actor_at (snd (fst o)) (PLocal 0 "x")) = Some (7, 2)%Z).
Proof. split; [exact exsc_blueprints|]. split; [exact exh5_history|]. cbv zeta. splits; vm_compute; reflexivity. Qed.

(** x floats at the root and is assigned together with its parent a: the actor of x keeps the
    distribution for the old value of a. *)
Lemma ex_x : holds exnet "x" lx.
Proof. exists (mkAttr lx None). split; reflexivity. Qed.
Lemma actor_x : forall h, locscale (actor_at h (PLocal 0 "x")) = Some (1, 2)%Z ->
  (match actor_at h (PLocal 0 "x") with Some (AFrozen _ (LDist _ f _) rd _) => Some (f, rd) | _ => None end)
    = Some (e_norm (EName "a") (EName "s"), ["a"; "s"]) ->
  exists f n ps, actor_at h (PLocal 0 "x") = Some (AFrozen f (LDist (w:=exw) n (e_norm (EName "a") (EName "s")) ps) ["a"; "s"] (SDist (w:=exw) (1, 2)%Z)).
Proof.
  intros h. destruct (actor_at h (PLocal 0 "x")) as [[f l rd s|f l rd|f l rd fl]|]; simpl; try discriminate.
  destruct s as [|d|v]; try discriminate. intros A B. inversion A; subst. destruct l as [n v|n|n fn ps|n e ps|n ps]; try discriminate.
  inversion B; subst. exists f, n, ps. auto.
Qed.
Theorem C45_frozen_refuted : exists w (sc : simcore w) h i r h' r' A T q a a',
  built (sc_bn sc) /\ groups_sorted sc /\ blueprints_ok sc /\ history sc h /\ intervened sc h i r h' r' A T
  /\ reached h i (place_owner q) /\ actor_at h q = Some a /\ is_frozen a = true
  /\ up_to_date (lookup h (place_owner q)) a /\ actor_at h' q = Some a' /\ ~ up_to_date (lookup h' (place_owner q)) a'.
Proof.
  destruct (impulse_core exsc [("a", PZ 7); ("x", PZ 3)] 0 exh5 0) as [[o h'] r'] eqn:E.
  assert (Eo : o = Ok tt) by (change o with (fst (fst (o, h', r'))); rewrite <- E; vm_compute; reflexivity).
  assert (Eh : h' = snd (fst (impulse_core exsc [("a", PZ 7); ("x", PZ 3)] 0 exh5 0))) by (rewrite E; auto). subst o.
  destruct (actor_x exh5) as [f [n [ps A1]]]; [vm_compute; reflexivity|vm_compute; reflexivity|].
  destruct (actor_x h') as [f' [n' [ps' A2]]]; [subst h'; vm_compute; reflexivity|subst h'; vm_compute; reflexivity|].
  exists exw, exsc, exh5, 0, 0, h', r', (assigns (w:=exw) [("a", PZ 7); ("x", PZ 3)]), (renews exnet [("a", PZ 7); ("x", PZ 3)]), (PLocal 0 "x").
  eexists. eexists. splits.
  - exact exnet_built.
  - exact exsc_sorted.
  - exact exsc_blueprints.
  - exact exh5_history.
  - apply iv_dict; [nodup|exact E].
  - constructor.
  - exact A1.
  - reflexivity.
  - exists (1, 2)%Z. split; [vm_compute; reflexivity|reflexivity].
  - exact A2.
  - intros [d [Q1 Q2]]. inversion Q2; subst. vm_compute in Q1. discriminate.
Qed.
Print Assumptions C45_frozen_refuted.

(** ** C47 *)

(** Missing: a core in which only assigned nodes change, see C47_evaluated_refuted. *)
Theorem C47_evaluated_partial : forall w (sc : simcore w) h i r h' r' A T j c c',
  built (sc_bn sc) -> history sc h -> intervened sc h i r h' r' A T -> reached h i j -> at_ h j c -> at_ h' j c' ->
  (exists x, T x /\ In x (dkeys (k_locus c))) -> k_lp c' = lp_nan w.
Proof.
  intros w sc h i r h' r' A T j c c' B H I R Hc Hc' [x [Tx Hx]].
  destruct (setup w sc h i r h' r' A T B H I) as [imp [sh [ci [C [F [S [Hi [Out [Ran [HA [HT Cl]]]]]]]]]]].
  destruct (Ran j R) as [d [g [d' [B1 [B2 [B3 [hs [rs [prior [he [re [ha [ra [ca [D1 [D2 [D3 [D4 [D5 [D6 [D7 [D8 [D9 [D10 D11]]]]]]]]]]]]]]]]]]]]]]]].
  assert (d = c) by (unfold at_ in *; congruence). assert (d' = c') by (unfold at_ in *; congruence). subst.
  rewrite D11. destruct (filter (fun s => dmem s (k_locus c)) sh) eqn:E; auto.
  apply HT in Tx. assert (Q : In x (filter (fun s => dmem s (k_locus c)) sh)) by (apply filter_In; split; auto; apply dmem_In; auto).
  rewrite E in Q. destruct Q.
Qed.
Print Assumptions C47_evaluated_partial.

Lemma resp_fixed_lp : forall w (b : bn w) imp i ds prior h r o h' r' c, resp_fixed b imp [] i ds prior h r = (o, h', r') -> at_ h i c ->
  exists c', at_ h' i c' /\ k_lp c' = k_lp c.
Proof.
  intros w b imp i. induction ds as [|d ds IH]; intros prior h r o h' r' c H Hc; cbn [resp_fixed] in H; [inversion H; subst; eauto|].
  destruct (bget b d) as [l|e]; [|inversion H; subst; eauto]. cbn [mem existsb] in H. destruct (dget imp d) as [v|].
  - pose proof (kupd_same h i (fun c => set_locus c (dset (k_locus c) d v)) c Hc) as K.
    destruct (evaluate l _); [|inversion H; subst; eauto]. apply (IH _ _ _ _ _ _ _ H K).
  - destruct (evaluate l _); [|inversion H; subst; eauto]. apply (IH _ _ _ _ _ _ _ H Hc).
Qed.
(** Conversely the old LogProb stays if the core holds no node that is computed anew; then its
    values differ at assigned fixed nodes only. *)
Theorem C47_not_marked : forall w (sc : simcore w) h i r h' r' A T j c c' g,
  built (sc_bn sc) -> groups_sorted sc -> history sc h -> intervened sc h i r h' r' A T -> reached h i j -> at_ h j c -> at_ h' j c' ->
  dget (sc_groups sc) (k_group c) = Some g ->
  (forall x, T x -> ~ In x (dkeys (k_locus c))) ->
  k_lp c' = k_lp c /\ forall x, dget (k_locus c') x <> dget (k_locus c) x -> In x (g_fixed g) /\ exists v, A x v.
Proof.
  intros w sc h i r h' r' A T j c c' g B G H I R Hc Hc' Hg N.
  destruct (setup w sc h i r h' r' A T B H I) as [imp [sh [ci [C [F [S [Hi [Out [Ran [HA [HT Cl]]]]]]]]]]]. split.
  - destruct (Ran j R) as [d [g0 [d' [B1 [B2 [B3 [hs [rs [prior [he [re [ha [ra [ca [D1 [D2 [D3 [D4 [D5 [D6 [D7 [D8 [D9 [D10 D11]]]]]]]]]]]]]]]]]]]]]]]].
    assert (d = c) by (unfold at_ in *; congruence). assert (d' = c') by (unfold at_ in *; congruence). subst.
    assert (E : filter (fun s => dmem s (k_locus c)) sh = []).
    { destruct (filter (fun s => dmem s (k_locus c)) sh) as [|x l] eqn:E; auto. exfalso.
      assert (Q : In x (filter (fun s => dmem s (k_locus c)) sh)) by (rewrite E; left; auto). apply filter_In in Q. destruct Q as [Q1 Q2].
      apply (N x); [apply HT; auto|apply dmem_In; auto]. }
    rewrite E in *. rewrite D11. destruct (resp_fixed_lp _ _ _ _ _ _ _ _ _ _ _ _ D4 D2) as [ce [Hce Lce]].
    destruct (resp_actors_frame _ _ _ _ _ _ _ (shocked_places_core c j sh) D5) as [_ K].
    destruct (K _ (kupd_same he j (fun c => set_prior c prior) ce Hce)) as [c2 [K1 [_ [_ [K2 _]]]]].
    assert (c2 = ca) by (unfold at_ in *; congruence). subst. rewrite K2. simpl. auto.
  - intros x Q.
    assert (P : In x (g_fixed g) \/ ~ In x (g_fixed g)) by (destruct (In_dec_name x (g_fixed g)); auto).
    destruct P as [P|P]; [split; auto|exfalso; apply Q; apply (own_other sc imp sh i h h' C G F S Ran j c g c' x); auto].
    destruct (In_dec_name x (dkeys imp)) as [Hx|Hx].
    + apply dget_In in Hx. destruct Hx as [v Hx]. exists v. apply HA. auto.
    + exfalso. apply Q. destruct (In_dec_name x (dkeys (k_locus c))) as [Hk|Hk].
      * eapply own_kept; eauto. intros Hs. apply HT in Hs. apply (N x); auto.
      * apply (own_other sc imp sh i h h' C G F S Ran j c g c' x); auto.
Qed.
Print Assumptions C47_not_marked.

Example C47_example : history exsc exh3 /\ shows (impulse_core exsc [("x", PZ 9)] 1 exh3 0) =
     (None, [("root", [("a", PZ 1); ("s", PZ 2); ("k", PZ 2)], LZ 0, None, [("i1", 1)]);
             ("i1", [("x", PZ 9); ("y", PZ 11)], LNan, Some 0, [])], 0)
  /\ renews exnet [("x", PZ 9)] "y".
Proof.
  split; [exact exh3_history|]. split; [vm_compute; reflexivity|]. right. split; [intros v [Q _]; discriminate Q|].
  exists "x". split; [simpl; auto|]. constructor. apply edge_dec_true. reflexivity.
Qed.

(** The value of y changes, and the log-probability computed for the old one stays. *)
Theorem C47_evaluated_refuted : exists w (sc : simcore w) h i r h' r' A T c c',
  built (sc_bn sc) /\ groups_sorted sc /\ history sc h /\ intervened sc h i r h' r' A T /\ at_ h i c /\ at_ h' i c'
  /\ k_locus c' <> k_locus c /\ lp_isnan w (k_lp c) = false /\ k_lp c' = k_lp c.
Proof.
  destruct (impulse_core exsc [("y", PZ 0)] 1 exh3 0) as [[o h'] r'] eqn:E.
  assert (Eo : o = Ok tt) by (change o with (fst (fst (o, h', r'))); rewrite <- E; vm_compute; reflexivity).
  assert (Eh : h' = snd (fst (impulse_core exsc [("y", PZ 0)] 1 exh3 0))) by (rewrite E; auto). subst o.
  assert (Q : nth_error (map show exh3) 1 = Some ("i1", [("x", PZ 5); ("y", PZ 7)], LZ (-4), Some 0, [])) by (vm_compute; reflexivity).
  assert (Q' : nth_error (map show h') 1 = Some ("i1", [("x", PZ 5); ("y", PZ 0)], LZ (-4), Some 0, [])) by (subst h'; vm_compute; reflexivity).
  rewrite nth_error_map in Q, Q'. destruct (nth_error exh3 1) as [c|] eqn:Hc; [|discriminate]. destruct (nth_error h' 1) as [c'|] eqn:Hc'; [|discriminate].
  simpl in Q, Q'. unfold show in Q, Q'. inversion Q as [[S1 S2 S3 S4 S5]]. inversion Q' as [[S1' S2' S3' S4' S5']].
  exists exw, exsc, exh3, 1, 0, h', r', (assigns (w:=exw) [("y", PZ 0)]), (renews exnet [("y", PZ 0)]), c, c'. splits; auto.
  - exact exnet_built.
  - exact exsc_sorted.
  - exact exh3_history.
  - apply iv_dict; [nodup|exact E].
  - rewrite S2, S2'. discriminate.
  - rewrite S3. reflexivity.
  - rewrite S3, S3'. auto.
Qed.
Print Assumptions C47_evaluated_refuted.

(** ** C46 *)

(** [out] holds the mediators and the target; each is made by its definition from the values read
    and the values in [out]. That the blueprints made by inject_bn satisfy the hypotheses is
    C46_blueprints. *)
Theorem C46_mediators : forall w (b : bn w) p f l rd flow pas r out r',
  built b -> compound_ok b p -> compose_actor b p = Ok (ACompound f l rd flow) ->
  sample_with_mediators f l rd flow pas r = (Ok out, r') ->
  (forall k, In k (dkeys out) <-> In k (bp_sample p) \/ k = bp_name p)
  /\ forall k v, dget out k = Some v ->
       made b (fun x => match dget out x with Some v => Some v | None => if mem x (bp_read p) then pas x else None end) k v.
Proof.
  intros w b p f l rd flow pas r out r' B [[S1 [S2 S3]] D] Co H. destruct (built_coherent _ B) as [C _].
  unfold compose_actor in Co. destruct (bp_type p); [|destruct (bget b (bp_name p)); discriminate|destruct (bget b (bp_name p)); discriminate].
  destruct (mapM (bget b) (bp_sample p)) as [ls|e] eqn:M; simpl in Co; [|discriminate].
  destruct (bget b (bp_name p)) as [lt|e] eqn:Lt; simpl in Co; [|discriminate]. inversion Co; subst. clear Co.
  apply bget_holds in Lt. pose proof (co_name _ C _ _ Lt) as Nt.
  assert (Nm : map (@loci_name w) flow = bp_sample p).
  { apply mapM_ok in M. clear - M C. induction M as [|x y xs ys E M IH]; auto. simpl. f_equal; auto. apply bget_holds in E. apply (co_name _ C _ _ E). }
  assert (Ho : forall m, In m (flow ++ [l]) -> holds b (loci_name m) m).
  { intros m Hm. apply in_app_iff in Hm. destruct Hm as [Hm|[<-|[]]]; [|rewrite Nt; auto].
    apply mapM_ok in M. clear - M C Hm. induction M as [|x y xs ys E M IH]; [destruct Hm|]. destruct Hm as [<-|Hm]; auto.
    apply bget_holds in E. rewrite (co_name _ C _ _ E). auto. }
  assert (Nn : map (@loci_name w) (flow ++ [l]) = bp_sample p ++ [bp_name p]) by (rewrite map_app; simpl; rewrite Nt, Nm; auto).
  (* the target is the last step *)
  assert (Rf : forall fl pas out r pas' out' r', run_flow fl pas out r = (Ok (pas', out'), r') -> forall v r2, render l (dget pas') r' = Ok (v, r2) ->
    run_flow (fl ++ [l]) pas out r = (Ok (dset pas' (loci_name l) v, dset out' (loci_name l) v), r2)).
  { induction fl as [|m fl IH]; intros pas0 out0 r0 pas' out' r1 Q v r2 R; simpl in Q; simpl.
    - inversion Q; subst. rewrite R. auto.
    - destruct (render m (dget pas0) r0) as [[u r3]|e]; [|discriminate]. eapply IH; eauto. }
  unfold sample_with_mediators in H. destruct (run_flow flow (read_upstream (bp_read p) pas) [] r) as [[[pp oo]|e] r1] eqn:R1; [|discriminate].
  unfold render1 in H. destruct (render l (dget pp) r1) as [[v r2]|e] eqn:R2; [|discriminate]. inversion H; subst. clear H.
  specialize (Rf _ _ _ _ _ _ _ R1 _ _ R2). rewrite Nt in Rf. set (out := dset oo (bp_name p) v) in *. set (pas' := dset pp (bp_name p) v) in *.
  assert (F : forall m, In m (flow ++ [l]) -> dget (read_upstream (bp_read p) pas) (loci_name m) = None).
  { intros m Hm. rewrite read_upstream_get. destruct (mem (loci_name m) (bp_read p)) eqn:E; auto. apply mem_In in E. destruct (D _ E).
    rewrite <- Nn. apply in_map. auto. }
  destruct (run_flow_ok _ _ _ _ _ _ _ Rf) as [I1 [I2 I3]]; auto; [rewrite Nn; auto|]. rewrite Nn in *.
  assert (Out : forall k, In k (bp_sample p ++ [bp_name p]) -> exists m, In m (flow ++ [l]) /\ loci_name m = k).
  { intros k Hk. rewrite <- Nn in Hk. apply in_map_iff in Hk. destruct Hk as [m [E Hm]]. eauto. }
  assert (See : forall x, dget pas' x = match dget out x with Some v => Some v | None => if mem x (bp_read p) then pas x else None end).
  { intros x. destruct (In_dec_name x (bp_sample p ++ [bp_name p])) as [Hx|Hx].
    - destruct (Out x Hx) as [m [Hm <-]]. destruct (I2 m Hm) as [rho [q1 [u [q2 [_ [_ [_ [A4 [A5 _]]]]]]]]]. rewrite A4, A5. auto.
    - destruct (I1 x Hx) as [A1 A2]. rewrite A1, A2, read_upstream_get. auto. }
  assert (Ks : forall k, In k (dkeys out) <-> In k (bp_sample p ++ [bp_name p])).
  { intros k. split.
    - intros Hk. destruct (In_dec_name k (bp_sample p ++ [bp_name p])) as [Hx|Hx]; auto. destruct (I1 k Hx) as [_ A2].
      apply dget_In in Hk. destruct Hk as [u Hk]. simpl in A2. congruence.
    - intros Hk. destruct (Out k Hk) as [m [Hm <-]]. destruct (I2 m Hm) as [rho [q1 [u [q2 [_ [_ [_ [_ [A5 _]]]]]]]]]. apply dget_In. eauto. }
  split.
  - intros k. rewrite Ks, in_app_iff. simpl. split; [intros [Q|[Q|[]]]; auto|intros [Q|Q]; auto].
  - intros k u Hk. assert (Hx : In k (bp_sample p ++ [bp_name p])) by (apply Ks; apply dget_In; eauto).
    destruct (Out k Hx) as [m [Hm <-]]. destruct (I2 m Hm) as [rho [q1 [u' [q2 [A1 [A2 [A3 [A4 [A5 A6]]]]]]]]].
    assert (u' = u) by congruence. subst. exists m, rho, q1, q2. splits; auto.
    + intros x Hx2. rewrite <- See. apply A6. intros Q. apply S3; auto. apply (co_parents _ C _ _ (Ho m Hm)). auto.
    + intros x y E. rewrite <- See. apply A1. auto.
Qed.
Print Assumptions C46_mediators.

(** sample() gives the value that sample_with_mediators() gives for the target. *)
Theorem C46_sample : forall w f (l : loci w) rd flow pas r v r',
  a_sample (ACompound f l rd flow) pas r = (Ok v, r')
  <-> exists out, sample_with_mediators f l rd flow pas r = (Ok out, r') /\ dget out f = Some v.
Proof.
  intros w f l rd flow pas r v r'. cbn [a_sample]. unfold sample_with_mediators.
  destruct (run_flow flow (read_upstream rd pas) [] r) as [[[pp oo]|e] r1]; [|split; [discriminate|intros [o [Q _]]; discriminate]].
  destruct (render1 l (dget pp) r1) as [[u|e] r2]; [|split; [discriminate|intros [o [Q _]]; discriminate]]. split.
  - intros Q. inversion Q; subst. exists (dset oo f v). split; auto. rewrite dget_dset, String.eqb_refl. auto.
  - intros [o [Q1 Q2]]. inversion Q1; subst. rewrite dget_dset, String.eqb_refl in Q2. inversion Q2; auto.
Qed.
Print Assumptions C46_sample.

(** the sampler of y at the root, through the mediator x *)
Definition exbp : blueprint := mkBp "y" Compound ["a"; "s"; "k"] ["x"].
Example C46_example : compound_ok exnet exbp
  /\ match compose_actor exnet exbp with
     | Ok (ACompound f l rd flow) => sample_with_mediators f l rd flow (lookup exh2 0) 3
     | _ => (Err OtherError, 0)
     end = (Ok [("x", PZ 4); ("y", PZ 6)], 4).
Proof.
  split; [|vm_compute; reflexivity]. split.
  - unfold sorted. splits; [nodup| |].
    + intros n Hn. simpl in Hn. intuition (subst; apply node_dec_true; reflexivity).
    + intros p n E A B. apply exnet_edges in E. simpl in E, A, B.
      assert (p = "x" /\ n = "y") as [-> ->] by (intuition (subst; discriminate || congruence)). exists [], [], []. auto.
  - intros x Hx. simpl in *. intuition (subst; discriminate).
Qed.

(** ** C50 *)

Theorem C50_detach : forall w (sc : simcore w) h i c o h', history sc h -> at_ h i c -> detach h i false = (o, h') ->
  o = Ok tt
  (* the core is a root and otherwise unchanged, and sees its own values only *)
  /\ (exists c', at_ h' i c' /\ k_parent c' = None /\ k_nick c' = k_nick c /\ k_group c' = k_group c /\ k_locus c' = k_locus c
        /\ k_lp c' = k_lp c /\ k_prior c' = k_prior c /\ k_children c' = k_children c /\ k_actors c' = k_actors c /\ k_chactors c' = k_chactors c
        /\ forall x, lookup h' i x = dget (k_locus c) x)
  (* nobody has it as a child *)
  /\ (forall j cj k, at_ h' j cj -> dget (k_children cj) k <> Some i)
  (* in its parent the entry under its nickname is gone; nothing else changes *)
  /\ (forall p pc, k_parent c = Some p -> at_ h p pc -> exists pc', at_ h' p pc'
        /\ (forall k, dget (k_children pc') k = if String.eqb k (k_nick c) then None else dget (k_children pc) k)
        /\ set_children pc' (k_children pc) = pc)
  /\ (forall j, j <> i -> k_parent c <> Some j -> nth_error h' j = nth_error h j).
Proof.
  intros w sc h i c o h' H Hc D. pose proof (history_forest _ _ H) as F.
  assert (F' : forest h') by (apply (history_forest sc); eapply hi_detach; eauto).
  unfold detach in D. unfold at_ in Hc. rewrite Hc in D. destruct (k_parent c) as [p|] eqn:P.
  - inversion D; subst; clear D. set (h1 := remove_children h p (k_nick c)).
    assert (Np : i <> p) by (pose proof (fo_parent _ F _ _ _ Hc P); lia).
    assert (H1 : nth_error h1 i = Some c) by (unfold h1, remove_children; rewrite kupd_other by auto; auto).
    assert (Hi : at_ (kupd h1 i (fun c => set_parent c None)) i (set_parent c None)) by (apply (kupd_same h1 i (fun c => set_parent c None)); auto).
    splits; auto.
    + exists (set_parent c None). splits; auto. intros x. rewrite (lookup_eq _ i (set_parent c None)); auto. simpl. destruct (dget (k_locus c) x); auto.
    + intros j cj k Hj Q. destruct (fo_child _ F' _ _ _ _ Hj Q) as [ci [A [B _]]].
      assert (E : Some ci = Some (set_parent c None)) by (rewrite <- A; exact Hi). inversion E; subst. discriminate.
    + intros q pc Q Pc. inversion Q; subst q. exists (set_children pc (ddel (k_children pc) (k_nick c))). splits.
      * unfold at_ in *. rewrite kupd_other by auto. unfold h1, remove_children. rewrite kupd_nth, Nat.eqb_refl, Pc. auto.
      * intros k. simpl. rewrite dget_ddel. auto.
      * destruct pc; auto.
    + intros j Nj Nq. rewrite kupd_other by auto. unfold h1, remove_children. apply kupd_other. congruence.
  - inversion D; subst; clear D. splits; auto.
    + exists c. splits; auto. intros x. rewrite (lookup_eq _ i c); auto. rewrite P. destruct (dget (k_locus c) x); auto.
    + intros j cj k Hj Q. destruct (fo_child _ F _ _ _ _ Hj Q) as [ci [A [B _]]]. assert (ci = c) by (unfold at_ in *; congruence). congruence.
    + discriminate.
Qed.
Print Assumptions C50_detach.

(** detach with collect_pars on a core with a parent, duplicate and clone raise; the latter two
    leave all cores as they were. *)
Theorem C50_raises : forall w (sc : simcore w) h i c, at_ h i c ->
  (k_parent c <> None -> fst (detach h i true) = Err AttributeError)
  /\ (forall nick, duplicate h i nick = Err AttributeError)
  /\ (forall r, exists e h' r', clone_core sc h i r = (Err e, h', r') /\ forall j cj, at_ h j cj -> at_ h' j cj).
Proof.
  intros w sc h i c Hc. unfold at_ in Hc. splits; auto.
  - intros P. unfold detach. rewrite Hc. destruct (k_parent c); [auto|congruence].
  - intros r. unfold clone_core, group_of. rewrite Hc. destruct (k_parent c); [eauto 10|].
    destruct (dget (sc_groups sc) (k_group c)) as [g|]; [|eauto 10].
    destruct (generate sc g (k_nick c) None (k_locus c) h r) as [[o h'] r'] eqn:G.
    assert (K : forall j cj, at_ h j cj -> at_ h' j cj).
    { unfold generate in G. destruct (gen_exo _ _ _ _ _ _) as [[vs|e] r1]; [|inversion G; subst; auto].
      destruct (gen_fixed _ _ _ _ _) as [[[vs' q]|e] r2]; inversion G; subst; auto.
      intros j cj Hj. unfold at_ in *. rewrite nth_error_app1; auto. apply nth_error_Some. congruence. }
    destruct o; eauto 10.
Qed.
Print Assumptions C50_raises.

Example C50_example : history exsc exh3 /\ (exists c, at_ exh3 1 c /\ k_parent c = Some 0)
  /\ map show (snd (detach exh3 1 false)) =
     [("root", [("a", PZ 1); ("s", PZ 2); ("k", PZ 2)], LZ 0, None, []); ("i1", [("x", PZ 5); ("y", PZ 7)], LZ (-4), None, [])].
Proof.
  split; [exact exh3_history|]. split; [|vm_compute; reflexivity].
  pose proof exh3_show as Q. apply (f_equal (fun l => nth_error l 1)) in Q. rewrite nth_error_map in Q. simpl nth_error in Q at 2.
  destruct (nth_error exh3 1) as [c|] eqn:E; [|discriminate]. exists c. split; [exact E|]. inversion Q. auto.
Qed.

(** A failing detach with collect_pars has already removed the core from its parent and replaced
    its own value by the parent's: the child with its own a = 5 sees a = 1 afterwards. *)
Theorem C50_collect_refuted : exists w (sc : simcore w) h i h' c c' x v v',
  history sc h /\ detach h i true = (Err AttributeError, h') /\ at_ h i c /\ at_ h' i c' /\ k_parent c' = k_parent c
  /\ dget (k_locus c) x = Some v /\ dget (k_locus c') x = Some v' /\ v <> v'.
Proof.
  destruct (breed exsc 0 "i1" "ind" [("a", PZ 5)] exh1 4) as [[o h] r] eqn:E.
  assert (Eh : h = snd (fst (breed exsc 0 "i1" "ind" [("a", PZ 5)] exh1 4))) by (rewrite E; auto).
  destruct (detach h 1 true) as [o' h'] eqn:D.
  assert (Ed : h' = snd (detach h 1 true)) by (rewrite D; auto).
  assert (Eo : match o' with Err AttributeError => true | _ => false end = true) by (change o' with (fst (o', h')); rewrite <- D, Eh; vm_compute; reflexivity).
  assert (Q : option_map (fun c : core exw => (k_parent c, dget (k_locus c) "a")) (nth_error h 1) = Some (Some 0, Some (PZ 5))) by (rewrite Eh; vm_compute; reflexivity).
  assert (Q' : option_map (fun c : core exw => (k_parent c, dget (k_locus c) "a")) (nth_error h' 1) = Some (Some 0, Some (PZ 1))) by (rewrite Ed, Eh; vm_compute; reflexivity).
  destruct (nth_error h 1) as [c|] eqn:C1; [|discriminate]. destruct (nth_error h' 1) as [c'|] eqn:C2; [|discriminate].
  simpl in Q, Q'. inversion Q as [[Q1 Q2]]. inversion Q' as [[Q1' Q2']].
  exists exw, exsc, h, 1, h', c, c', "a", (PZ 5), (PZ 1). splits; auto.
  - eapply hi_breed; [exact exh1_history|exact E].
  - rewrite D. destruct o' as [|[]]; try discriminate. auto.
  - congruence.
  - discriminate.
Qed.
Print Assumptions C50_collect_refuted.

(** Prototypes all carry the nickname prototype: detaching one removes a child of that name. *)
Theorem C50_prototype_refuted : exists w (sc : simcore w) h i h' p pc pc' k j,
  history sc h /\ detach h i false = (Ok tt, h') /\ at_ h p pc /\ at_ h' p pc' /\ j <> i
  /\ dget (k_children pc) k = Some j /\ dget (k_children pc') k = None.
Proof.
  destruct (breed exsc 0 "prototype" "ind" [] exh1 4) as [[o h1] r1] eqn:E1.
  assert (Eh1 : h1 = snd (fst (breed exsc 0 "prototype" "ind" [] exh1 4))) by (rewrite E1; auto).
  destruct (get_prototype exsc 0 "ind" [] h1 5) as [[o2 h2] r2] eqn:E2.
  assert (Eh2 : h2 = snd (fst (get_prototype exsc 0 "ind" [] h1 5))) by (rewrite E2; auto).
  destruct (detach h2 2 false) as [o' h'] eqn:D.
  assert (Ed : h' = snd (detach h2 2 false)) by (rewrite D; auto).
  assert (Eo : match o' with Ok tt => true | _ => false end = true) by (change o' with (fst (o', h')); rewrite <- D, Eh2, Eh1; vm_compute; reflexivity).
  assert (Q : option_map (fun c : core exw => dget (k_children c) "prototype") (nth_error h2 0) = Some (Some 1)) by (rewrite Eh2, Eh1; vm_compute; reflexivity).
  assert (Q' : option_map (fun c : core exw => dget (k_children c) "prototype") (nth_error h' 0) = Some None) by (rewrite Ed, Eh2, Eh1; vm_compute; reflexivity).
  destruct (nth_error h2 0) as [c|] eqn:C1; [|discriminate]. destruct (nth_error h' 0) as [c'|] eqn:C2; [|discriminate].
  simpl in Q, Q'. inversion Q as [Q1]. inversion Q' as [Q1'].
  exists exw, exsc, h2, 2, h', 0, c, c', "prototype", 1. splits; auto.
  - eapply hi_prototype; [|exact E2]. eapply hi_breed; [exact exh1_history|exact E1].
  - rewrite D. destruct o' as [[]|]; try discriminate. auto.
Qed.
Print Assumptions C50_prototype_refuted.

(** ** C67 *)

(** LogPrior of a touched core is the sum of the log densities of its fixed nodes at the values it
    sees afterwards. *)
Theorem C67_prior : forall w (sc : simcore w) h i r h' r' A T j c' g,
  built (sc_bn sc) -> groups_sorted sc -> history sc h -> intervened sc h i r h' r' A T -> reached h i j -> at_ h' j c' ->
  dget (sc_groups sc) (k_group c') = Some g ->
  exists qs, Forall2 (fun d q => exists l rho, holds (sc_bn sc) d l /\ (forall p, In p (loci_parents l) \/ p = d -> rho p = lookup h' j p)
                                 /\ evaluate l rho = Ok q) (g_fixed g) qs
    /\ k_prior c' = Some (fold_left (lp_add w) qs (lp_zero w)).
Proof.
  intros w sc h i r h' r' A T j c' g B G H I R Hc' Hg.
  destruct (setup w sc h i r h' r' A T B H I) as [imp [sh [ci [C [F [S [Hi [Out [Ran [HA [HT Cl]]]]]]]]]]].
  destruct (shape_at _ _ _ _ (shape_sym _ _ S) Hc') as [c [Hc E]]. apply shape_fields in E. destruct E as [_ [E _]].
  rewrite <- E in Hg. pose proof (Ran j R) as K.
  destruct (Ran j R) as [d [g0 [d' [B1 [B2 [B3 [hs [rs [prior [he [re [ha [ra [ca [D1 [D2 [D3 [D4 [D5 [D6 [D7 [D8 [D9 [D10 D11]]]]]]]]]]]]]]]]]]]]]]]].
  assert (d = c) by (unfold at_ in *; congruence). assert (d' = c') by (unfold at_ in *; congruence). subst.
  assert (g0 = g) by congruence. subst. destruct (G _ _ Hg) as [G1 [G2 G3]].
  assert (Fs : forest hs) by (eapply shape_forest; eauto).
  destruct (resp_fixed_frame _ _ _ _ _ _ _ _ _ _ _ D4) as [O Kf]. destruct (Kf c D2) as [ce [Hce Kce]].
  destruct (resp_fixed_prior _ _ _ _ C _ _ _ _ _ _ _ _ _ Fs D2 Hce G1 G3 D4) as [qs [Q1 Q2]].
  destruct (resp_actors_frame _ _ _ _ _ _ _ (shocked_places_core c j sh) D5) as [O2 K2].
  destruct (K2 _ (kupd_same he j (fun c => set_prior c prior) ce Hce)) as [ca' [Hca' [_ [V1 [_ V2]]]]].
  assert (ca' = ca) by (unfold at_ in *; congruence). subst. cbn [k_locus k_prior set_prior] in V1, V2.
  assert (Lk : forall x, lookup he j x = lookup h' j x).
  { pose proof (resp_fixed_shape _ _ _ _ _ _ _ _ _ _ _ D4) as Se. intros x. apply lookup_ext.
    - eapply shape_forest; eauto.
    - eapply shape_trans; [apply shape_sym; exact Se|]. eapply shape_trans; [apply shape_sym; exact D1|auto].
    - intros m d d' Am Hd Hd'. destruct (Nat.eq_dec m j) as [->|N].
      + assert (d = ce) by (unfold at_ in *; congruence). assert (d' = c') by (unfold at_ in *; congruence). subst. congruence.
      + assert (Hs : at_ hs m d) by (unfold at_ in *; rewrite <- O; auto).
        rewrite (D3 m d d'); auto. eapply above_shape; [apply shape_sym; eapply shape_trans; [exact D1|exact Se]|auto]. }
  exists qs. split; [|congruence]. clear - Q1 Lk. induction Q1 as [|d q ds qs [l [rho [A1 [A2 A3]]]] Q IH]; constructor; auto.
  exists l, rho. splits; auto. intros p Hp. rewrite <- Lk. auto.
Qed.
Print Assumptions C67_prior.

(** DeepLogPrior is defined exactly when all cores reached have been touched by an impulse, and
    raises AttributeError otherwise. *)
Theorem C67_deep : forall w (sc : simcore w) h i c, history sc h -> at_ h i c ->
  match deep_prior (S (length h)) h i with
  | Ok _ => forall j cj, reached h i j -> at_ h j cj -> k_prior cj <> None
  | Err e => e = AttributeError /\ exists j cj, reached h i j /\ at_ h j cj /\ k_prior cj = None
  end.
Proof. intros w sc h i c H Hc. apply (deep_prior_defined _ h i c); auto; [eapply history_forest; eauto|lia]. Qed.
Print Assumptions C67_deep.

(** It is defined after an impulse at the core or above, and no longer after breeding. *)
Theorem C67_after : forall w (sc : simcore w) h i r h' r' A T j c, built (sc_bn sc) -> groups_sorted sc -> history sc h ->
  intervened sc h i r h' r' A T -> reached h i j -> at_ h j c -> exists p, deep_prior (S (length h')) h' j = Ok p.
Proof.
  intros w sc h i r h' r' A T j c B G H I R Hc.
  assert (H' : history sc h') by (inversion I; subst; [eapply hi_impulse|eapply hi_impulse_list]; eauto).
  destruct (setup w sc h i r h' r' A T B H I) as [imp [sh [ci [C [F [S [Hi [Out [Ran _]]]]]]]]].
  destruct (shape_at _ _ _ _ S Hc) as [c' [Hc' _]].
  pose proof (C67_deep w sc h' j c' H' Hc') as D. destruct (deep_prior (Datatypes.S (length h')) h' j) as [p|e]; eauto. exfalso.
  destruct D as [_ [m [cm [D1 [D2 D3]]]]]. apply (reached_shape h' h) in D1; [|apply shape_sym; auto].
  assert (Rm : reached h i m).
  { clear - R D1. induction R as [i|i c k n j X Y R IH]; auto. apply re_step with (c := c) (k := k) (m := n); auto. }
  destruct (Ran m Rm) as [d [g0 [d' [B1 [B2 [B3 [hs [rs [prior [he [re [ha [ra [ca [E1 [E2 [E3 [E4 [E5 [E6 [E7 [E8 [E9 [E10 E11]]]]]]]]]]]]]]]]]]]]]]]].
  assert (d' = cm) by (unfold at_ in *; congruence). subst.
  destruct (resp_fixed_frame _ _ _ _ _ _ _ _ _ _ _ E4) as [O Kf]. destruct (Kf d E2) as [ce [Hce Kce]].
  destruct (resp_actors_frame _ _ _ _ _ _ _ (shocked_places_core d m sh) E5) as [O2 K2].
  destruct (K2 _ (kupd_same he m (fun c => set_prior c prior) ce Hce)) as [ca' [Hca' [_ [V1 [_ V2]]]]].
  assert (ca' = ca) by (unfold at_ in *; congruence). subst. cbn [k_prior set_prior] in V2. congruence.
Qed.
Print Assumptions C67_after.
Theorem C67_breed : forall w (sc : simcore w) h i c nick g exo r j h' r', history sc h -> at_ h i c ->
  breed sc i nick g exo h r = (Ok j, h', r') -> deep_prior (S (length h')) h' i = Err AttributeError.
Proof.
  intros w sc h i c nick g exo r j h' r' H Hc Br. assert (H' : history sc h') by (eapply hi_breed; eauto).
  unfold breed in Br. unfold at_ in Hc. rewrite Hc in Br. destruct (dmem nick (k_children c)); [discriminate|].
  destruct (sg_breed sc i nick g exo h r) as [[[j0|e] h1] r1] eqn:Sg; [|discriminate]. inversion Br; subst. clear Br.
  unfold sg_breed in Sg. destruct (group_of sc h i) as [g0|]; [|discriminate]. destruct (negb (mem g (g_children g0))); [discriminate|].
  destruct (dget (sc_groups sc) g) as [g'|]; [|discriminate]. unfold generate in Sg.
  destruct (gen_exo _ _ _ _ _ _) as [[vs|e] r2]; [|discriminate]. destruct (gen_fixed _ _ _ _ _) as [[[vs' q]|e] r3]; [|discriminate].
  inversion Sg; subst. clear Sg. set (n := mkCore nick (g_name g') _ q None (Some i) [] None None) in *.
  set (up := fun c : core w => set_children c (dset (k_children c) nick (length h))) in *.
  assert (Li : i < length h) by (apply nth_error_Some; congruence).
  assert (Hi : at_ (kupd (h ++ [n]) i up) i (up c)).
  { apply (kupd_same (h ++ [n]) i up). unfold at_. rewrite nth_error_app1; auto. }
  assert (Hn : at_ (kupd (h ++ [n]) i up) (length h) n).
  { unfold at_. rewrite kupd_other by lia. rewrite nth_error_app2, Nat.sub_diag by lia. auto. }
  pose proof (C67_deep w sc _ i (up c) H' Hi) as D. destruct (deep_prior _ _ i) as [p|e]; [|destruct D as [-> _]; auto]. exfalso.
  apply (D (length h) n); auto. apply re_step with (c := up c) (k := nick) (m := length h); auto; [|constructor].
  unfold up. simpl. rewrite dget_dset, String.eqb_refl. auto.
Qed.
Print Assumptions C67_breed.

Example C67_example : history exsc exh3 /\ deep_prior 3 exh3 0 = Err AttributeError
  /\ (let o := impulse_core exsc [("x", PZ 9)] 0 exh3 0 in
      fst (fst o) = Ok tt /\ map k_prior (snd (fst o)) = [Some (LZ 0); Some (LZ (-8))] /\ deep_prior 3 (snd (fst o)) 0 = Ok (LZ (-8))).
Proof. split; [exact exh3_history|]. cbv zeta. splits; vm_compute; reflexivity. Qed.

(** ** C68 *)

(** The actor behind a new sampler follows the values its core sees. Nothing else changes. *)
Theorem C68_sampler : forall w (sc : simcore w) h p i r h' r' a, history sc h -> actor_at h p = Some a ->
  new_sampler h p i r = (Ok tt, h', r') ->
  (forall j x, lookup h' j x = lookup h j x) /\ (forall q, q <> p -> actor_at h' q = actor_at h q)
  /\ exists a', actor_at h' p = Some a' /\ up_to_date (lookup h' i) a'
       /\ forall r1, is_rv_l (match a' with AFrozen _ l _ _ => l | ASingle _ l _ => l | ACompound _ l _ _ => l end) = true ->
            is_frozen a' = true -> exists f n fn ps rd d, a' = AFrozen f (LDist n fn ps) rd (SDist d)
              /\ get_distribution fn (fun x => if mem x rd then lookup h' i x else None) = Ok d
              /\ call_sampler h' p i r1 = (Ok (fst (w_sample w d r1)), snd (w_sample w d r1)).
Proof.
  intros w sc h p i r h' r' a H Ha N. pose proof (history_forest _ _ H) as F.
  assert (Call : forall h'' a', actor_at h'' p = Some a' -> up_to_date (lookup h'' i) a' ->
    forall r1, is_rv_l (match a' with AFrozen _ l _ _ => l | ASingle _ l _ => l | ACompound _ l _ _ => l end) = true ->
            is_frozen a' = true -> exists f n fn ps rd d, a' = AFrozen f (LDist n fn ps) rd (SDist d)
              /\ get_distribution fn (fun x => if mem x rd then lookup h'' i x else None) = Ok d
              /\ call_sampler h'' p i r1 = (Ok (fst (w_sample w d r1)), snd (w_sample w d r1))).
  { intros h'' a' A' U r1 Rv Fr. destruct a' as [f l rd s|f l rd|f l rd fl]; try discriminate Fr. destruct l as [n v|n|n fn ps|n ex ps|n ps]; try discriminate Rv.
    cbn [up_to_date] in U. destruct U as [d [U1 ->]]. exists f, n, fn, ps, rd, d. splits; auto.
    unfold call_sampler. rewrite A'. cbn [a_sample is_rv_l]. destruct (w_sample w d r1); auto. }
  unfold new_sampler in N. rewrite Ha in N. destruct (is_frozen a) eqn:Fr.
  - unfold update_at in N. rewrite Ha in N. destruct (a_update a (lookup h i) r) as [[a'|e] r1] eqn:U; [|discriminate]. inversion N; subst. clear N.
    pose proof (put_actor_shape h p a') as S. destruct (put_actor_frame h p a') as [O K].
    assert (L : forall j x, lookup (put_actor h p a') j x = lookup h j x).
    { intros j x. symmetry. apply lookup_ext; auto. intros m d d' _ Hd Hd'. destruct (Nat.eq_dec m (place_owner p)) as [->|Nm].
      - destruct (K d Hd) as [d2 [K1 [_ [K2 _]]]]. assert (d2 = d') by (unfold at_ in *; congruence). congruence.
      - assert (d = d'); [|congruence]. specialize (O m Nm). unfold at_ in *. congruence. }
    apply a_update_current in U. destruct U as [U [f [l [rd [s [s' [Ea Ea']]]]]]].
    assert (Ap : actor_at (put_actor h p a') p = Some a') by (rewrite (actor_at_put _ _ _ _ _ Ha); destruct (place_eq_dec p p); tauto).
    assert (Up : up_to_date (lookup (put_actor h p a') i) a') by (subst a'; eapply up_to_date_agree; [|exact U]; intros; symmetry; apply L).
    splits; auto.
    + intros q Nq. rewrite (actor_at_put _ _ _ _ _ Ha). destruct (place_eq_dec q p); tauto.
    + exists a'. splits; auto.
  - inversion N; subst. splits; auto. exists a. splits; auto; [|intros; congruence]. destruct a; simpl; auto. discriminate.
Qed.
Print Assumptions C68_sampler.

(** Missing: the second core must see the same values in the names the actor reads. *)
Theorem C68_other_core_partial : forall w (sc : simcore w) h p i q j r h' r' a, history sc h ->
  actor_at h p = Some a -> up_to_date (lookup h i) a ->
  (q = p -> forall f l rd s x, a = AFrozen f l rd s -> In x rd -> lookup h j x = lookup h i x) ->
  new_sampler h q j r = (Ok tt, h', r') -> exists a', actor_at h' p = Some a' /\ up_to_date (lookup h' i) a'.
Proof.
  intros w sc h p i q j r h' r' a H Ha U E N.
  destruct (actor_at h q) as [b|] eqn:Hb; [|unfold new_sampler in N; rewrite Hb in N; discriminate].
  destruct (C68_sampler w sc h q j r h' r' b H Hb N) as [L [O [a' [A1 [A2 _]]]]].
  destruct (place_eq_dec p q) as [->|Npq].
  - exists a'. split; auto. assert (b = a) by congruence. subst.
    unfold new_sampler in N. rewrite Ha in N. destruct a as [f l rd s|f l rd|f l rd fl]; simpl in N.
    + unfold update_at in N. rewrite Ha in N. destruct (a_update _ _ r) as [[a2|e] r1] eqn:Ua; [|discriminate]. inversion N; subst.
      apply a_update_current in Ua. destruct Ua as [_ [f' [l' [rd' [s0 [s' [X Y]]]]]]]. inversion X; subst.
      rewrite (actor_at_put _ _ _ _ _ Ha) in A1. destruct (place_eq_dec q q); [|tauto]. inversion A1; subst.
      eapply up_to_date_agree; [|exact A2]. intros x Hx. rewrite !L. eapply E; eauto.
    + inversion N; subst. rewrite Ha in A1. inversion A1; subst. exact I.
    + inversion N; subst. rewrite Ha in A1. inversion A1; subst. exact I.
  - exists a. rewrite O by auto. split; auto. destruct a as [f l rd s|f l rd|f l rd fl]; auto.
    eapply up_to_date_agree; [|exact U]. intros x _. symmetry. apply L.
Qed.
Print Assumptions C68_other_core_partial.

(** Two individuals share the actor of x; the second has its own a. After a sampler was made for
    each, the first one draws from the distribution of the second. *)
Definition exsc6 : simcore exw := mkSC exnet "ag"
  [("ag", mkGroup "ag" ["ind"] [] ["a"; "s"; "k"] [("x", mkBp "x" Frozen ["a"; "s"] [])] []);
   ("ind", mkGroup "ind" [] [] [] [("x", mkBp "x" Frozen ["a"; "s"] [])] [("x", mkBp "x" Frozen ["a"; "s"] [])])].
Definition exh6 : cores exw :=
  let h1 := snd (fst (sc_generate exsc6 "root" [("a", PZ 1); ("s", PZ 2)] [] 0)) in
  let h2 := snd (fst (breed exsc6 0 "i1" "ind" [] h1 4)) in
  let h3 := snd (fst (breed exsc6 0 "i2" "ind" [("a", PZ 100)] h2 4)) in
  let h4 := snd (fst (get_actors exsc6 h3 1 true 4)) in
  snd (fst (new_sampler h4 (PShared 0 "ind" "x") 1 4)).
Lemma st_root : forall (sc : simcore exw) nick exo h r, history sc h -> history sc (snd (fst (sc_generate sc nick exo h r))).
Proof. intros. destruct (sc_generate sc nick exo h r) as [[o h'] r'] eqn:E. eapply hi_root; eauto. Qed.
Lemma st_breed : forall (sc : simcore exw) i nick g exo h r, history sc h -> history sc (snd (fst (breed sc i nick g exo h r))).
Proof. intros. destruct (breed sc i nick g exo h r) as [[o h'] r'] eqn:E. eapply hi_breed; eauto. Qed.
Lemma st_actors : forall (sc : simcore exw) i s h r, history sc h -> history sc (snd (fst (get_actors sc h i s r))).
Proof. intros. destruct (get_actors sc h i s r) as [[o h'] r'] eqn:E. eapply hi_actors; eauto. Qed.
Lemma st_sampler : forall (sc : simcore exw) p i h r, history sc h -> history sc (snd (fst (new_sampler h p i r))).
Proof. intros. destruct (new_sampler h p i r) as [[o h'] r'] eqn:E. eapply hi_sampler; eauto. Qed.
Lemma exh6_history : history exsc6 exh6.
Proof. apply st_sampler, st_actors, st_breed, st_breed, st_root. constructor. Qed.
Example C68_example : history exsc6 exh6 /\ locscale (actor_at exh6 (PShared 0 "ind" "x")) = Some (1, 2)%Z
  /\ lookup exh6 1 "a" = Some (PZ 1) /\ lookup exh6 2 "a" = Some (PZ 100).
Proof. split; [exact exh6_history|]. splits; vm_compute; reflexivity. Qed.

Lemma actor_dist : forall (h : cores exw) p d, locscale (actor_at h p) = Some d ->
  (match actor_at h p with Some (AFrozen _ (LDist _ f _) rd _) => Some (f, rd) | _ => None end) = Some (e_norm (EName "a") (EName "s"), ["a"; "s"]) ->
  exists f n ps, actor_at h p = Some (AFrozen f (LDist (w:=exw) n (e_norm (EName "a") (EName "s")) ps) ["a"; "s"] (SDist (w:=exw) d)).
Proof.
  intros h p d. destruct (actor_at h p) as [[f l rd s|f l rd|f l rd fl]|]; simpl; try discriminate.
  destruct s as [|d'|v]; try discriminate. intros A B. inversion A; subst. destruct l as [n v|n|n fn ps|n e ps|n ps]; try discriminate.
  inversion B; subst. exists f, n, ps. auto.
Qed.
Theorem C68_other_core_refuted : exists w (sc : simcore w) h p i j r h' r' a a', history sc h /\ actor_at h p = Some a
  /\ up_to_date (lookup h i) a /\ new_sampler h p j r = (Ok tt, h', r') /\ actor_at h' p = Some a' /\ ~ up_to_date (lookup h' i) a'.
Proof.
  destruct (new_sampler exh6 (PShared 0 "ind" "x") 2 4) as [[o h'] r'] eqn:E.
  assert (Eo : o = Ok tt) by (change o with (fst (fst (o, h', r'))); rewrite <- E; vm_compute; reflexivity).
  assert (Eh : h' = snd (fst (new_sampler exh6 (PShared 0 "ind" "x") 2 4))) by (rewrite E; auto). subst o.
  destruct (actor_dist exh6 (PShared 0 "ind" "x") (1, 2)%Z) as [f [n [ps A1]]]; [vm_compute; reflexivity|vm_compute; reflexivity|].
  destruct (actor_dist h' (PShared 0 "ind" "x") (100, 2)%Z) as [f' [n' [ps' A2]]]; [subst h'; vm_compute; reflexivity|subst h'; vm_compute; reflexivity|].
  exists exw, exsc6, exh6, (PShared 0 "ind" "x"), 1, 2, 4, h', r'. eexists. eexists. splits.
  - exact exh6_history.
  - exact A1.
  - exists (1, 2)%Z. split; [vm_compute; reflexivity|reflexivity].
  - exact E.
  - exact A2.
  - intros [d [Q1 Q2]]. inversion Q2; subst. vm_compute in Q1. discriminate.
Qed.
Print Assumptions C68_other_core_refuted.
