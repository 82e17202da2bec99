(** * Property C99: parameter cores as containers *)

Require Import Verif.Base Verif.World Verif.ModelGraph Verif.ModelExpr Verif.ModelLoci Verif.ModelBN Verif.ModelSample Verif.ModelSim Verif.ModelCont
        Verif.Spec Verif.SpecBN Verif.SpecExpr Verif.SpecSample Verif.SpecSim Verif.ProofBase Verif.ProofExpr Verif.ProofBN Verif.ProofBNViews Verif.ProofBNHist
        Verif.ProofSample Verif.ProofSim Verif.ExWorld Verif.PropsBN Verif.PropsSample Verif.PropsSim.
Require Import Coq.ZArith.ZArith Lia.
Local Open Scope nat_scope.

(** the keys of a dict are distinct *)
Definition proper {w} (h : cores w) : Prop := forall j c, at_ h j c -> NoDup (dkeys (k_locus c)).

(** the cores from the root down to [i] *)
Inductive lineage {w} (h : cores w) : nat -> list nat -> Prop :=
| li_root : forall i c, at_ h i c -> k_parent c = None -> lineage h i [i]
| li_up : forall i c p js, at_ h i c -> k_parent c = Some p -> lineage h p js -> lineage h i (js ++ [i]).

Section Lemmas.
  Context {w : world}.
  Lemma items_enough : forall (h : cores w), forest h -> forall f f' i, i < f -> i < f' -> items f h i = items f' h i.
  Proof.
    intros h F. induction f as [|f IH]; intros f' i L L'; [lia|]. destruct f' as [|f']; [lia|]. simpl.
    destruct (nth_error h i) as [c|] eqn:E; auto. destruct (k_parent c) as [p|] eqn:P; auto. f_equal.
    pose proof (fo_parent _ F _ _ _ E P). apply IH; lia.
  Qed.
  Lemma items_eq : forall (h : cores w) i c, forest h -> at_ h i c ->
    core_items h i = match k_parent c with Some p => core_items h p | None => [] end ++ k_locus c.
  Proof.
    intros h i c F H. unfold core_items. cbn [items]. unfold at_ in H. rewrite H. destruct (k_parent c) as [p|] eqn:P; auto. f_equal.
    pose proof (fo_parent _ F _ _ _ H P). apply (items_enough h F i (S p) p); lia.
  Qed.
  Lemma own_at : forall (h : cores w) i c, at_ h i c -> own h i = k_locus c.
  Proof. intros h i c H. unfold own, at_ in *. rewrite H. auto. Qed.
  Lemma dget_rev_app : forall A (d e : dict A) x, dget (rev (d ++ e)) x = match dget (rev e) x with Some v => Some v | None => dget (rev d) x end.
  Proof.
    intros A d e x. rewrite rev_app_distr. induction (rev e) as [|[k v] l IH]; auto. simpl. destruct (String.eqb x k); auto.
  Qed.
  Lemma dget_last : forall A (d : dict A) x v, dget (rev d) x = Some v <-> exists l1 l2, d = l1 ++ (x, v) :: l2 /\ ~ In x (map fst l2).
  Proof.
    intros A d x v. split.
    - intros H. rewrite <- (rev_involutive d). induction (rev d) as [|[k u] l IH]; [discriminate H|]. simpl in H. destruct (String.eqb_spec x k) as [->|N].
      + injection H as ->. exists (rev l), []. split; auto.
      + destruct (IH H) as (l1 & l2 & E & Nl). simpl. exists l1, (l2 ++ [(k, u)]). rewrite E, <- app_assoc. split; auto.
        rewrite map_app, in_app_iff. simpl. intros [K|[K|[]]]; auto.
    - intros (l1 & l2 & -> & N). rewrite rev_app_distr. simpl. rewrite <- app_assoc.
      assert (Nr : ~ In x (map fst (rev l2))) by (rewrite map_rev, <- in_rev; auto). clear N. induction (rev l2) as [|[k u] l IH]; simpl.
      + rewrite String.eqb_refl. auto.
      + destruct (String.eqb_spec x k) as [->|]; [exfalso; apply Nr; simpl; auto|]. apply IH. intros K. apply Nr. simpl. auto.
  Qed.
  Lemma items_lookup : forall (h : cores w), forest h -> proper h -> forall i x, i < length h -> dget (rev (core_items h i)) x = lookup h i x.
  Proof.
    intros h F P. induction i as [i IH] using lt_wf_ind. intros x L. destruct (at_exists _ _ L) as [c H].
    rewrite (items_eq _ _ _ F H), (lookup_eq _ _ _ _ F H), dget_rev_app, dget_rev_NoDup by (eapply P; eauto).
    destruct (dget (k_locus c) x); auto. destruct (k_parent c) as [p|] eqn:Pa; auto. pose proof (fo_parent _ F _ _ _ H Pa). apply IH; lia.
  Qed.
  Lemma lineage_items : forall (h : cores w) i js, forest h -> lineage h i js -> core_items h i = concat (map (own h) js).
  Proof.
    intros h i js F H. induction H as [i c H P|i c p js H P K IH]; rewrite (items_eq _ _ _ F H), P.
    - simpl. rewrite (own_at _ _ _ H), app_nil_r. auto.
    - rewrite map_app, concat_app, IH. simpl. rewrite (own_at _ _ _ H), app_nil_r. auto.
  Qed.
  Lemma core_dict_own : forall (h : cores w) i c, forest h -> proper h -> at_ h i c -> core_dict h i = Ok (k_locus c).
  Proof.
    intros h i c F P H. unfold core_dict, core_keys. rewrite (own_at _ _ _ H).
    assert (Q : forall l, (forall k v, In (k, v) l -> dget (k_locus c) k = Some v) -> mapM (fun k => do v <- core_get h i k; Ok (k, v)) (dkeys l) = Ok l).
    { induction l as [|[k v] l IH]; intros K; auto. cbn [dkeys map fst mapM]. unfold core_get at 1. rewrite (lookup_eq _ _ _ _ F H), (K k v) by (simpl; auto).
      cbn [bind]. change (map fst l) with (dkeys l). rewrite IH; auto. intros; apply K; simpl; auto. }
    apply Q. intros k v I. pose proof (P _ _ H) as N. clear - I N. induction (k_locus c) as [|[k' v'] l IH]; [destruct I|]. simpl in N. inversion N as [|? ? N1 N2]; subst.
    simpl. destruct I as [I|I]; [injection I as -> ->; rewrite String.eqb_refl; auto|].
    destruct (String.eqb_spec k k') as [->|]; auto. exfalso. apply N1. apply (in_map fst) in I. auto.
  Qed.
  Lemma lineage_exists : forall (h : cores w), forest h -> forall i, i < length h -> exists js, lineage h i js.
  Proof.
    intros h F. induction i as [i IH] using lt_wf_ind. intros L. destruct (at_exists _ _ L) as [c H].
    destruct (k_parent c) as [p|] eqn:P; [|exists [i]; eapply li_root; eauto]. pose proof (fo_parent _ F _ _ _ H P).
    destruct (IH p) as [js J]; auto; [lia|]. exists (js ++ [i]). eapply li_up; eauto.
  Qed.
End Lemmas.

(** ** Iterating *)

(** Iterating over a core gives the values of all cores from the root down to it. The last pair with
    a name is what the core gives for the name, and a name without a pair raises KeyError. *)
Theorem C99_iteration : forall w (sc : simcore w) h i, history sc h -> proper h -> i < length h ->
  (exists js, lineage h i js /\ core_items h i = concat (map (own h) js))
  /\ (forall x v, core_get h i x = Ok v <-> exists l1 l2, core_items h i = l1 ++ (x, v) :: l2 /\ ~ In x (map fst l2))
  /\ (forall x, core_get h i x = Err KeyError <-> ~ In x (map fst (core_items h i))).
Proof.
  intros w sc h i H P L. pose proof (history_forest _ _ H) as F. splits.
  - destruct (lineage_exists h F i L) as [js J]. exists js. split; auto. apply lineage_items; auto.
  - intros x v. rewrite <- dget_last, items_lookup by auto. unfold core_get. destruct (lookup h i x); split; intros K; inversion K; auto.
  - intros x. unfold core_get. rewrite <- (items_lookup h F P i x L).
    assert (Q : dget (rev (core_items h i)) x = None <-> ~ In x (map fst (core_items h i))).
    { rewrite dget_None. unfold dkeys. rewrite map_rev, <- in_rev. tauto. }
    rewrite <- Q. destruct (dget (rev (core_items h i)) x); split; intros K; try discriminate; auto.
Qed.
Print Assumptions C99_iteration.

(** ** Everything else knows the core's own values only *)

Theorem C99_own : forall w (sc : simcore w) h i c, history sc h -> proper h -> at_ h i c ->
  core_dict h i = Ok (k_locus c) /\ core_keys h i = dkeys (k_locus c) /\ core_len h i = length (k_locus c)
  /\ (forall x, core_contains h i x = true <-> In x (dkeys (k_locus c)))
  /\ (forall x, core_contains h i x = true -> exists v, dget (k_locus c) x = Some v /\ core_get h i x = Ok v)
  /\ forall b r, built b -> sample_given b h i r = sample b (k_locus c) r.
Proof.
  intros w sc h i c H P K. pose proof (history_forest _ _ H) as F. pose proof (own_at _ _ _ K) as O. splits.
  - apply core_dict_own; auto.
  - unfold core_keys. rewrite O. auto.
  - unfold core_len. rewrite O. auto.
  - intros x. unfold core_contains. rewrite O. apply dmem_In.
  - intros x. unfold core_contains. rewrite O, dmem_In. intros I. destruct (dget (k_locus c) x) as [v|] eqn:E; [|apply dget_None in E; tauto].
    exists v. split; auto. unfold core_get. rewrite (lookup_eq _ _ _ _ F K), E. auto.
  - intros b r B. unfold sample_given, sample. destruct (Exo b) as [ex|e]; auto.
    assert (Q : existsb (fun n => negb (core_contains h i n)) ex = existsb (fun n => negb (dmem n (k_locus c))) ex).
    { unfold core_contains. rewrite O. auto. }
    rewrite Q. destruct (existsb (fun n => negb (dmem n (k_locus c))) ex); auto. rewrite (core_dict_own _ _ _ F P K). auto.
Qed.
Print Assumptions C99_own.

(** So a network cannot be sampled given a core that inherits the value of an exogenous variable. *)
Theorem C99_sample_inherited : forall w (sc : simcore w) h i c b n r, history sc h -> proper h -> at_ h i c -> built b ->
  holds b n (LExo n) -> core_contains h i n = false -> sample_given b h i r = (Err ValueError, r).
Proof.
  intros w sc h i c b n r H P K B Hn N. destruct (C99_own w sc h i c H P K) as (_ & _ & _ & C & _ & Sa). rewrite Sa by auto.
  apply C26_missing_exo; auto. exists n. split; auto. intros I. apply C in I. congruence.
Qed.
Print Assumptions C99_sample_inherited.

(** ** Log densities *)

(** [ts] are the log densities of the nodes that core [j] holds itself, at the values it sees *)
Definition terms_of {w} (b : bn w) (h : cores w) (j : nat) (ts : list (LP w)) : Prop :=
  exists ks, NoDup ks /\ (forall k, In k ks <-> In k (dkeys (own h j)) /\ node b k)
  /\ Forall2 (fun k t => exists l, holds b k l /\ evaluate l (lookup h j) = Ok t) ks ts.
(** np.sum, with nan replaced by -inf *)
Definition total_lp {w} (ts : list (LP w)) : LP w :=
  let s := fold_left (lp_add w) ts (lp_zero w) in if lp_isnan w s then lp_ninf w else s.

Section Terms.
  Context {w : world}.
  Lemma own_nodup : forall (h : cores w) j, proper h -> NoDup (dkeys (own h j)).
  Proof. intros h j P. unfold own. destruct (nth_error h j) eqn:E; [eapply P; eauto|constructor]. Qed.
  Lemma terms_given : forall (b : bn w) h j s, proper h -> evaluate_given b h j = Ok s ->
    exists ts, mapM (fun k => do l <- bget b k; evaluate l (lookup h j)) (filter (in_dag b) (core_keys h j)) = Ok ts /\ terms_of b h j ts /\ s = total_lp ts.
  Proof.
    intros b h j s P H. unfold evaluate_given in H. apply bind_ok in H. destruct H as [ts [H1 H2]]. exists ts. split; auto. split.
    - exists (filter (in_dag b) (core_keys h j)). splits.
      + apply NoDup_filter, own_nodup; auto.
      + intros k. rewrite filter_In, in_dag_spec. tauto.
      + apply mapM_ok in H1. clear H2. induction H1 as [|k t ks ts Hk Hs IH]; constructor; auto.
        apply bind_ok in Hk. destruct Hk as [l [K1 K2]]. exists l. split; auto. apply bget_holds. auto.
    - inversion H2. auto.
  Qed.
  Lemma mapM_app : forall A B (f : A -> res B) l1 l2, mapM f (l1 ++ l2) = do a <- mapM f l1; do b <- mapM f l2; Ok (a ++ b).
  Proof.
    intros A B f l1 l2. induction l1 as [|x l1 IH]; simpl; [destruct (mapM f l2); auto|]. destruct (f x); simpl; auto. rewrite IH.
    destruct (mapM f l1); simpl; auto. destruct (mapM f l2); auto.
  Qed.
  Lemma evaluate_agree : forall (l : loci w) (pas pas' : env w), pas (loci_name l) = pas' (loci_name l) ->
    (forall f c x, (exists n ps, l = LDist n f ps) -> @complete_def w f = Ok c -> mentions c x \/ calls c x -> pas x = pas' x) ->
    evaluate l pas = evaluate l pas'.
  Proof.
    intros l pas pas' Hn H. destruct l as [n v|n|n f ps|n e ps|n ps]; simpl in *; auto.
    rewrite (get_distribution_agree f pas pas'), Hn; auto. intros c x Hc Hx. eapply H; eauto.
  Qed.
End Terms.

(** evaluate_nodes of a core sums the log densities of the nodes it holds itself, at the values it
    sees, inherited ones included. *)
Theorem C99_evaluate : forall w (b : bn w) h i s, proper h -> evaluate_given b h i = Ok s -> exists ts, terms_of b h i ts /\ s = total_lp ts.
Proof. intros w b h i s P H. destruct (terms_given b h i s P H) as (ts & _ & T). exists ts. auto. Qed.
Print Assumptions C99_evaluate.

(** If no name is held twice on the way from the root, and what a definition reads is the same
    wherever it is looked up from, the log density of all visible values has the terms of the cores on
    the way, one core after the other. *)
Theorem C99_joint : forall w (sc : simcore w) (b : bn w) h i js ss, history sc h -> proper h -> coherent b -> lineage h i js ->
  NoDup (map fst (core_items h i)) ->
  (forall j k n f ps c x, In j js -> In k (dkeys (own h j)) -> holds b k (LDist n f ps) -> @complete_def w f = Ok c ->
     mentions c x \/ calls c x -> lookup h j x = lookup h i x) ->
  Forall2 (fun j s => evaluate_given b h j = Ok s) js ss ->
  exists tss, Forall2 (terms_of b h) js tss /\ Forall2 (fun s ts => s = total_lp ts) ss tss
  /\ evaluate_nodes b (core_items h i) = Ok (total_lp (concat tss)).
Proof.
  intros w sc b h i js ss H P C Li Nd Hr E. pose proof (history_forest _ _ H) as F.
  assert (L : i < length h) by (inversion Li; subst; unfold at_ in *; apply nth_error_Some; congruence).
  pose proof (lineage_items _ _ _ F Li) as It.
  assert (Vis : forall x, dget (core_items h i) x = lookup h i x).
  { intros x. rewrite <- items_lookup by auto. symmetry. apply dget_rev_NoDup. exact Nd. }
  assert (Own : forall j k, In j js -> In k (dkeys (own h j)) -> lookup h j k = lookup h i k).
  { intros j k Hj Hk. rewrite <- !Vis.
    assert (Lj : j < length h) by (unfold own in Hk; destruct (nth_error h j) eqn:Q; [apply nth_error_Some; congruence|destruct Hk]).
    destruct (at_exists _ _ Lj) as [c Hc]. rewrite (own_at _ _ _ Hc) in Hk. destruct (dget (k_locus c) k) as [v|] eqn:D; [|apply dget_None in D; tauto].
    assert (V1 : lookup h j k = Some v) by (rewrite (lookup_eq _ _ _ _ F Hc), D; auto). rewrite V1. symmetry. rewrite It.
    assert (I : In (k, v) (core_items h i)).
    { rewrite It. apply in_concat. exists (own h j). split; [apply in_map; auto|]. rewrite (own_at _ _ _ Hc). apply dget_in_pair. auto. }
    rewrite <- It. clear - I Nd. induction (core_items h i) as [|[k' v'] l IH]; [destruct I|]. simpl in Nd. inversion Nd as [|? ? N1 N2]; subst.
    simpl. destruct I as [I|I]; [injection I as -> ->; rewrite String.eqb_refl; auto|].
    destruct (String.eqb_spec k k') as [->|]; auto. exfalso. apply N1. apply (in_map fst) in I. auto. }
  assert (K : exists tss, Forall2 (fun j ts => mapM (fun k => do l <- bget b k; evaluate l (dget (core_items h i))) (filter (in_dag b) (core_keys h j)) = Ok ts) js tss
     /\ Forall2 (terms_of b h) js tss /\ Forall2 (fun s ts => s = total_lp ts) ss tss).
  { clear It Nd Li. induction E as [|j s js ss Ej E IH]; [exists []; splits; constructor|].
    destruct IH as (tss & T1 & T2 & T3); [intros; eapply Hr; simpl; eauto|intros; apply Own; simpl; auto|].
    destruct (terms_given b h j s P Ej) as (ts & M & T & To). exists (ts :: tss). splits; constructor; auto. rewrite <- M.
    apply mapM_ext_in. intros k Ik. apply filter_In in Ik. destruct Ik as [Ik _]. destruct (bget b k) as [l|e] eqn:G; simpl; auto.
    apply bget_holds in G. pose proof (co_name _ C _ _ G) as Nm. apply evaluate_agree.
    - rewrite Nm, Vis. symmetry. apply Own; simpl; auto.
    - intros f c x (n & ps & ->) Hc Hx. rewrite Vis. symmetry. eapply Hr; simpl; eauto. }
  destruct K as (tss & T1 & T2 & T3). exists tss. splits; auto. unfold evaluate_nodes.
  assert (M : mapM (fun k => do l <- bget b k; evaluate l (dget (core_items h i))) (filter (in_dag b) (dkeys (core_items h i))) = Ok (concat tss)).
  { revert T1. generalize (fun k => do l <- bget b k; evaluate l (dget (core_items h i))). intros g T1. rewrite It. clear - T1.
    induction T1 as [|j ts js tss E T IH]; auto. cbn [map concat]. unfold dkeys in *. rewrite map_app, filter_app, mapM_app. unfold core_keys, dkeys in E. rewrite E. cbn [bind].
    rewrite IH. auto. }
  rewrite M. auto.
Qed.
Print Assumptions C99_joint.

(** ** Refuted: a value a core gives need not be counted as contained ... *)
Lemma exh3_proper : proper exh3.
Proof.
  intros j c H. assert (E : map (fun c => dkeys (k_locus c)) exh3 = [["a"; "s"; "k"]; ["x"; "y"]]) by (vm_compute; reflexivity).
  assert (K : nth_error (map (fun c => dkeys (k_locus c)) exh3) j = Some (dkeys (k_locus c))) by (unfold at_ in H; rewrite nth_error_map, H; auto).
  rewrite E in K. destruct j as [|[|j]]; cbn [nth_error] in K; [| |destruct j; discriminate K];
    match type of K with Some ?x = Some ?y => assert (Q : x = y) by congruence end; rewrite <- Q; nodup.
Qed.
Theorem C99_contains_refuted : exists w (sc : simcore w) h i x v, history sc h /\ proper h /\ core_get h i x = Ok v /\ core_contains h i x = false.
Proof. exists exw, exsc, exh3, 1, "a", (PZ 1). split; [exact exh3_history|]. split; [exact exh3_proper|]. split; vm_compute; reflexivity. Qed.
Print Assumptions C99_contains_refuted.

(** ... and a network may be sampled given what a core sees, but not given the core. *)
Theorem C99_sample_refuted : exists w (sc : simcore w) h i (b : bn w) r d r', history sc h /\ proper h /\ built b
  /\ sample b (core_items h i) r = (Ok d, r') /\ sample_given b h i r = (Err ValueError, r).
Proof.
  destruct (sample exnet (core_items exh3 1) 0) as [[d|e] r'] eqn:E.
  - exists exw, exsc, exh3, 1, exnet, 0, d, r'. split; [exact exh3_history|]. split; [exact exh3_proper|]. split; [exact exnet_built|]. split; [exact E|]. vm_compute. reflexivity.
  - exfalso. assert (K : match fst (sample exnet (core_items exh3 1) 0) with Ok _ => true | Err _ => false end = true) by (vm_compute; reflexivity).
    rewrite E in K. discriminate K.
Qed.
Print Assumptions C99_sample_refuted.

(** ** Examples *)
Example C99_example : history exsc exh3 /\ proper exh3 /\ lineage exh3 1 [0; 1]
  /\ core_items exh3 1 = [("a", PZ 1); ("s", PZ 2); ("k", PZ 2); ("x", PZ 5); ("y", PZ 7)]
  /\ core_dict exh3 1 = Ok [("x", PZ 5); ("y", PZ 7)] /\ core_len exh3 1 = 2
  /\ core_contains exh3 1 "x" = true /\ core_contains exh3 1 "a" = false /\ core_get exh3 1 "z" = Err KeyError.
Proof.
  split; [exact exh3_history|]. split; [exact exh3_proper|]. split.
  - destruct (nth_error exh3 1) as [c|] eqn:C; [|vm_compute in C; discriminate C]. destruct (nth_error exh3 0) as [c0|] eqn:C0; [|vm_compute in C0; discriminate C0].
    assert (P : option_map (fun c => k_parent c) (nth_error exh3 1) = Some (Some 0)) by (vm_compute; reflexivity).
    assert (P0 : option_map (fun c => k_parent c) (nth_error exh3 0) = Some None) by (vm_compute; reflexivity).
    rewrite C in P. rewrite C0 in P0. simpl in P, P0. injection P as P. injection P0 as P0.
    apply (li_up exh3 1 c 0 [0]); auto. apply (li_root exh3 0 c0); auto.
  - splits; vm_compute; reflexivity.
Qed.
Example C99_example_evaluate : evaluate_given exnet exh3 0 = Ok (LZ 0) /\ evaluate_given exnet exh3 1 = Ok (LZ (-4))
  /\ evaluate_nodes exnet (core_items exh3 1) = Ok (LZ (-4))
  /\ (forall j k n f ps c x, In j [0; 1] -> In k (dkeys (own exh3 j)) -> holds exnet k (LDist n f ps) -> @complete_def exw f = Ok c ->
       mentions c x \/ calls c x -> lookup exh3 j x = lookup exh3 1 x)
  /\ NoDup (map fst (core_items exh3 1)).
Proof.
  split; [vm_compute; reflexivity|]. split; [vm_compute; reflexivity|]. split; [vm_compute; reflexivity|]. split.
  { intros j k n f ps c x [<-|[<-|[]]] Hk Hl _ _; auto. exfalso. assert (E : dkeys (own exh3 0) = ["a"; "s"; "k"]) by (vm_compute; reflexivity).
    rewrite E in Hk. simpl in Hk. destruct Hk as [<-|[<-|[<-|[]]]]; apply bget_holds in Hl; vm_compute in Hl; discriminate Hl. }
  assert (E : map fst (core_items exh3 1) = ["a"; "s"; "k"; "x"; "y"]) by (vm_compute; reflexivity). rewrite E. nodup.
Qed.
