(** * Property C113: actors put on cores, and cores moved to another simulation core *)

Require Import Coq.micromega.Lia Coq.Arith.Arith.
Require Import Verif.Base Verif.World Verif.ModelGraph Verif.ModelExpr Verif.ModelLoci Verif.ModelBN Verif.ModelSample Verif.ModelSim Verif.ModelDraw Verif.ModelPut
        Verif.Spec Verif.SpecBN Verif.SpecSample Verif.SpecSim Verif.ProofBase Verif.ProofSim Verif.ProofSimImp Verif.ProofSimActors Verif.ExWorld Verif.PropsBN Verif.PropsSim.

Section Put.
  Context {w : world}.

  (** what is visible from every core, who is whose parent and child, and groups and nicknames are the same *)
  Definition only_actors (h h' : cores w) : Prop :=
    length h' = length h /\ same_shape h h' /\ (forall j x, lookup h' j x = lookup h j x)
    /\ forall j c c', at_ h j c -> at_ h' j c' -> k_locus c' = k_locus c /\ k_lp c' = k_lp c /\ k_prior c' = k_prior c.

  (** the actor has been made from the blueprint, and is up to date with what the core [i] sees *)
  Definition fresh (b : bn w) (h : cores w) (i : nat) (p : blueprint) (a : actor w) : Prop :=
    up_to_date (lookup h i) a /\ exists a0, compose_actor b p = Ok a0 /\ (a = a0 \/ exists f l rd s s', a0 = AFrozen f l rd s /\ a = AFrozen f l rd s').

  Lemma kupd_length : forall (h : cores w) i f, length (kupd h i f) = length h.
  Proof. induction h as [|c h IH]; intros [|i] f; simpl; auto. Qed.
  Lemma kupd_only : forall h i (f : core w -> core w), forest h ->
    (forall c, shape_of (f c) = shape_of c /\ k_locus (f c) = k_locus c /\ k_lp (f c) = k_lp c /\ k_prior (f c) = k_prior c) -> only_actors h (kupd h i f).
  Proof.
    intros h i f F K. assert (S : same_shape h (kupd h i f)) by (apply shape_kupd; intros c; apply K).
    assert (L : forall j c c', at_ h j c -> at_ (kupd h i f) j c' -> k_locus c' = k_locus c /\ k_lp c' = k_lp c /\ k_prior c' = k_prior c).
    { intros j c c' C C'. unfold at_ in *. rewrite kupd_nth, C in C'. destruct (Nat.eqb j i); simpl in C'; injection C' as <-; [apply K|auto]. }
    unfold only_actors. splits; auto; [apply kupd_length|]. intros j x. symmetry. apply lookup_ext; auto. intros m c c' _ C C'. destruct (L m c c' C C') as (E & _). rewrite E. reflexivity.
  Qed.
  Lemma only_refl : forall h, only_actors h h.
  Proof. intros h. split; [reflexivity|]. split; [intros j; reflexivity|]. split; [reflexivity|]. unfold at_. intros j c c' H H'. rewrite H in H'. injection H' as <-. auto. Qed.
  Lemma up_to_date_vis : forall (e e' : env w) a, (forall x, e x = e' x) -> up_to_date e a -> up_to_date e' a.
  Proof. intros e e' a E U. destruct a as [f l rd s|f l rd|f l rd fl]; simpl; auto. eapply up_to_date_agree; [|exact U]. auto. Qed.

  Lemma nodup_get : forall A (d : dict A) k v, NoDup (dkeys d) -> In (k, v) d -> dget d k = Some v.
  Proof.
    intros A d k v. induction d as [|[k0 v0] d IH]; intros N I; [destruct I|]. inversion N as [|? ? N1 N2]; subst. simpl. destruct I as [I|I].
    - injection I as -> ->. rewrite String.eqb_refl. reflexivity.
    - destruct (String.eqb_spec k k0) as [->|Q]; [|auto]. destruct N1. apply in_map_iff. exists (k0, v). auto.
  Qed.
  Lemma made_fresh : forall b (h h' : cores w) i ps r acts r', NoDup (dkeys ps) -> make_actors b (lookup h i) ps r = (Ok acts, r') -> (forall x, lookup h' i x = lookup h i x) ->
    (forall k, dget acts k = None <-> dget ps k = None) /\ forall k p, dget ps k = Some p -> exists a, dget acts k = Some a /\ fresh b h' i p a.
  Proof.
    intros b h h' i ps r acts r' N M L. pose proof (ProofSimActors.make_actors_keys _ _ _ _ _ _ M) as K.
    assert (X : forall k, dget acts k = None <-> dget ps k = None).
    { intros k. assert (Y : In k (dkeys acts) <-> In k (dkeys ps)) by (rewrite K; tauto).
      split; intros Z.
      - destruct (dget ps k) eqn:D; auto. assert (I : In k (dkeys acts)) by (apply Y; apply dget_In; eauto). apply dget_In in I. destruct I as [v I]. congruence.
      - destruct (dget acts k) eqn:D; auto. assert (I : In k (dkeys ps)) by (apply Y; apply dget_In; eauto). apply dget_In in I. destruct I as [v I]. congruence. }
    split; [exact X|]. intros k p P. destruct (dget acts k) as [a|] eqn:A; [|apply X in A; congruence]. exists a. split; auto.
    apply dget_in_pair in A. destruct (make_actors_get _ _ _ _ _ _ M k a A) as (U & p' & a0 & I & C & E).
    assert (p' = p) by (apply (nodup_get _ _ _ _ N) in I; congruence). subst p'. split; [|eauto].
    eapply up_to_date_vis; [|exact U]. intros x. symmetry. apply L.
  Qed.
End Put.

(** Local actors put on a core: all are replaced by fresh ones, one per blueprint of the group; nothing
    else changes. If an exception is raised, nothing at all has changed. *)
Theorem C113_local : forall w (sc : simcore w) g h i c r o h' r', history sc h -> at_ h i c -> NoDup (dkeys (g_local g)) ->
  put_local_actors sc g i h r = (o, h', r') ->
  only_actors h h' /\ (forall e, o = Err e -> h' = h)
  /\ (o = Ok tt ->
       (forall k, actor_at h' (PLocal i k) = None <-> dget (g_local g) k = None)
       /\ (forall k p, dget (g_local g) k = Some p -> exists a, actor_at h' (PLocal i k) = Some a /\ fresh (sc_bn sc) h' i p a)
       /\ forall q, (forall k, q <> PLocal i k) -> actor_at h' q = actor_at h q).
Proof.
  intros w sc g h i c r o h' r' H C N E. pose proof (history_forest _ _ H) as F. unfold at_ in C. unfold put_local_actors in E.
  destruct (make_actors _ _ _ r) as [[acts|x] r1] eqn:M; injection E as <- <- <-.
  - assert (O : only_actors h (kupd h i (fun c => set_actors c acts))) by (apply kupd_only; auto).
    split; [exact O|]. split; [discriminate|]. intros _. destruct O as (_ & _ & L & _).
    destruct (made_fresh _ _ (kupd h i (fun c => set_actors c acts)) _ _ _ _ _ N M (L i)) as [X1 X2].
    assert (A : forall k, actor_at (kupd h i (fun c => set_actors c acts)) (PLocal i k) = dget acts k).
    { intros k. cbn [actor_at]. rewrite kupd_nth, Nat.eqb_refl, C. reflexivity. }
    split; [intros k; rewrite A; apply X1|]. split; [intros k p P; rewrite A; apply X2; exact P|].
    intros [j k|j gn k] Q; cbn [actor_at]; rewrite kupd_nth; destruct (Nat.eqb_spec j i) as [->|J]; auto; [destruct (Q k); reflexivity|]. rewrite C. reflexivity.
  - split; [apply only_refl|]. split; [reflexivity|discriminate].
Qed.
Print Assumptions C113_local.

(** Shared actors put on the parent of a core: those of the group are replaced by fresh ones, up to date
    with what the parent sees; those of other groups and everything else stay. A root raises AttributeError. *)
Theorem C113_shared : forall w (sc : simcore w) g h i c r o h' r', history sc h -> at_ h i c -> NoDup (dkeys (g_shared g)) ->
  put_shared_actors sc g i h r = (o, h', r') ->
  only_actors h h' /\ (forall e, o = Err e -> h' = h)
  /\ (k_parent c = None -> o = Err AttributeError /\ r' = r)
  /\ (o = Ok tt -> exists p, k_parent c = Some p
       /\ (forall k, actor_at h' (PShared p (g_name g) k) = None <-> dget (g_shared g) k = None)
       /\ (forall k b, dget (g_shared g) k = Some b -> exists a, actor_at h' (PShared p (g_name g) k) = Some a /\ fresh (sc_bn sc) h' p b a)
       /\ forall q, (forall k, q <> PShared p (g_name g) k) -> actor_at h' q = actor_at h q).
Proof.
  intros w sc g h i c r o h' r' H C N E. pose proof (history_forest _ _ H) as F. unfold put_shared_actors in E. pose proof C as C0. unfold at_ in C. rewrite C in E.
  destruct (k_parent c) as [p|] eqn:P; [|injection E as <- <- <-; split; [apply only_refl|]; splits; auto; discriminate].
  assert (Pc : exists pc, nth_error h p = Some pc).
  { assert (p < length h). { pose proof (fo_parent _ F _ _ _ C0 P) as Q. assert (i < length h) by (apply nth_error_Some; congruence). lia. }
    destruct (nth_error h p) eqn:Q; [eauto|]. apply nth_error_None in Q. lia. }
  destruct Pc as [pc Pc]. unfold put_shared_on_parent in E. destruct (make_actors _ _ _ r) as [[acts|x] r1] eqn:M; injection E as <- <- <-.
  - set (f := fun pc0 : core w => _). assert (O : only_actors h (kupd h p f)) by (apply kupd_only; auto).
    split; [exact O|]. split; [discriminate|]. split; [discriminate|]. intros _. exists p. split; auto. destruct O as (_ & _ & L & _).
    destruct (made_fresh _ _ (kupd h p f) _ _ _ _ _ N M (L p)) as [X1 X2].
    assert (A : forall k, actor_at (kupd h p f) (PShared p (g_name g) k) = dget acts k).
    { intros k. cbn [actor_at]. rewrite kupd_nth, Nat.eqb_refl, Pc. cbn [option_map]. unfold f. cbn [k_chactors set_chactors]. rewrite dget_dset, String.eqb_refl. reflexivity. }
    split; [intros k; rewrite A; apply X1|]. split; [intros k b B; rewrite A; apply X2; exact B|].
    intros [j k|j gn k] Q; cbn [actor_at]; rewrite kupd_nth; destruct (Nat.eqb_spec j p) as [->|J]; auto; rewrite Pc; cbn [option_map]; [reflexivity|].
    unfold f. cbn [k_chactors set_chactors]. rewrite dget_dset. destruct (String.eqb_spec gn (g_name g)) as [->|G]; [destruct (Q k); reflexivity|].
    destruct (k_chactors pc); reflexivity.
  - split; [apply only_refl|]. splits; auto; discriminate.
Qed.
Print Assumptions C113_shared.

(** get_actors puts the actors exactly if there are none yet, and otherwise changes nothing. *)
Theorem C113_get : forall w (sc : simcore w) h i c g s r, history sc h -> at_ h i c -> dget (sc_groups sc) (k_group c) = Some g -> g_name g = k_group c ->
  let o := get_actors sc h i s r in
  let there := match s, k_parent c with
               | true, Some p => exists pc d e, at_ h p pc /\ k_chactors pc = Some d /\ dget d (k_group c) = Some e
               | _, _ => k_actors c <> None
               end in
  let put := match s, k_parent c with true, Some _ => put_shared_actors sc g i h r | _, _ => put_local_actors sc g i h r end in
  (there -> snd (fst o) = h /\ snd o = r /\ exists ps, fst (fst o) = Ok ps)
  /\ (~ there -> snd (fst o) = snd (fst put) /\ snd o = snd put /\ forall e, fst (fst o) = Err e <-> fst (fst put) = Err e).
Proof.
  intros w sc h i c g s r H C G Gn. cbv zeta. pose proof (history_forest _ _ H) as F. pose proof C as C0. unfold at_ in C.
  unfold get_actors, group_of, put_shared_actors, put_shared_on_parent, put_local_actors. rewrite C, G, Gn.
  assert (Local : (k_actors c <> None -> let o := match k_actors c with
        | Some d => (Ok (map (PLocal i) (dkeys d)), h, r)
        | None => match make_actors (sc_bn sc) (lookup h i) (g_local g) r with
                  | (Err e, r') => (Err e, h, r') | (Ok acts, r') => (Ok (map (PLocal i) (dkeys acts)), kupd h i (fun c => set_actors c acts), r') end end in
      snd (fst o) = h /\ snd o = r /\ exists ps, fst (fst o) = Ok ps)
    /\ (~ k_actors c <> None -> let o := match k_actors c with
        | Some d => (Ok (map (PLocal i) (dkeys d)), h, r)
        | None => match make_actors (sc_bn sc) (lookup h i) (g_local g) r with
                  | (Err e, r') => (Err e, h, r') | (Ok acts, r') => (Ok (map (PLocal i) (dkeys acts)), kupd h i (fun c => set_actors c acts), r') end end in
      let put := match make_actors (sc_bn sc) (lookup h i) (g_local g) r with
                 | (Err e, r') => (Err e, h, r') | (Ok acts, r') => (Ok tt, kupd h i (fun c => set_actors c acts), r') end in
      snd (fst o) = snd (fst put) /\ snd o = snd put /\ forall e, fst (fst o) = Err e <-> fst (fst put) = Err e)).
  { cbv zeta. destruct (k_actors c) as [d|]; split; intros Q.
    - simpl. splits; eauto.
    - destruct Q. discriminate.
    - congruence.
    - destruct (make_actors _ _ _ r) as [[acts|e] r1]; simpl; (split; [reflexivity|split; [reflexivity|intros e0; split; intros K; congruence]]). }
  destruct s; [|exact Local]. destruct (k_parent c) as [p|] eqn:P; [|exact Local].
  assert (Pc : exists pc, nth_error h p = Some pc).
  { assert (p < length h). { pose proof (fo_parent _ F _ _ _ C0 P) as Q. assert (i < length h) by (apply nth_error_Some; congruence). lia. }
    destruct (nth_error h p) eqn:Q; [eauto|]. apply nth_error_None in Q. lia. }
  destruct Pc as [pc Pc]. rewrite Pc. split.
  - intros (pc' & d & e & Q1 & Q2 & Q3). unfold at_ in Q1. rewrite Pc in Q1. injection Q1 as <-. rewrite Q2, Q3. simpl. splits; eauto.
  - intros T. assert (Nn : match k_chactors pc with Some d => dget d (k_group c) | None => None end = None).
    { destruct (k_chactors pc) as [d|] eqn:D; auto. destruct (dget d (k_group c)) as [e|] eqn:E; auto. destruct T. exists pc, d, e. auto. }
    rewrite Nn. clear Local. destruct (make_actors (sc_bn sc) (lookup h p) (g_shared g) r) as [[acts|e] r1]; simpl; (split; [reflexivity|split; [reflexivity|intros e0; split; intros K; congruence]]).
Qed.
Print Assumptions C113_get.

(** Moving to another simulation core: a core moves exactly if that has its group. Its descendants never move; with
    children, the core has moved and TypeError is raised. *)
Theorem C113_reset : forall w (scs : list (simcore w)) h own i s c sc o own', at_ h i c -> nth_error scs s = Some sc -> length own = length h ->
  reset_sc scs h own i s = (o, own') ->
  (forall j, j <> i -> nth_error own' j = nth_error own j)
  /\ (In (k_group c) (dkeys (sc_groups sc)) -> nth_error own' i = Some s)
  /\ (~ In (k_group c) (dkeys (sc_groups sc)) -> o = Err KeyError /\ own' = own)
  /\ (o = Ok tt <-> In (k_group c) (dkeys (sc_groups sc)) /\ forall k j, dget (k_children c) k = Some j -> False)
  /\ (o = Err TypeError <-> In (k_group c) (dkeys (sc_groups sc)) /\ exists k j, dget (k_children c) k = Some j).
Proof.
  intros w scs h own i s c sc o own' C S L E. unfold at_ in C. unfold reset_sc in E. rewrite C, S in E.
  assert (G : In (k_group c) (dkeys (sc_groups sc)) <-> dget (sc_groups sc) (k_group c) <> None).
  { rewrite <- dget_In. split; [intros [v V]; congruence|]. destruct (dget (sc_groups sc) (k_group c)); [eauto|congruence]. }
  assert (Rep : forall l i' j, nth_error (replace l i' s) j = if Nat.eqb j i' then option_map (fun _ => s) (nth_error l j) else nth_error l j).
  { clear. induction l as [|x l IH]; intros [|i'] [|j]; simpl; auto. destruct (Nat.eqb j i'); reflexivity. }
  assert (Own : exists x, nth_error own i = Some x).
  { assert (i < length h) by (apply nth_error_Some; congruence). destruct (nth_error own i) eqn:Q; [eauto|]. apply nth_error_None in Q. lia. }
  destruct Own as [x0 Own]. destruct (dget (sc_groups sc) (k_group c)) as [g|] eqn:D; injection E as <- <-.
  - assert (Y : In (k_group c) (dkeys (sc_groups sc))) by (apply G; discriminate). split; [|split; [|split; [|split]]].
    + intros j J. rewrite Rep. destruct (Nat.eqb_spec j i); [congruence|reflexivity].
    + intros _. rewrite Rep, Nat.eqb_refl, Own. reflexivity.
    + tauto.
    + destruct (k_children c) as [|[k j] l].
      * split; [|reflexivity]. intros _. split; auto. intros k j K. discriminate K.
      * split; [discriminate|]. intros [_ K]. destruct (K k j). simpl. rewrite String.eqb_refl. reflexivity.
    + destruct (k_children c) as [|[k j] l].
      * split; [discriminate|]. intros (_ & k & j & K). discriminate K.
      * split; [|reflexivity]. intros _. split; auto. exists k, j. simpl. rewrite String.eqb_refl. reflexivity.
  - assert (Y : ~ In (k_group c) (dkeys (sc_groups sc))) by (rewrite G; congruence). split; [auto|]. split; [tauto|]. split; [auto|]. split; (split; [discriminate|tauto]).
Qed.
Print Assumptions C113_reset.

(** ** Examples *)

(** the actors of core 1, and the shared ones of its group on core 0 *)
Definition exind : group := mkGroup "ind" [] ["a"; "s"; "k"] ["x"; "y"] [("z", mkBp "z" Frozen ["y"; "a"] [])] [("z", mkBp "z" Single ["y"; "a"] [])].
Example C113_example_local : exists c h', at_ exh3 1 c /\ history exsc exh3 /\ NoDup (dkeys (g_local exind))
  /\ put_local_actors exsc exind 1 exh3 9 = (Ok tt, h', 9) /\ option_map (@is_frozen exw) (actor_at h' (PLocal 1 "z")) = Some true /\ actor_at h' (PShared 0 "ind" "z") = None.
Proof.
  destruct (nth_error exh3 1) as [c|] eqn:C; [|vm_compute in C; discriminate C]. exists c, (snd (fst (put_local_actors exsc exind 1 exh3 9))).
  splits; [exact C|exact exh3_history|nodup|vm_compute; reflexivity|vm_compute; reflexivity|vm_compute; reflexivity].
Qed.
Example C113_example_shared : exists c h', at_ exh3 1 c /\ k_parent c = Some 0 /\ dget (sc_groups exsc) (k_group c) = Some exind /\ NoDup (dkeys (g_shared exind))
  /\ put_shared_actors exsc exind 1 exh3 9 = (Ok tt, h', 9) /\ option_map (@is_frozen exw) (actor_at h' (PShared 0 "ind" "z")) = Some false
  /\ put_shared_actors exsc exind 0 exh3 9 = (Err AttributeError, exh3, 9).
Proof.
  destruct (nth_error exh3 1) as [c|] eqn:C; [|vm_compute in C; discriminate C]. exists c, (snd (fst (put_shared_actors exsc exind 1 exh3 9))).
  assert (P : option_map (fun c => (k_parent c, k_group c)) (nth_error exh3 1) = Some (Some 0, "ind")) by (vm_compute; reflexivity).
  rewrite C in P. cbn [option_map] in P. injection P as P1 P2.
  splits; [exact C|exact P1|rewrite P2; reflexivity|nodup|vm_compute; reflexivity|vm_compute; reflexivity|vm_compute; reflexivity].
Qed.
(** a family of two: the root moves, its child does not, and TypeError is raised; the child alone can be moved *)
Example C113_example_reset : length exh3 = 2 /\ reset_sc [exsc; exsc] exh3 [0; 0] 0 1 = (Err TypeError, [1; 0]) /\ reset_sc [exsc; exsc] exh3 [0; 0] 1 1 = (Ok tt, [0; 1]).
Proof. splits; vm_compute; reflexivity. Qed.
