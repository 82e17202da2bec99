(** * Properties C67 and C68, further: the value of DeepLogPrior, and which actors cores share *)

Require Import Coq.ZArith.ZArith Coq.micromega.Lia.
Require Import Verif.Base Verif.World Verif.ModelGraph Verif.ModelExpr Verif.ModelLoci Verif.ModelBN Verif.ModelSample Verif.ModelSim
        Verif.Spec Verif.SpecBN Verif.SpecExpr Verif.SpecSample Verif.SpecSim
        Verif.ProofBase Verif.ProofGraph Verif.ProofExpr Verif.ProofBN Verif.ProofBNHist Verif.ProofSample
        Verif.ProofSim Verif.ProofSimResp Verif.ProofSimImp Verif.ProofSimActors Verif.ProofSimGen Verif.ExWorld Verif.PropsBN Verif.PropsSim.

(** ** C67 *)

(** the sum of LogPrior over a core and everything below it, child by child *)
Inductive prior_below {w : world} (h : cores w) : nat -> LP w -> Prop :=
| pb_core : forall i c p qs, at_ h i c -> k_prior c = Some p -> priors_below h (k_children c) qs ->
    prior_below h i (lp_add w p (fold_left (lp_add w) qs (lp_zero w)))
with priors_below {w : world} (h : cores w) : dict nat -> list (LP w) -> Prop :=
| pbs_nil : priors_below h [] []
| pbs_cons : forall k j l q qs, prior_below h j q -> priors_below h l qs -> priors_below h ((k, j) :: l) (q :: qs).

Lemma deep_prior_value : forall w f (h : cores w) i p, deep_prior f h i = Ok p -> prior_below h i p.
Proof.
  intros w f. induction f as [|f IH]; intros h i p H; cbn [deep_prior] in H; [discriminate H|].
  destruct (nth_error h i) as [c|] eqn:Hc; [|discriminate H]. destruct (k_prior c) as [q|] eqn:Q; [|discriminate H].
  apply bind_ok in H. destruct H as (ps & M & H). injection H as <-. apply (pb_core h i c q ps); auto.
  apply mapM_ok in M. clear - M IH. induction M as [|[k j] y l ys H M I]; constructor; auto.
Qed.

Lemma deep_prior_complete : forall w f (h : cores w) i p, forest h -> length h <= f + i -> prior_below h i p -> deep_prior f h i = Ok p.
Proof.
  intros w f. induction f as [|f IH]; intros h i p F L H; inversion H as [? c q qs Hc Q B]; subst; [apply at_length in Hc; lia|].
  cbn [deep_prior]. pose proof Hc as Hc'. unfold at_ in Hc. rewrite Hc, Q.
  assert (M : mapM (fun kj => deep_prior f h (snd kj)) (k_children c) = Ok qs); [|rewrite M; reflexivity].
  assert (Ch : forall k j, In (k, j) (k_children c) -> length h <= f + j).
  { intros k j Hk. apply in_pair_dget in Hk; [|apply (fo_keys _ F i); auto].
    destruct (fo_child _ F _ _ _ _ Hc' Hk) as (cj & A & P & _). pose proof (fo_parent _ F _ _ _ A P). lia. }
  clear - B IH F Ch. induction B as [|k j l q qs H B I]; [reflexivity|]. cbn [mapM snd].
  rewrite (IH h j q F (Ch k j (or_introl eq_refl)) H). cbn [bind]. rewrite I; [reflexivity|]. intros k' j' Hk. apply (Ch k' j'). right. auto.
Qed.

(** DeepLogPrior is LogPrior plus the sum of DeepLogPrior over the children. *)
Theorem C67_deep_value : forall w (sc : simcore w) h i p, history sc h ->
  (deep_prior (S (length h)) h i = Ok p <-> prior_below h i p).
Proof.
  intros w sc h i p H. split; [apply deep_prior_value|]. intros B. apply deep_prior_complete; auto; [eapply history_forest; eauto|lia].
Qed.
Print Assumptions C67_deep_value.

Example C67_example_value : exists h, history exsc h /\ prior_below h 0 (LZ (-8)) /\ prior_below h 1 (LZ (-8)).
Proof.
  destruct (impulse_core exsc [("x", PZ 9)] 0 exh3 0) as [[o h] r] eqn:E.
  assert (Eh : h = snd (fst (impulse_core exsc [("x", PZ 9)] 0 exh3 0))) by (rewrite E; auto).
  exists h. splits.
  - eapply hi_impulse; [exact exh3_history|exact E].
  - apply (deep_prior_value exw 3). subst h. vm_compute. reflexivity.
  - apply (deep_prior_value exw 3). subst h. vm_compute. reflexivity.
Qed.

(** ** C68 *)

(** The actors a call of get_actors returns exist; they belong to the parent if shared ones are
    asked for and there is a parent, to the core itself otherwise; asking again, or (for shared
    ones) asking any other core of the same parent and group, gives the very same actors and
    changes nothing. *)
Theorem C68_places : forall w (sc : simcore w) h i c s r ps h' r', at_ h i c ->
  get_actors sc h i s r = (Ok ps, h', r') ->
  (forall q, In q ps -> exists a, actor_at h' q = Some a)
  /\ (forall q, In q ps -> place_owner q = match s, k_parent c with true, Some p => p | _, _ => i end)
  /\ (forall r2, get_actors sc h' i s r2 = (Ok ps, h', r2))
  /\ (forall p j d r2, s = true -> k_parent c = Some p -> at_ h' j d -> k_parent d = Some p -> k_group d = k_group c ->
        get_actors sc h' j true r2 = (Ok ps, h', r2)).
Proof.
  intros w sc h i c s r ps h' r' Hc H. unfold at_ in Hc.
  assert (D : forall (d : dict (actor w)) k, In k (dkeys d) -> exists a, dget d k = Some a).
  { intros d k Q. apply dget_In in Q. destruct Q as [a Q]. eauto. }
  unfold get_actors, group_of in H. rewrite Hc in H. destruct (dget (sc_groups sc) (k_group c)) as [g|] eqn:G; [|discriminate H].
  destruct (if s then k_parent c else None) as [p|] eqn:P.
  - destruct s; [|discriminate P]. rewrite P. destruct (nth_error h p) as [pc|] eqn:Pc; [|discriminate H].
    assert (R : forall e, (exists pc', nth_error h' p = Some pc' /\ match k_chactors pc' with Some d => dget d (k_group c) | None => None end = Some e) ->
      forall j d r2, nth_error h' j = Some d -> k_parent d = Some p -> k_group d = k_group c ->
      get_actors sc h' j true r2 = (Ok (map (PShared p (k_group c)) (dkeys e)), h', r2)).
    { intros e (pc' & E1 & E2) j d r2 Hd Pd Gd. unfold get_actors, group_of. rewrite Hd, Gd, G, Pd, E1, E2. reflexivity. }
    destruct (match k_chactors pc with Some d => dget d (k_group c) | None => None end) as [e|] eqn:E.
    + injection H as <- <- <-. specialize (R e (ex_intro _ pc (conj Pc E))). splits.
      * intros q Q. apply in_map_iff in Q. destruct Q as (k & <- & Q). destruct (D e k Q) as [a A]. exists a. cbn [actor_at]. rewrite Pc.
        destruct (k_chactors pc) as [d|]; [|discriminate E]. rewrite E. exact A.
      * intros q Q. apply in_map_iff in Q. destruct Q as (k & <- & Q). reflexivity.
      * intros r2. apply (R i c); auto.
      * intros p' j d r2 _ K1 K2 K3 K4. injection K1 as <-. apply (R j d); auto.
    + destruct (make_actors _ _ _ r) as [[acts|e] r1]; [|discriminate H]. injection H as <- <- <-.
      set (f := fun pc0 : core w => _) in *. set (h' := kupd h p f) in *.
      assert (Pn : nth_error h' p = Some (f pc)) by (unfold h'; rewrite kupd_nth, Nat.eqb_refl, Pc; reflexivity).
      assert (Ef : match k_chactors (f pc) with Some d => dget d (k_group c) | None => None end = Some acts).
      { unfold f. cbn [k_chactors set_chactors]. rewrite dget_dset, String.eqb_refl. reflexivity. }
      specialize (R acts (ex_intro _ (f pc) (conj Pn Ef))). splits.
      * intros q Q. apply in_map_iff in Q. destruct Q as (k & <- & Q). destruct (D acts k Q) as [a A]. exists a. cbn [actor_at]. rewrite Pn.
        destruct (k_chactors (f pc)) as [d|]; [|discriminate Ef]. rewrite Ef. exact A.
      * intros q Q. apply in_map_iff in Q. destruct Q as (k & <- & Q). reflexivity.
      * intros r2. assert (Hi : exists ci, nth_error h' i = Some ci /\ k_parent ci = k_parent c /\ k_group ci = k_group c).
        { unfold h'. rewrite kupd_nth. destruct (Nat.eqb_spec i p) as [->|N]; rewrite Hc; [exists (f c)|exists c]; splits; auto. }
        destruct Hi as (ci & J1 & J2 & J3). apply (R i ci); auto. congruence.
      * intros p' j d r2 _ K1 K2 K3 K4. injection K1 as <-. apply (R j d); auto.
  - assert (O : match s, k_parent c with true, Some p => p | _, _ => i end = i) by (destruct s, (k_parent c); auto; discriminate P).
    rewrite O. assert (Np : s = true -> forall p, k_parent c <> Some p) by (intros -> p K; congruence).
    destruct (k_actors c) as [d|] eqn:A.
    + injection H as <- <- <-. splits.
      * intros q Q. apply in_map_iff in Q. destruct Q as (k & <- & Q). destruct (D d k Q) as [a Aa]. exists a. cbn [actor_at]. rewrite Hc, A. exact Aa.
      * intros q Q. apply in_map_iff in Q. destruct Q as (k & <- & Q). reflexivity.
      * intros r2. unfold get_actors, group_of. rewrite Hc, G, P, A. reflexivity.
      * intros p j d' r2 K K1. destruct (Np K p K1).
    + destruct (make_actors _ _ _ r) as [[acts|e] r1]; [|discriminate H]. injection H as <- <- <-.
      assert (Pn : nth_error (kupd h i (fun c => set_actors c acts)) i = Some (set_actors c acts)) by (rewrite kupd_nth, Nat.eqb_refl, Hc; reflexivity).
      splits.
      * intros q Q. apply in_map_iff in Q. destruct Q as (k & <- & Q). destruct (D acts k Q) as [a Aa]. exists a. cbn [actor_at]. rewrite Pn. exact Aa.
      * intros q Q. apply in_map_iff in Q. destruct Q as (k & <- & Q). reflexivity.
      * intros r2. unfold get_actors, group_of. rewrite Pn. cbn [k_group set_actors k_parent k_actors]. rewrite G, P. reflexivity.
      * intros p j d' r2 K K1. destruct (Np K p K1).
Qed.
Print Assumptions C68_places.

(** two individuals of one parent: the second gets the actors made for the first *)
Example C68_example_places : exists ps, fst (fst (get_actors exsc6 exh6 1 true 4)) = Ok ps /\ In (PShared 0 "ind" "x") ps
  /\ get_actors exsc6 exh6 2 true 5 = (Ok ps, exh6, 5).
Proof.
  destruct (get_actors exsc6 exh6 1 true 4) as [[o h] r] eqn:E.
  assert (Eo : o = Ok [PShared 0 "ind" "x"]) by (change o with (fst (fst (o, h, r))); rewrite <- E; vm_compute; reflexivity).
  assert (Hc : exists c, at_ exh6 1 c /\ k_parent c = Some 0 /\ k_group c = "ind") by (eexists; unfold at_; splits; vm_compute; reflexivity).
  destruct Hc as (c & C1 & C2 & C3).
  exists [PShared 0 "ind" "x"]. cbn [fst]. subst o. split; [reflexivity|]. split; [left; reflexivity|].
  assert (Eh : h = exh6).
  { unfold get_actors, group_of in E. unfold at_ in C1. rewrite C1, C2 in E. destruct (dget (sc_groups exsc6) (k_group c)) as [g|]; [|discriminate E].
    destruct (nth_error exh6 0) as [pc|] eqn:Pc; [|discriminate E].
    assert (K : match k_chactors pc with Some d => dget d (k_group c) | None => None end <> None).
    { rewrite C3. assert (K : match option_map (@k_chactors exw) (nth_error exh6 0) with Some (Some d) => match dget d "ind" with Some _ => true | None => false end | _ => false end = true)
        by (vm_compute; reflexivity).
      rewrite Pc in K. cbn [option_map] in K. destruct (k_chactors pc) as [d|]; [|discriminate K]. destruct (dget d "ind"); discriminate || discriminate K. }
    destruct (match k_chactors pc with Some d => dget d (k_group c) | None => None end) as [e|]; [|congruence]. congruence. }
  subst h. destruct (C68_places exw exsc6 exh6 1 c true 4 _ _ _ C1 E) as (_ & _ & _ & S).
  assert (Hd : exists d, at_ exh6 2 d /\ k_parent d = Some 0 /\ k_group d = "ind") by (eexists; unfold at_; splits; vm_compute; reflexivity).
  destruct Hd as (d & D1 & D2 & D3). apply (S 0 2 d); auto. congruence.
Qed.
