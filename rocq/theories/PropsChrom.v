(** * Properties C37-C40: chromosomes (bayesnet/chromosome.py) *)

Require Import Verif.Base Verif.World Verif.ModelGraph Verif.ModelExpr Verif.ModelLoci Verif.ModelBN Verif.ModelSample
        Verif.ModelAlias Verif.Spec Verif.SpecBN Verif.SpecExpr Verif.SpecSample Verif.SpecChrom
        Verif.ProofBase Verif.ProofGraph Verif.ProofExpr Verif.ProofBN Verif.ProofBNViews Verif.ProofBNHist
        Verif.ProofSample Verif.ProofChrom Verif.ExWorld Verif.PropsBN.
Require Import Coq.ZArith.ZArith Coq.micromega.Lia.

Definition exch : chrom exw := mkChrom (w:=exw)
  [("a", PZ 1); ("s", PZ 2); ("k", PZ 2); ("x", PZ 6); ("y", PZ 8); ("z", PZ 256)] (LZ (-5)).

(** comparing the outcome of an intervention without its types *)
Definition outcome (o : res unit * chrom exw * nat) : option exn * list (name * pv) * lp * nat :=
  match o with (x, c, r) => (match x with Ok _ => None | Err e => Some e end, ch_locus c, ch_lp c, r) end.
Lemma outcome_ok : forall o l p r, outcome o = (None, l, p, r) -> o = (Ok tt, mkChrom (w:=exw) l p, r).
Proof. intros [[[[]|e] [l' p']] r'] l p r H; simpl in H; inversion H; reflexivity. Qed.

(** ** C37 *)

Theorem C37_impulse : forall w (b : bn w) c new r c' r', built b -> NoDup (dkeys new) ->
  impulse c new b r = (Ok tt, c', r') ->
  dkeys (ch_locus c') = dkeys (ch_locus c)
  /\ (forall k v, In k (dkeys (ch_locus c)) -> dget new k = Some v -> w_is_none w v = false -> dget (ch_locus c') k = Some v)
  /\ (forall x, (forall k, In k (dkeys (ch_locus c)) -> In k (dkeys new) -> x <> k /\ ~ path (dag b) k x) ->
        dget (ch_locus c') x = dget (ch_locus c) x).
Proof.
  intros w b c new r c' r' B Hn H. destruct (built_coherent b B) as [C F].
  destruct (impulse_values b c new r c' r' C F Hn H) as [V1 [V2 [V3 V4]]]. splits; auto.
  - intros k v H1 H2 H3. apply V2. split; auto.
  - intros x Hx. apply V3.
    + intros [H1 H2]. destruct (Hx x H1 H2). auto.
    + intros [H1 [H2 [[H3 [v [H4 H5]]]|[k [[H3 H4] H5]]]]].
      * destruct (Hx x); auto. apply dget_In. eauto.
      * destruct (Hx k); auto.
Qed.
Print Assumptions C37_impulse.

(** What is recomputed, exactly: re-drawn entries and descendants of any intervened entry that
    are not assigned, once each, parents first, one draw after the other. *)
Theorem C37_recomputed : forall w (b : bn w) c new r c' r', built b -> NoDup (dkeys new) ->
  impulse c new b r = (Ok tt, c', r') ->
  exists ns d, topo (dag b) ns (affected b (dkeys (ch_locus c)) new) /\ rerun b ns d r (ch_locus c') r'
    /\ dkeys d = dkeys (ch_locus c)
    /\ (forall k v, assigned (dkeys (ch_locus c)) new k v -> dget d k = Some v)
    /\ (forall k, (forall v, ~ assigned (dkeys (ch_locus c)) new k v) -> dget d k = dget (ch_locus c) k).
Proof.
  intros w b c new r c' r' B Hn H. destruct (built_coherent b B) as [C F].
  destruct (impulse_success b c new r c' r' C F Hn H) as [_ [_ [ns [T [R _]]]]]. exists ns, (with_assigned c new). splits; auto.
  - apply with_assigned_keys.
  - intros k v Hk. rewrite with_assigned_get; auto. rewrite (proj2 (imp_set_get c new k v Hn) Hk). auto.
  - intros k Hk. rewrite with_assigned_get; auto. destruct (dget (imp_set c new) k) as [v|] eqn:E; auto.
    apply imp_set_get in E; auto. destruct (Hk v E).
Qed.
Print Assumptions C37_recomputed.

(** Outcomes that leave everything as it was. *)
Theorem C37_nothing_to_do : forall w (b : bn w) c new r,
  (forall k, In k (dkeys (ch_locus c)) -> ~ In k (dkeys new)) -> impulse c new b r = (Err TypeError, c, r).
Proof. intros w b c new r H. apply impulse_none. intros k [H1 H2]. apply (H k); auto. Qed.
Print Assumptions C37_nothing_to_do.

Theorem C37_not_in_network : forall w (b : bn w) c new r k, built b ->
  In k (dkeys (ch_locus c)) -> In k (dkeys new) -> ~ node b k -> impulse c new b r = (Err NetworkXError, c, r).
Proof. intros w b c new r k B H1 H2 H3. destruct (built_coherent b B). eapply impulse_unknown; eauto. split; auto. Qed.
Print Assumptions C37_not_in_network.

(** Every other failure is that of the definition of an affected node; entries that were neither
    intervened nor affected are still untouched. *)
Theorem C37_failure : forall w (b : bn w) c new r e c' r', built b -> NoDup (dkeys new) ->
  (exists k, hit (dkeys (ch_locus c)) new k) -> (forall k, hit (dkeys (ch_locus c)) new k -> node b k) ->
  impulse c new b r = (Err e, c', r') ->
  (exists n l, affected b (dkeys (ch_locus c)) new n /\ holds b n l /\ render l (dget (ch_locus c')) r' = Err e)
  /\ dkeys (ch_locus c') = dkeys (ch_locus c)
  /\ (forall k v, assigned (dkeys (ch_locus c)) new k v -> dget (ch_locus c') k = Some v)
  /\ (forall k, ~ hit (dkeys (ch_locus c)) new k -> ~ affected b (dkeys (ch_locus c)) new k ->
        dget (ch_locus c') k = dget (ch_locus c) k).
Proof.
  intros w b c new r e c' r' B Hn K1 K2 H. destruct (built_coherent b B) as [C F].
  destruct (impulse_spec b c new r C F Hn K1 K2) as [ns [[[T1 T2] T3] R]]. rewrite H in R.
  destruct R as [ns1 [n [l [rest [-> [R1 [R2 [R3 R4]]]]]]]]. splits.
  - exists n, l. splits; auto. apply T2. apply in_app_iff. simpl. auto.
  - rewrite (rerun_keys _ _ _ _ _ _ R1), with_assigned_keys. auto.
  - intros k v Hk. rewrite (rerun_other _ _ _ _ _ _ R1).
    + rewrite with_assigned_get; auto. rewrite (proj2 (imp_set_get c new k v Hn) Hk). auto.
    + intros Hi. assert (A : affected b (dkeys (ch_locus c)) new k) by (apply T2; apply in_app_iff; auto).
      destruct A as [_ [A _]]. apply (A v Hk).
  - intros k Hk Ha. rewrite (rerun_other _ _ _ _ _ _ R1).
    + rewrite with_assigned_get; auto. destruct (dget (imp_set c new) k) as [v|] eqn:E; auto.
      apply imp_set_get in E; auto. exfalso. apply Hk. apply hit_cases. eauto.
    + intros Hi. apply Ha. apply T2. apply in_app_iff. auto.
Qed.
Print Assumptions C37_failure.

Theorem C37_plain : forall w (c : chrom w) new, NoDup (dkeys new) ->
  dkeys (ch_locus (impulse_plain c new)) = dkeys (ch_locus c)
  /\ forall k, dget (ch_locus (impulse_plain c new)) k =
       if dmem k (ch_locus c) then match dget new k with Some v => Some v | None => dget (ch_locus c) k end else None.
Proof.
  intros w c new Hn. unfold impulse_plain. fold (imp_all c new).
  assert (E : ch_locus (match imp_all c new with [] => mkChrom (dupdate (ch_locus c) (imp_all c new)) (ch_lp c)
     | _ => ch_reset (mkChrom (dupdate (ch_locus c) (imp_all c new)) (ch_lp c)) end) = dupdate (ch_locus c) (imp_all c new)).
  { destruct (imp_all c new); auto. }
  rewrite E. split.
  - rewrite dkeys_dupdate. apply union_incl. intros x Hx. apply imp_all_keys in Hx. apply Hx.
  - intros k. rewrite dget_dupdate_NoDup by (apply imp_all_NoDup; auto). rewrite imp_all_get.
    destruct (dmem k (ch_locus c)) eqn:Ed; auto. apply dget_None. apply dmem_false. auto.
Qed.
Print Assumptions C37_plain.

Example C37_example : built exnet /\ NoDup (dkeys [("k", PZ 3); ("ghost", PZ 0)])
  /\ impulse exch [("k", PZ 3); ("ghost", PZ 0)] exnet 9
     = (Ok tt, mkChrom (w:=exw) [("a", PZ 1); ("s", PZ 2); ("k", PZ 3); ("x", PZ 6); ("y", PZ 9); ("z", PZ 512)] LNan, 9)
  /\ impulse exch [("x", PNone); ("y", PZ 1)] exnet 9
     = (Ok tt, mkChrom (w:=exw) [("a", PZ 1); ("s", PZ 2); ("k", PZ 2); ("x", PZ 10); ("y", PZ 1); ("z", PZ 2)] LNan, 10).
Proof.
  split; [apply exnet_built|]. split; [repeat constructor; simpl; intuition discriminate|].
  split; apply outcome_ok; vm_compute; reflexivity.
Qed.

(** ** C38 *)

Theorem C38_consistency : forall w (b : bn w) c new r c' r', built b -> NoDup (dkeys new) ->
  impulse c new b r = (Ok tt, c', r') ->
  (forall n, In n (dkeys (ch_locus c)) -> consistent b (dget (ch_locus c)) n) ->
  forall n, In n (dkeys (ch_locus c)) ->
    (forall v, dget new n = Some v -> w_is_none w v = true) -> consistent b (dget (ch_locus c')) n.
Proof.
  intros w b c new r c' r' B Hn H Hc n Hi Ha. destruct (built_coherent b B) as [C F].
  eapply (impulse_consistent b c new r c' r'); eauto.
  intros v [_ [H1 H2]]. apply Ha in H1. congruence.
Qed.
Print Assumptions C38_consistency.

(** Node by node: what was consistent or is recomputed. *)
Theorem C38_each : forall w (b : bn w) c new r c' r' n, built b -> NoDup (dkeys new) ->
  impulse c new b r = (Ok tt, c', r') -> In n (dkeys (ch_locus c)) ->
  (forall v, dget new n = Some v -> w_is_none w v = true) ->
  consistent b (dget (ch_locus c)) n \/ affected b (dkeys (ch_locus c)) new n ->
  consistent b (dget (ch_locus c')) n.
Proof.
  intros w b c new r c' r' n B Hn H Hi Ha Hc. destruct (built_coherent b B) as [C F].
  eapply (impulse_consistent b c new r c' r'); eauto.
  intros v [_ [H1 H2]]. apply Ha in H1. congruence.
Qed.
Print Assumptions C38_each.

(** Recomputed distribution nodes are draws given the final values of their parents. *)
Theorem C38_redraws : forall w (b : bn w) c new r c' r' n f ps, built b -> NoDup (dkeys new) ->
  impulse c new b r = (Ok tt, c', r') -> affected b (dkeys (ch_locus c)) new n -> holds b n (LDist n f ps) ->
  exists rho D r1 v r2, (forall p, In p ps -> rho p = dget (ch_locus c') p)
    /\ get_distribution f rho = Ok D /\ w_sample w D r1 = (v, r2) /\ dget (ch_locus c') n = Some v.
Proof.
  intros w b c new r c' r' n f ps B Hn H Ha Hl. destruct (built_coherent b B) as [C F].
  destruct (impulse_values b c new r c' r' C F Hn H) as [_ [_ [_ V4]]].
  destruct (V4 n Ha) as [l [rho [r1 [v [r3 [K1 [K2 [K3 K4]]]]]]]]. rewrite (holds_fun _ _ _ _ K1 Hl) in *. simpl in *.
  destruct (get_distribution f rho) as [D|e] eqn:E; simpl in K3; [|discriminate].
  exists rho, D, r1, v, r3. inversion K3. auto.
Qed.
Print Assumptions C38_redraws.

(** Without a network consistency is lost. *)
Theorem C38_plain_refuted : exists (b : bn exw) c new n, built b
  /\ (forall m, In m (dkeys (ch_locus c)) -> consistent b (dget (ch_locus c)) m)
  /\ ~ In n (dkeys new) /\ ~ consistent b (dget (ch_locus (impulse_plain c new))) n.
Proof.
  exists exnet, exch, [("k", PZ 3)], "y". split; [apply exnet_built|]. splits.
  - intros m Hm e ps Hl. simpl in Hm.
    repeat (destruct Hm as [<-|Hm]; [destruct Hl as [a [Ha He]]; inversion Ha; subst a; inversion He; subst;
      (split; [intros p Hp; simpl in Hp; intuition (subst; discriminate)|eexists; split; reflexivity])|]).
    destruct Hm.
  - simpl. intuition discriminate.
  - intros K. assert (Hl : exists e ps, holds exnet "y" (LFunc "y" e ps)) by (eexists _, _, _; split; reflexivity).
    destruct Hl as [e [ps Hl]]. destruct (K e ps Hl) as [_ [v [K1 K2]]].
    destruct Hl as [a [Ha He]]. inversion Ha; subst a. inversion He; subst. vm_compute in K1, K2. congruence.
Qed.
Print Assumptions C38_plain_refuted.

Lemma exch_consistent : forall m, In m (dkeys (ch_locus exch)) -> consistent exnet (dget (ch_locus exch)) m.
Proof.
  intros m Hm e ps Hl. simpl in Hm.
  repeat (destruct Hm as [<-|Hm]; [destruct Hl as [a [Ha He]]; inversion Ha; subst a; inversion He; subst;
    (split; [intros p Hp; simpl in Hp; intuition (subst; discriminate)|eexists; split; reflexivity])|]).
  destruct Hm.
Qed.
Example C38_example : (forall m, In m (dkeys (ch_locus exch)) -> consistent exnet (dget (ch_locus exch)) m)
  /\ impulse exch [("k", PZ 3); ("ghost", PZ 0)] exnet 9
     = (Ok tt, mkChrom (w:=exw) [("a", PZ 1); ("s", PZ 2); ("k", PZ 3); ("x", PZ 6); ("y", PZ 9); ("z", PZ 512)] LNan, 9).
Proof. split; [apply exch_consistent|apply C37_example]. Qed.

(** ** C39 *)

Theorem C39_logprob_current : forall w (b : bn w) c, built b -> lp_isnan w (lp_nan w) = true ->
  history b c -> ch_evaluated c = true -> evaluate_nodes b (ch_locus c) = Ok (ch_lp c).
Proof.
  intros w b c B N H. destruct (built_coherent b B) as [C F].
  assert (Nan : forall d, ch_evaluated (mkChrom (w:=w) d (lp_nan w)) = true -> False).
  { intros d Hd. unfold ch_evaluated in Hd. simpl in Hd. rewrite N in Hd. discriminate. }
  induction H as [d|cond r c r' H|c k v H IH|c new r c' r' H IH Hn Hi|c new H IH|c s H IH Hs|c H IH|c H IH]; intros He.
  - destruct (Nan _ He).
  - unfold sample_chromosome in H. destruct (sample b cond r) as [[d|e] r1]; [|discriminate].
    destruct (evaluate_nodes b d) as [lp|e] eqn:E; inversion H; subst. auto.
  - destruct (Nan _ He).
  - destruct (impulse_success b c new r c' r' C F Hn Hi) as [_ [_ [ns [_ [_ L]]]]].
    unfold ch_evaluated in He. rewrite L, N in He. discriminate.
  - unfold impulse_plain in *. destruct (dfilter _ new) as [|p l].
    + simpl. apply IH. exact He.
    + destruct (Nan _ He).
  - simpl. auto.
  - auto.
  - auto.
Qed.
Print Assumptions C39_logprob_current.

(** After an intervention nothing is evaluated. *)
Theorem C39_impulse_resets : forall w (b : bn w) c new r c' r', built b -> NoDup (dkeys new) ->
  impulse c new b r = (Ok tt, c', r') -> ch_lp c' = lp_nan w.
Proof.
  intros w b c new r c' r' B Hn H. destruct (built_coherent b B) as [C F].
  destruct (impulse_success b c new r c' r' C F Hn H) as [_ [_ [ns [_ [_ L]]]]]. auto.
Qed.
Print Assumptions C39_impulse_resets.

(** A failing intervention may leave the values changed and LogProb as it was: sigma is set to a
    value for which no normal distribution exists. *)
Theorem C39_failure_refuted : exists (b : bn exw) c new r e c' r', built b /\ history b c /\ NoDup (dkeys new)
  /\ impulse c new b r = (Err e, c', r') /\ ch_evaluated c' = true /\ evaluate_nodes b (ch_locus c') <> Ok (ch_lp c').
Proof.
  exists exnet, exch, [("s", PZ 0)], 9, ValidationError,
    (mkChrom (w:=exw) [("a", PZ 1); ("s", PZ 0); ("k", PZ 2); ("x", PZ 6); ("y", PZ 8); ("z", PZ 256)] (LZ (-5))), 9.
  splits.
  - apply exnet_built.
  - apply (hi_evaluate exnet (mkChrom (w:=exw) (ch_locus exch) LNan)); [apply (hi_new exnet (ch_locus exch))|].
    vm_compute. reflexivity.
  - repeat constructor. intros [].
  - assert (E : outcome (impulse exch [("s", PZ 0)] exnet 9) = (Some ValidationError,
        [("a", PZ 1); ("s", PZ 0); ("k", PZ 2); ("x", PZ 6); ("y", PZ 8); ("z", PZ 256)], LZ (-5), 9)) by (vm_compute; reflexivity).
    destruct (impulse exch [("s", PZ 0)] exnet 9) as [[[[]|e] [l p]] r]; simpl in E; inversion E; reflexivity.
  - reflexivity.
  - assert (E : evaluate_nodes exnet [("a", PZ 1); ("s", PZ 0); ("k", PZ 2); ("x", PZ 6); ("y", PZ 8); ("z", PZ 256)] = Ok LNinf)
      by (vm_compute; reflexivity).
    simpl. rewrite E. discriminate.
Qed.
Print Assumptions C39_failure_refuted.

Example C39_example : built exnet /\ lp_isnan exw (lp_nan exw) = true /\ history exnet exch /\ ch_evaluated exch = true.
Proof.
  splits; [apply exnet_built|reflexivity| |reflexivity].
  apply (hi_evaluate exnet (mkChrom (w:=exw) (ch_locus exch) LNan)); [apply (hi_new exnet (ch_locus exch))|]. vm_compute. reflexivity.
Qed.

(** ** C40 *)

Lemma hread_app : forall w (h : heap w) d a, a < length h -> hread (h ++ [d]) a = hread h a.
Proof. intros w h d a H. unfold hread. apply app_nth1. auto. Qed.
Lemma hread_new : forall w (h : heap w) d, hread (h ++ [d]) (length h) = d.
Proof. intros w h d. unfold hread. rewrite app_nth2 by lia. rewrite Nat.sub_diag. auto. Qed.
Lemma hread_write : forall w (h : heap w) a d a', a < length h ->
  hread (hwrite h a d) a' = if Nat.eqb a' a then d else hread h a'.
Proof.
  intros w h. induction h as [|x h IH]; intros a d a' H; simpl in H; [lia|]. destruct a as [|a]; simpl.
  - destruct a'; auto.
  - destruct a' as [|a']; auto. unfold hread in *. simpl. apply IH. lia.
Qed.
Lemma hwrite_length : forall w (h : heap w) a d, length (hwrite h a d) = length h.
Proof. intros w h. induction h as [|x h IH]; intros [|a] d; simpl; auto. Qed.

(** clone() and from_json(to_json()) give the same values and LogProb in a dict of their own;
    nothing that existed before changes. *)
Theorem C40_clone : forall w (h : heap w) (c : obj w), o_locus c < length h ->
  let (h', c') := o_clone h c in
  o_view h' c' = o_view h c /\ (forall x, o_locus x < length h -> o_view h' x = o_view h x /\ o_locus x <> o_locus c').
Proof.
  intros w h c H. unfold o_clone, o_new, o_view. simpl. rewrite hread_new. split; auto.
  intros x Hx. rewrite hread_app; auto. split; auto. lia.
Qed.
Print Assumptions C40_clone.

Theorem C40_json : forall w (h : heap w) (c : obj w), o_locus c < length h ->
  let (h', c') := o_from_json h (o_to_json c) in
  o_view h' c' = o_view h c /\ (forall x, o_locus x < length h -> o_view h' x = o_view h x /\ o_locus x <> o_locus c').
Proof.
  intros w h c H. unfold o_from_json, o_new, o_view. simpl. rewrite hread_new. split; auto.
  intros x Hx. rewrite hread_app; auto. split; auto. lia.
Qed.
Print Assumptions C40_json.

(** Changing a chromosome changes nothing that has another dict. *)
Theorem C40_independent : forall w (h : heap w) (c x : obj w) k v, o_locus c < length h -> o_locus x <> o_locus c ->
  let (h', c') := o_set h c k v in
  o_view h' x = o_view h x /\ o_view h' c' = ch_set (o_view h c) k v /\ length h' = length h.
Proof.
  intros w h c x k v H N. unfold o_set, o_view, ch_set. simpl. rewrite !hread_write, hwrite_length by auto.
  rewrite Nat.eqb_refl. rewrite (proj2 (Nat.eqb_neq _ _) N). auto.
Qed.
Print Assumptions C40_independent.

(** The exported JSON however shares the dict: it changes with the chromosome, but keeps the old
    LogProb. *)
Theorem C40_json_shared_refuted : exists (h : heap exw) (c : obj exw) k v, o_locus c < length h /\
  let js := o_to_json c in let (h', c') := o_set h c k v in
  hread h' (o_locus js) <> hread h (o_locus js) /\ o_lp js <> o_lp c'.
Proof.
  exists [[("a", PZ 1)]], (mkObj (w:=exw) 0 (LZ 3)), "a", (PZ 2). simpl. split; [lia|]. split; discriminate.
Qed.
Print Assumptions C40_json_shared_refuted.

Theorem C40_to_data : forall w inj (c : chrom w) k, dget (ch_to_data inj c) k =
  if ch_evaluated c && String.eqb k "LogProb" then Some (inj (ch_lp c)) else dget (ch_locus c) k.
Proof.
  intros w inj c k. unfold ch_to_data. destruct (ch_evaluated c); simpl; auto. rewrite dget_dset. auto.
Qed.
Print Assumptions C40_to_data.

Example C40_example :
  let h := [ch_locus exch] in let c := mkObj (w:=exw) 0 (LZ (-5)) in
  o_locus c < length h /\ o_view h c = exch /\ o_locus (snd (o_clone h c)) = 1
  /\ dget (ch_to_data (w:=exw) (fun p => match p with LZ z => PZ z | _ => PNone end) exch) "LogProb" = Some (PZ (-5)).
Proof. cbv zeta. splits; try reflexivity. simpl. lia. Qed.
