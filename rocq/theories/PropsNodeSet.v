(** * Properties C46 (blueprints), C48, C49, C69: node sets (simulation/nodeset.py, fn.py) *)

Require Import Coq.ZArith.ZArith Coq.micromega.Lia.
Require Import Verif.Base Verif.World Verif.ModelGraph Verif.ModelExpr Verif.ModelLoci Verif.ModelBN Verif.ModelSample Verif.ModelSim
        Verif.ModelNodeSet Verif.Spec Verif.SpecBN Verif.SpecExpr Verif.SpecSample Verif.SpecSim Verif.SpecNodeSet
        Verif.ProofBase Verif.ProofGraph Verif.ProofExpr Verif.ProofBN Verif.ProofBNViews Verif.ProofBNHist
        Verif.ProofNodeSet Verif.ProofNodeSetInj Verif.ProofNodeSetMain Verif.ProofNodeSetOne
        Verif.ExWorld Verif.PropsBN Verif.PropsSim.

(** what the examples show of an allocation *)
Definition seen_alloc (r : res stree) : option (list (name * list name * list name * list name * list name)) :=
  match r with
  | Ok t => Some (map (fun a => (a_name a, a_exo a, a_fixed a, a_float a, dkeys (a_local a))) (allocs t))
  | Err _ => None
  end.

(** ** C46: the blueprints made by as_simulation_core meet the hypotheses of C46_mediators, and those
    of C41, C42 and C45 on groups *)
Theorem C46_blueprints : forall w (b : bn w) t sc, built b -> as_simulation_core b t = Ok sc ->
  sc_bn sc = b /\ groups_sorted sc /\ blueprints_ok sc
  /\ forall gn g k p, dget (sc_groups sc) gn = Some g -> In (k, p) (g_local g) \/ In (k, p) (g_shared g) ->
       bp_type p = Compound -> compound_ok b p.
Proof.
  intros w b t sc B E. destruct (built_coherent _ B) as [C F]. unfold as_simulation_core in E.
  match type of E with context[inject b ?q] => set (t0 := q) in E end.
  destruct (inject b t0) as [s|] eqn:Ei; cbn [bind] in E; [|discriminate]. inversion E; subst. clear E.
  pose proof (inject_settled b t0 s C F Ei) as St. cbn [sc_bn sc_groups]. unfold groups_sorted, blueprints_ok. cbn [sc_bn sc_groups].
  assert (G : forall gn g, dget (groups_from s []) gn = Some g -> sorted b (g_fixed g) /\ prints_ok b (g_local g) /\ prints_ok b (g_shared g)).
  { intros gn g H. apply groups_from_spec in H. destruct H as [H|(a & sh & ks & Ha & ->)]; [discriminate|]. cbn.
    destruct (Forall2_in_r _ _ _ _ _ _ St Ha) as [[[nm fx] fl] [_ Sa]]. cbn in Sa. tauto. }
  splits; auto.
  - intros k g H. apply G in H. tauto.
  - intros gn g k p H I. apply G in H. destruct H as (_ & [_ P1] & [_ P2]). destruct I as [I|I]; [apply P1 in I|apply P2 in I]; tauto.
  - intros gn g k p H I. apply G in H. destruct H as (_ & [_ P1] & [_ P2]). destruct I as [I|I]; [apply P1 in I|apply P2 in I]; tauto.
Qed.
Print Assumptions C46_blueprints.

(** nothing is fixed but the constants, so y is sampled through x, and z through x and y *)
Example C46_blueprints_example :
  match as_simulation_core exnet None with
  | Ok sc => map (fun q => (fst q, map snd (g_shared (snd q)))) (sc_groups sc)
  | Err _ => []
  end = [("Root", [mkBp "z" Compound ["a"; "s"; "k"] ["x"; "y"]; mkBp "x" Single ["a"; "s"] []; mkBp "y" Compound ["a"; "s"; "k"] ["x"]])].
Proof. vm_compute. reflexivity. Qed.

(** ** C48 *)

Theorem C48_allocation : forall w (b : bn w), built b ->
  exists od g sc, all_fixed_sc b = Ok sc /\ sc_bn sc = b /\ sc_groups sc = [(sc_root sc, g)] /\ topo (dag b) od (node b)
    /\ g_fixed g = od /\ g_exo g = [] /\ g_local g = [] /\ g_shared g = [] /\ g_children g = [].
Proof.
  intros w b B. destruct (built_coherent _ B) as [C F]. destruct (Order_ok b C F) as [od [Eo To]].
  destruct (all_fixed_inject b od C F Eo) as (s & Ei & A1 & A2 & A3 & A4 & A5 & A6 & A7).
  destruct s as [a sh ks]. cbn [s_alloc s_kids] in *. subst ks.
  exists od, (group_from (STree a sh [])), (mkSC b (a_name a) [(a_name a, group_from (STree a sh []))]).
  unfold all_fixed_sc. rewrite Eo. cbn [bind]. unfold as_simulation_core. rewrite Ei. cbn. splits; auto.
Qed.
Print Assumptions C48_allocation.

Lemma all_fixed_group : forall w (b : bn w) sc, built b -> all_fixed_sc b = Ok sc ->
  exists od g, sc_bn sc = b /\ sc_groups sc = [(sc_root sc, g)] /\ topo (dag b) od (node b) /\ g_fixed g = od /\ g_exo g = [].
Proof.
  intros w b sc B E. destruct (C48_allocation w b B) as (od & g & sc' & E' & Q). rewrite E in E'. inversion E'; subst sc'. exists od, g. tauto.
Qed.

(** The new core holds the given values and, for every other node, the value its definition gives on
    the values held; a node is left out only if its definition raises KeyError on them. *)
Theorem C48_generate : forall w (b : bn w) sc nick exo h r i h' r', built b -> all_fixed_sc b = Ok sc ->
  history sc h -> NoDup (dkeys exo) -> sc_generate sc nick exo h r = (Ok i, h', r') ->
  exists c, h' = h ++ [c] /\ i = length h
    /\ (forall x v, dget exo x = Some v -> dget (k_locus c) x = Some v)
    /\ (forall x, In x (dkeys (k_locus c)) -> In x (dkeys exo) \/ node b x)
    /\ forall n, node b n -> ~ In n (dkeys exo) ->
         match dget (k_locus c) n with
         | Some v => made b (dget (k_locus c)) n v
         | None => exists l, holds b n l /\ forall d r, (forall x, d x = dget (k_locus c) x) -> render l d r = Err KeyError
         end.
Proof.
  intros w b sc nick exo h r i h' r' B E Hh Nd G. destruct (all_fixed_group w b sc B E) as (od & g & Eb & Eg & [[Do Io] To] & Fx & Ex).
  unfold sc_generate in G. rewrite Eg in G. cbn in G. rewrite String.eqb_refl in G. rewrite <- Eb in *.
  destruct (C41_generate_partial w sc g (if String.eqb nick "" then b_name (sc_bn sc) else nick) None exo h r i h' r' B) as (c & H1 & H2 & _ & _ & _ & H6 & H7 & seen & Hs & Hn); auto.
  - rewrite Fx. unfold sorted. splits; auto. intros n Hn. apply Io; auto.
  - rewrite Ex. intros d [].
  - exists c. splits; auto.
    + intros x Hx. destruct (H7 x Hx) as [Q|Q]; auto. right. apply Io. rewrite <- Fx. auto.
    + intros n Nn Ne. assert (Sx : forall x, seen x = dget (k_locus c) x).
      { intros x. destruct (dget (k_locus c) x) as [v|] eqn:Q; [apply Hs; auto|]. destruct (seen x) as [v|] eqn:Q2; auto.
        apply Hs in Q2. rewrite Ex in Q2. destruct Q2 as [Q2|(_ & [] & _)]. congruence. }
      specialize (Hn n). rewrite Fx, Ex in Hn. specialize (Hn (proj2 (Io n) Nn) Ne). cbn in Hn.
      destruct (dget (k_locus c) n) as [v|] eqn:Q.
      * destruct Hn as (l & rho & q & q' & A1 & A2 & A3 & A4 & A5). exists l, rho, q, q'. splits; auto.
        -- intros p Hp. rewrite A2; auto.
        -- intros x y Hxy. rewrite <- Sx. apply A3; auto.
      * destruct Hn as (l & A1 & A2). exists l. split; auto. intros d q Hd. rewrite <- (A2 q). apply render_agree. intros x _. rewrite Hd, Sx. auto.
Qed.
Print Assumptions C48_generate.

(** Missing: the assignment is complete only if the exogenous nodes are given and no definition raises
    KeyError although all its parents have values; see C48_complete_refuted. *)
Theorem C48_complete_partial : forall w (b : bn w) sc nick exo h r i h' r', built b -> all_fixed_sc b = Ok sc ->
  history sc h -> NoDup (dkeys exo) ->
  (forall n l d q, holds b n l -> ~ In n (dkeys exo) -> (forall p, In p (loci_parents l) -> d p <> None) -> render l d q <> Err KeyError) ->
  sc_generate sc nick exo h r = (Ok i, h', r') ->
  exists c, h' = h ++ [c] /\ forall n, node b n -> exists v, dget (k_locus c) n = Some v.
Proof.
  intros w b sc nick exo h r i h' r' B E Hh Nd K G. destruct (built_coherent _ B) as [C F].
  destruct (C48_generate w b sc nick exo h r i h' r' B E Hh Nd G) as (c & H1 & _ & H3 & _ & H5). exists c. split; auto.
  destruct (order_total (dag b) (co_wf _ C) (co_acyclic _ C)) as [od Ho]. destruct (order_topo (dag b) od (co_wf _ C) Ho) as [[D I] T].
  assert (X : forall l1 l2, od = l1 ++ l2 -> forall n, In n l1 -> exists v, dget (k_locus c) n = Some v).
  { induction l1 as [|x l1 IH] using rev_ind; intros l2 Eq n Hn; [destruct Hn|]. rewrite <- app_assoc in Eq. cbn in Eq.
    apply in_app_or in Hn. destruct Hn as [Hn|[<-|[]]]; [eapply IH; eauto|].
    destruct (In_dec_name x (dkeys exo)) as [Hx|Hx]; [apply dget_In in Hx; destruct Hx as [v Hx]; exists v; auto|].
    assert (Nx : node b x) by (apply node_gnodes, I; rewrite Eq; apply in_or_app; right; left; auto).
    specialize (H5 x Nx Hx). destruct (dget (k_locus c) x) as [v|]; [eauto|]. exfalso. destruct H5 as (l & Hl & Hr).
    apply (K x l (dget (k_locus c)) r Hl Hx); [|apply Hr; auto]. intros p Hp. apply (co_parents _ C _ _ Hl) in Hp.
    assert (In p l1).
    { assert (Hpo : In p od) by (apply I; eapply wf_src; [apply C|exact Hp]).
      assert (Hxo : In x od) by (rewrite Eq; apply in_or_app; right; left; auto).
      pose proof (T p x Hp Hpo Hxo) as Bf. rewrite Eq in Bf, D. apply NoDup_app_elim in D. destruct D as (D1 & D2 & D3). inversion D2; subst.
      apply before_app in Bf. destruct Bf as [Bf|[Bf|[Bf _]]]; auto.
      - apply before_In in Bf. exfalso. apply (D3 x); [tauto|left; auto].
      - exfalso. apply before_cons in Bf. destruct Bf as [[_ Q]|Q]; [tauto|apply before_In in Q; tauto]. }
    destruct (IH (x :: l2) Eq p H) as [v ->]. discriminate. }
  intros n Hn. apply (X od []); [rewrite app_nil_r; auto|]. apply I, node_gnodes. auto.
Qed.
Print Assumptions C48_complete_partial.

Definition exfix : simcore exw := match all_fixed_sc exnet with Ok sc => sc | Err _ => exsc end.
Lemma exnet_renders : forall n l d q, holds exnet n l -> ~ In n ["a"; "s"] ->
  (forall p, In p (loci_parents l) -> d p <> None) -> render l d q <> Err KeyError.
Proof.
  intros n l d q H N P. apply bget_holds in H. unfold bget, exnet in H. cbn in H.
  repeat match type of H with context[String.eqb n ?y] => destruct (String.eqb_spec n y) as [->|?] end; inversion H; subst; clear H; cbn in P;
    try (exfalso; apply N; cbn; tauto).
  - pose proof (P "a" (or_introl eq_refl)) as A. pose proof (P "s" (or_intror (or_introl eq_refl))) as S.
    vm_compute. destruct (d "a") as [[]|]; destruct (d "s") as [[]|]; intros Q; try (destruct (A eq_refl)); try (destruct (S eq_refl));
      repeat match type of Q with context[match ?z with _ => _ end] => lazymatch z with context[match _ with _ => _ end] => fail | _ => destruct z end end; discriminate.
  - discriminate.
  - pose proof (P "x" (or_introl eq_refl)) as A. pose proof (P "k" (or_intror (or_introl eq_refl))) as S.
    vm_compute. destruct (d "x") as [[]|]; destruct (d "k") as [[]|]; intros Q; try (destruct (A eq_refl)); try (destruct (S eq_refl));
      repeat match type of Q with context[match ?z with _ => _ end] => lazymatch z with context[match _ with _ => _ end] => fail | _ => destruct z end end; discriminate.
  - pose proof (P "y" (or_introl eq_refl)) as A. pose proof (P "a" (or_intror (or_introl eq_refl))) as S.
    vm_compute. destruct (d "y") as [[]|]; destruct (d "a") as [[]|]; intros Q; try (destruct (A eq_refl)); try (destruct (S eq_refl));
      repeat match type of Q with context[match ?z with _ => _ end] => lazymatch z with context[match _ with _ => _ end] => fail | _ => destruct z end end; discriminate.
Qed.
Example C48_example : all_fixed_sc exnet = Ok exfix
  /\ shows (sc_generate exfix "r" [("a", PZ 1); ("s", PZ 2)] [] 3)
     = (None, [("r", [("a", PZ 1); ("s", PZ 2); ("k", PZ 2); ("x", PZ 4); ("y", PZ 6); ("z", PZ 64)], LZ (-3), None, [])], 4).
Proof. split; [|vm_compute; reflexivity]. unfold exfix. destruct (C48_allocation exw exnet exnet_built) as (od & g & sc & -> & _). reflexivity. Qed.

(** e = foo(1), with a function nobody defines: no exogenous node, generate succeeds, e has no value. *)
Definition exfoo : bn exw := defs (bn_new "n") [LFunc (w:=exw) "e" (ECall "foo" [ENum "1"] []) []].
Lemma exfoo_built : built exfoo.
Proof. unfold exfoo. apply defs_built; [constructor|vm_compute; reflexivity]. Qed.
Theorem C48_complete_refuted : exists w (b : bn w) sc nick r i h' r' c n,
  built b /\ all_fixed_sc b = Ok sc /\ (forall x l, holds b x l -> is_exo_l l = false)
  /\ sc_generate sc nick [] [] r = (Ok i, h', r') /\ h' = [c] /\ node b n /\ dget (k_locus c) n = None.
Proof.
  destruct (C48_allocation exw exfoo exfoo_built) as (od & g & sc & E & _).
  destruct (sc_generate sc "r" [] [] 0) as [[o h'] r'] eqn:G.
  assert (X : (match o with Ok i => Some i | Err _ => None end, map show h') = (Some 0, [("r", [], LZ 0, None, [])])).
  { assert (Q : match all_fixed_sc exfoo with
                | Ok sc => match sc_generate sc "r" [] [] 0 with (o, h, _) => (match o with Ok i => Some i | Err _ => None end, map show h) end
                | Err _ => (None, []) end = (Some 0, [("r", [], LZ 0, None, [])])) by (vm_compute; reflexivity).
    rewrite E, G in Q. exact Q. }
  destruct o as [i|]; [|discriminate]. destruct h' as [|c [|c2 h']]; try discriminate. injection X as X1 X2 X3 X4 X5 X6.
  exists exw, exfoo, sc, "r", 0, i, [c], r', c, "e". splits; auto.
  - exact exfoo_built.
  - intros x l H. apply bget_holds in H. unfold bget, exfoo in H. cbn in H. destruct (String.eqb x "e"); inversion H; auto.
  - apply node_dec_true. reflexivity.
  - rewrite X3. reflexivity.
Qed.
Print Assumptions C48_complete_refuted.

(** ** C49 *)

(** inject_bn succeeds exactly on the requests that name nodes of the network and do not ask, in one
    node set, for a floating ancestor of a fixed node. *)
Theorem C49_succeeds : forall w (b : bn w) t, built b -> ((exists s, inject b t = Ok s) <-> valid_request b t).
Proof. intros w b t B. destruct (built_coherent _ B) as [C F]. apply inject_iff; auto. Qed.
Print Assumptions C49_succeeds.

(** A request about known nodes is either accepted or refused with AssertionError. *)
Theorem C49_refused : forall w (b : bn w) t, built b -> (forall nm fx fl x, asks t nm fx fl -> In x fx \/ In x fl -> node b x) ->
  ~ valid_request b t -> inject b t = Err AssertionError.
Proof.
  intros w b t B K V. destruct (built_coherent _ B) as [C F].
  assert (T : forall t, (forall nm fx fl x, asks t nm fx fl -> In x fx \/ In x fl -> node b x) -> exists v, validate (dag b) t = Ok v).
  { clear t K V. induction t as [nm fx fl ks IH] using nset_ind'. intros K. rewrite validate_eq.
    assert (G : exists v, (fix go l := match l with [] => Ok true | k :: l' => do v <- validate (dag b) k; if v : bool then go l' else Ok false end) ks = Ok v).
    { assert (Kk : forall k, In k ks -> forall n f l x, asks k n f l -> In x f \/ In x l -> node b x) by (intros k Hk n f l x A; apply (K n f l); eapply ask_below; eauto).
      clear K. induction IH as [|k ks Hk IH IH2]; eauto. destruct (Hk (Kk k (or_introl eq_refl))) as [v Ev]. rewrite Ev. cbn [bind]. destruct v; eauto.
      apply IH2. intros k' I. apply Kk. right. auto. }
    destruct G as [v G]. rewrite G. cbn [bind]. destruct v; eauto. destruct fx as [|f0 fx]; eauto.
    assert (U : incl (f0 :: fx) (gnodes (dag b))) by (intros x Hx; apply node_gnodes; apply (K nm (f0 :: fx) fl x (ask_here _ _ _ _)); auto).
    destruct (upstream_spec (dag b) (f0 :: fx) (co_wf _ C) U) as [anc [E _]]; [discriminate|]. rewrite E. cbn [bind]. eauto. }
  destruct (T t K) as [v E]. unfold inject. destruct v; rewrite E; cbn [bind]; auto.
  exfalso. apply V. intros nm fx fl A. split; [intros x; apply (K nm fx fl x A)|]. apply (validate_true b t C E nm fx fl A).
Qed.
Print Assumptions C49_refused.

(** asked to fix y and to float its parent x *)
Example C49_example_refused : inject exnet (NSet "r" ["y"] ["x"] []) = Err AssertionError.
Proof.
  apply C49_refused; [apply exnet_built| |].
  - intros nm fx fl x A. apply asks_requests in A. destruct A as [E|[]]. inversion E; subst. intros I. apply node_gnodes.
    destruct I as [[<-|[]]|[<-|[]]]; vm_compute; tauto.
  - intros V. assert (X : exists s, inject exnet (NSet "r" ["y"] ["x"] []) = Ok s) by (apply C49_succeeds; [apply exnet_built|exact V]).
    destruct X as [s X]. assert (Y : seen_alloc (inject exnet (NSet "r" ["y"] ["x"] [])) = None) by (vm_compute; reflexivity). rewrite X in Y. discriminate Y.
Qed.

(** Each node set keeps its name, fixes what it was asked to fix, and floats or fixes what it was
    asked to float; fixed nodes are sorted; exactly the floating nodes and those of the sets below
    have samplers; the root takes nothing from outside. *)
Theorem C49_requested : forall w (b : bn w) t s, built b -> inject b t = Ok s ->
  Forall2 (fun q a => match q with (nm, fx, fl) =>
      a_name a = nm /\ incl fx (a_fixed a) /\ (forall x, In x fl -> In x (a_float a) \/ In x (a_fixed a))
      /\ sorted b (a_fixed a) /\ (forall x, In x (a_float a) -> node b x)
      /\ same_set (dkeys (a_local a)) (union (a_float a) (a_will a)) /\ same_set (dkeys (a_shared a)) (union (a_float a) (a_will a))
    end) (requests t) (allocs s)
  /\ a_exo (s_alloc s) = [].
Proof.
  intros w b t s B E. destruct (built_coherent _ B) as [C F]. split; [|eapply inject_root_exo; eauto].
  assert (V : valid_request b t) by (apply inject_iff; eauto).
  assert (Q : forall nm fx fl, In (nm, fx, fl) (requests t) -> forall x, In x fx -> node b x).
  { intros nm fx fl H x Hx. apply asks_requests in H. apply (V nm fx fl H). auto. }
  pose proof (inject_settled b t s C F E) as St. revert Q St. generalize (requests t) as l. generalize (allocs s) as m. clear.
  intros m l Q St. induction St as [|[[nm fx] fl] a l m H St IH]; constructor.
  - destruct H as (H1 & H2 & H3 & H4 & _ & _ & H7 & H8 & H9). splits; auto.
    + intros x Hx. apply H2; auto. eapply Q; [left; reflexivity|auto].
    + intros x Hx. apply H3 in Hx. tauto.
  - apply IH. intros nm' fx' fl' H'. eapply Q. right. exact H'.
Qed.
Print Assumptions C49_requested.

(** Missing: one node set that is not asked to fix anything, and for completeness asked to float all
    leaves in a network without pseudo nodes (so as_simulation_core without node set and
    get_all_float_sc). In general both halves fail: C49_disjoint_refuted, C49_complete_refuted. *)
Theorem C49_partition_partial : forall w (b : bn w) nm fl s, built b -> inject b (NSet nm [] fl []) = Ok s ->
  (forall x, In x (a_fixed (s_alloc s)) -> ~ In x (a_float (s_alloc s)))
  /\ (incl (leaves (dag b)) fl -> (forall n l, holds b n l -> is_pseudo_l l = false) ->
      forall x, node b x <-> In x (a_fixed (s_alloc s)) \/ In x (a_float (s_alloc s))).
Proof.
  intros w b nm fl s B E. destruct (built_coherent _ B) as [C F]. destruct (float_partition b nm fl s C F E) as (P1 & P2 & _). split; auto.
  intros L N x. split; [apply P2; auto|]. pose proof (inject_settled b _ s C F E) as St.
  assert (Ha : In (s_alloc s) (allocs s)) by (destruct s; rewrite allocs_eq; left; auto).
  destruct (Forall2_in_r _ _ _ _ _ _ St Ha) as [[[n0 f0] l0] [_ (_ & _ & _ & (_ & S4 & _) & _ & _ & S7 & _)]]. intros [H|H]; auto.
Qed.
Print Assumptions C49_partition_partial.

Example C49_example : built exnet
  /\ seen_alloc (inject exnet (NSet "Root" [] (leaves (dag exnet)) [])) = Some [("Root", [], ["a"; "s"; "k"], ["z"; "x"; "y"], ["z"; "x"; "y"])]
  /\ seen_alloc (inject exnet (NSet "ag" ["k"] [] [NSet "ind" ["x"; "y"] ["z"] []]))
     = Some [("ag", [], ["a"; "s"; "k"], [], []); ("ind", ["a"; "s"; "k"], ["x"; "y"; "z"], [], [])]
  /\ seen_alloc (inject exnet (NSet "ag" ["y"] ["x"] [])) = None.
Proof. splits; [exact exnet_built|vm_compute; reflexivity..]. Qed.

(** d is random, y = d is to be fixed and z = d to float: d becomes both. *)
Definition exfork : bn exw :=
  defs (bn_new "n") [LDist (w:=exw) "d" (ECall "norm" [] []) []; LFunc "y" (EName "d") ["d"]; LFunc "z" (EName "d") ["d"]].
Lemma exfork_built : built exfork.
Proof. unfold exfork. apply defs_built; [constructor|vm_compute; reflexivity]. Qed.
Theorem C49_disjoint_refuted : exists w (b : bn w) t s a x,
  built b /\ inject b t = Ok s /\ In a (allocs s) /\ In x (a_fixed a) /\ In x (a_float a).
Proof.
  destruct (inject exfork (NSet "Root" ["y"] ["z"] [])) as [s|] eqn:E; [|exfalso; assert (X : seen_alloc (inject exfork (NSet "Root" ["y"] ["z"] [])) <> None) by (vm_compute; discriminate); rewrite E in X; auto].
  exists exw, exfork, (NSet "Root" ["y"] ["z"] []), s, (s_alloc s), "d".
  assert (X : seen_alloc (Ok s) = Some [("Root", [], ["d"; "y"], ["z"; "d"], ["z"; "d"])]) by (rewrite <- E; vm_compute; reflexivity).
  destruct s as [a sh ks]. unfold seen_alloc in X. rewrite allocs_eq in X. cbn [map] in X. injection X as X1 X2 X3 X4 X5 X6. cbn [s_alloc].
  splits; [exact exfork_built|exact E|rewrite allocs_eq; left; auto|rewrite X3; left; auto|rewrite X4; right; left; auto].
Qed.
Print Assumptions C49_disjoint_refuted.

(** a -> b -> c with only a asked to be fixed: b floats, c is neither fixed nor floating anywhere. *)
Definition exchain : bn exw :=
  defs (bn_new "n") [LDist (w:=exw) "a" (ECall "norm" [] []) []; LDist "b" (ECall "norm" [EName "a"] []) ["a"]; LFunc "c" (EName "b") ["b"]].
Lemma exchain_built : built exchain.
Proof. unfold exchain. apply defs_built; [constructor|vm_compute; reflexivity]. Qed.
Theorem C49_complete_refuted : exists w (b : bn w) t s x,
  built b /\ inject b t = Ok s /\ node b x /\ forall a, In a (allocs s) -> ~ In x (a_fixed a) /\ ~ In x (a_float a).
Proof.
  destruct (inject exchain (NSet "Root" ["a"] [] [])) as [s|] eqn:E; [|exfalso; assert (X : seen_alloc (inject exchain (NSet "Root" ["a"] [] [])) <> None) by (vm_compute; discriminate); rewrite E in X; auto].
  exists exw, exchain, (NSet "Root" ["a"] [] []), s, "c".
  assert (X : seen_alloc (Ok s) = Some [("Root", [], ["a"], ["b"], ["b"])]) by (rewrite <- E; vm_compute; reflexivity).
  unfold seen_alloc in X. destruct (allocs s) as [|a [|a2 l]]; try discriminate X. injection X as X1 X2 X3 X4 X5.
  splits; [exact exchain_built|exact E|apply node_dec_true; reflexivity|].
  intros a' [<-|[]]. rewrite X3, X4. cbn. split; intros [Q|[]]; discriminate.
Qed.
Print Assumptions C49_complete_refuted.

(** ** C69 *)

(** Missing: of several siblings only the last may have children of its own; see C69_exo_refuted. *)
Theorem C69_exo_partial : forall w (b : bn w) t s, built b -> slim_request t -> inject b t = Ok s -> exo_fixed (fun _ => False) s.
Proof. intros w b t s B S E. destruct (built_coherent _ B) as [C F]. eapply inject_exo; eauto. Qed.
Print Assumptions C69_exo_partial.

Example C69_example : slim_request (NSet "ag" ["k"] [] [NSet "ind" ["x"] [] []])
  /\ seen_alloc (inject exnet (NSet "ag" ["k"] [] [NSet "ind" ["x"] [] []]))
     = Some [("ag", [], ["a"; "s"; "k"], [], []); ("ind", ["a"; "s"], ["x"; "y"], [], [])].
Proof.
  split; [|vm_compute; reflexivity]. constructor.
  - intros l1 n x l k l2 E N. destruct l1 as [|q [|q2 l1]]; inversion E; subst; congruence.
  - intros k [<-|[]]. constructor; [|intros k []]. intros l1 n x l k l2 E. destruct l1; discriminate.
Qed.

(** d is hoisted from g1 into c1, and with that counts as fixed for the sibling c2 as well. *)
Definition exhoist : bn exw :=
  defs (bn_new "n") [LValue (w:=exw) "a" (PZ 1); LFunc "d" (EName "a") ["a"]; LFunc "x" (EName "d") ["d"]; LFunc "y" (EName "d") ["d"]].
Definition exhoist_set : nset := NSet "root" ["a"] [] [NSet "c1" [] [] [NSet "g1" ["x"] [] []]; NSet "c2" ["y"] [] []].
Lemma exhoist_built : built exhoist.
Proof. unfold exhoist. apply defs_built; [constructor|vm_compute; reflexivity]. Qed.
Fixpoint show_tree (t : stree) : list (name * list name * list name * nat) :=
  match t with STree a _ ks => (a_name a, a_exo a, a_fixed a, length ks) :: flat_map show_tree ks end.
Theorem C69_exo_refuted : exists w (b : bn w) t s, built b /\ inject b t = Ok s /\ ~ exo_fixed (fun _ => False) s.
Proof.
  assert (X : match inject exhoist exhoist_set with
              | Ok (STree a _ [_; STree c _ _]) => Some (a_fixed a, a_exo c)
              | _ => None end = Some (["a"], ["a"; "d"])) by (vm_compute; reflexivity).
  destruct (inject exhoist exhoist_set) as [s|] eqn:E; [|discriminate X].
  exists exw, exhoist, exhoist_set, s. split; [exact exhoist_built|]. split; [exact E|]. clear E.
  destruct s as [a sh [|k1 [|[c sh2 ks2] [|k3 ks]]]]; try discriminate X. injection X as X1 X2.
  intros H. inversion H as [? ? ? _ Hk]; subst. specialize (Hk _ (or_intror (or_introl eq_refl))).
  inversion Hk as [? ? ? He _]; subst. destruct (He "d") as [[]|Q]; [rewrite X2; right; left; auto|]. rewrite X1 in Q. destruct Q as [Q|[]]. discriminate.
Qed.
Print Assumptions C69_exo_refuted.
