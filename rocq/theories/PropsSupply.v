(** * Property C90 (cores hold a value for every node their group fixes) *)

Require Import Coq.ZArith.ZArith Coq.micromega.Lia.
Require Import Verif.Base Verif.World Verif.ModelGraph Verif.ModelExpr Verif.ModelLoci Verif.ModelBN Verif.ModelSample Verif.ModelSim
        Verif.ModelNodeSet Verif.Spec Verif.SpecBN Verif.SpecExpr Verif.SpecSample Verif.SpecSim Verif.SpecNodeSet
        Verif.ProofBase Verif.ProofGraph Verif.ProofExpr Verif.ProofBN Verif.ProofBNViews Verif.ProofBNHist Verif.ProofSample Verif.ProofSim Verif.ProofSimGen
        Verif.ProofNodeSet Verif.ProofNodeSetInj Verif.ProofNodeSetMain Verif.ProofNodeSetOne
        Verif.ExWorld Verif.PropsBN Verif.PropsSample Verif.PropsSim Verif.PropsNodeSet.

Section Supply.
  Context {w : world}.
  Implicit Types h : cores w.
  Implicit Types sc : simcore w.

  (** The parents of what a group fixes are fixed by it as well, or taken from above. *)
  Definition closed_groups sc : Prop :=
    forall k g n p, dget (sc_groups sc) k = Some g -> In n (g_fixed g) -> edge (dag (sc_bn sc)) p n -> In p (g_fixed g) \/ In p (g_exo g).
  (** [ks] are the names of a group and of the groups above it, up to the root *)
  Inductive line sc : name -> list name -> Prop :=
  | li_root : line sc (sc_root sc) [sc_root sc]
  | li_child : forall k ks g c, line sc k ks -> dget (sc_groups sc) k = Some g -> In c (g_children g) -> line sc c (c :: ks).
  (** What a group takes from above is fixed by a group above it. *)
  Definition supplied sc : Prop :=
    forall k ks g x, line sc k (k :: ks) -> dget (sc_groups sc) k = Some g -> In x (g_exo g) ->
      exists k' g', In k' ks /\ dget (sc_groups sc) k' = Some g' /\ In x (g_fixed g').
  (** The exogenous nodes of the network that the group fixes are given. *)
  Definition gives sc (k : name) (exo : dict (V w)) : Prop :=
    forall g n l, dget (sc_groups sc) k = Some g -> In n (g_fixed g) -> holds (sc_bn sc) n l -> is_exo_l l = true -> In n (dkeys exo).
  (** No definition raises KeyError when its parents have values. *)
  Definition evaluable (b : bn w) : Prop :=
    forall n l d q, holds b n l -> is_exo_l l = false -> (forall p, In p (loci_parents l) -> d p <> None) -> render l d q <> Err KeyError.

  (** Everything a program can do to cores but detaching one from its parent without collecting the
      parameters, exogenous nodes being given. *)
  Inductive grown sc : cores w -> Prop :=
  | gw_none : grown sc []
  | gw_root : forall h nick exo r o h' r', grown sc h -> gives sc (sc_root sc) exo -> sc_generate sc nick exo h r = (o, h', r') -> grown sc h'
  | gw_breed : forall h i nick g exo r o h' r', grown sc h -> gives sc g exo -> breed sc i nick g exo h r = (o, h', r') -> grown sc h'
  | gw_sibling : forall h i nick exo r o h' r', grown sc h -> (forall c, at_ h i c -> gives sc (k_group c) exo) ->
      get_sibling sc i nick exo h r = (o, h', r') -> grown sc h'
  | gw_prototype : forall h i g exo r o h' r', grown sc h -> gives sc g exo -> get_prototype sc i g exo h r = (o, h', r') -> grown sc h'
  | gw_remove : forall h i k, grown sc h -> grown sc (remove_children h i k)
  | gw_collect : forall h i o h', grown sc h -> detach h i true = (o, h') -> grown sc h'
  | gw_clone : forall h i r o h' r', grown sc h -> clone_core sc h i r = (o, h', r') -> grown sc h'
  | gw_set : forall h i x v, grown sc h -> grown sc (kset h i x v)
  | gw_actors : forall h i s r o h' r', grown sc h -> get_actors sc h i s r = (o, h', r') -> grown sc h'
  | gw_sampler : forall h p i r o h' r', grown sc h -> new_sampler h p i r = (o, h', r') -> grown sc h'
  | gw_impulse : forall h imp i r o h' r', grown sc h -> impulse_core sc imp i h r = (o, h', r') -> grown sc h'
  | gw_impulse_list : forall h imp i r o h' r', grown sc h -> impulse_list sc imp i h r = (o, h', r') -> grown sc h'.

  Lemma grown_history : forall sc h, grown sc h -> history sc h.
  Proof. intros sc h H. induction H; [apply hi_none|eapply hi_root; eauto|eapply hi_breed; eauto|eapply hi_sibling; eauto|eapply hi_prototype; eauto
    |apply hi_remove; auto|eapply hi_detach; eauto|eapply hi_clone; eauto|apply hi_set; auto|eapply hi_actors; eauto|eapply hi_sampler; eauto|eapply hi_impulse; eauto|eapply hi_impulse_list; eauto]. Qed.

  (** ** operations that make no core: groups and parents stay, values may come *)

  Definition more (c c' : core w) : Prop :=
    k_group c' = k_group c /\ k_parent c' = k_parent c /\ incl (dkeys (k_locus c)) (dkeys (k_locus c')).
  Definition grows h h' : Prop := length h' = length h /\ forall i c', at_ h' i c' -> exists c, at_ h i c /\ more c c'.

  Lemma keys_dset : forall A (d : dict A) x v, incl (dkeys d) (dkeys (dset d x v)).
  Proof. intros A d x v y H. rewrite dkeys_dset, sadd_In. auto. Qed.
  Ltac more_auto := unfold more; splits; auto; try apply incl_refl; try apply keys_dset.
  Lemma more_refl : forall c, more c c.
  Proof. intros c. more_auto. Qed.
  Lemma grows_refl : forall h, grows h h.
  Proof. intros h. split; auto. intros i c H. exists c. split; auto. apply more_refl. Qed.
  Lemma grows_trans : forall a b c, grows a b -> grows b c -> grows a c.
  Proof.
    intros a b c [L1 G1] [L2 G2]. split; [congruence|]. intros i x H. destruct (G2 i x H) as (y & Hy & A1 & A2 & A3).
    destruct (G1 i y Hy) as (z & Hz & B1 & B2 & B3). exists z. split; auto. unfold more; splits; [congruence|congruence|eapply incl_tran; eauto].
  Qed.
  Lemma grows_kupd : forall h i f, (forall c, more c (f c)) -> grows h (kupd h i f).
  Proof.
    intros h i f M. split; [apply kupd_length|]. intros j c H. unfold at_ in *. rewrite kupd_nth in H. destruct (Nat.eqb j i).
    - destruct (nth_error h j) as [d|]; simpl in H; [|discriminate]. inversion H; subst. eauto.
    - exists c. split; auto. apply more_refl.
  Qed.
  Lemma grows_kset : forall h i x v, grows h (kset h i x v).
  Proof. intros h i x v. apply grows_kupd. intros c. more_auto. Qed.
  Lemma grows_put : forall h p a, grows h (put_actor h p a).
  Proof.
    intros h p a. destruct p as [i k|i g k]; apply grows_kupd; intros c.
    - destruct (k_actors c); [|apply more_refl]. more_auto.
    - destruct (k_chactors c) as [d|]; [|apply more_refl]. destruct (dget d g); [|apply more_refl]. more_auto.
  Qed.
  Lemma grows_update : forall h p i r o h' r', update_at h p i r = (o, h', r') -> grows h h'.
  Proof.
    intros h p i r o h' r' H. unfold update_at in H. destruct (actor_at h p); [|inversion H; apply grows_refl].
    destruct (a_update _ _ _) as [[x|e] r1]; inversion H; subst; [apply grows_put|apply grows_refl].
  Qed.
  Lemma grows_sampler : forall h p i r o h' r', new_sampler h p i r = (o, h', r') -> grows h h'.
  Proof.
    intros h p i r o h' r' H. unfold new_sampler in H.
    repeat match type of H with context[match ?x with _ => _ end] => destruct x eqn:?; try (inversion H; subst; apply grows_refl) end;
      try (eapply grows_update; eauto; fail).
  Qed.
  Lemma grows_actors : forall sc h i s r o h' r', get_actors sc h i s r = (o, h', r') -> grows h h'.
  Proof.
    intros sc h i s r o h' r' H. unfold get_actors in H. destruct (nth_error h i) as [c|]; [|inversion H; apply grows_refl].
    destruct (group_of sc h i) as [g|]; [|inversion H; apply grows_refl].
    destruct (if s then k_parent c else None) as [p|].
    - destruct (nth_error h p) as [pc|]; [|inversion H; apply grows_refl].
      destruct (match k_chactors pc with Some d => dget d (k_group c) | None => None end); [inversion H; apply grows_refl|].
      destruct (make_actors _ _ _ _) as [[acts|e] r1]; inversion H; subst; [|apply grows_refl].
      apply grows_kupd. intros d. more_auto.
    - destruct (k_actors c); [inversion H; apply grows_refl|].
      destruct (make_actors _ _ _ _) as [[acts|e] r1]; inversion H; subst; [|apply grows_refl].
      apply grows_kupd. intros d. more_auto.
  Qed.
  Lemma grows_resp_fixed : forall b imp sh i ds prior h r o h' r', resp_fixed b imp sh i ds prior h r = (o, h', r') -> grows h h'.
  Proof.
    intros b imp sh i. induction ds as [|d ds IH]; intros prior h r o h' r' H; cbn [resp_fixed] in H; [inversion H; apply grows_refl|].
    destruct (bget b d) as [l|e]; [|inversion H; apply grows_refl].
    destruct (dget imp d) as [v|].
    - set (h1 := kupd h i _) in *. assert (S : grows h h1) by (apply grows_kupd; intros c; more_auto).
      destruct (evaluate l (lookup h1 i)); [eapply grows_trans; eauto|inversion H; subst; auto].
    - destruct (mem d sh).
      + destruct (render l (lookup h i) r) as [[v r1]|e]; [|inversion H; apply grows_refl].
        pose proof (grows_kset h i (loci_name l) v) as S.
        destruct (evaluate l (lookup (kset h i (loci_name l) v) i)); [eapply grows_trans; eauto|inversion H; subst; auto].
      + destruct (evaluate l (lookup h i)); [eauto|inversion H; apply grows_refl].
  Qed.
  Lemma grows_resp_actors : forall i ps h r o h' r', resp_actors i ps h r = (o, h', r') -> grows h h'.
  Proof.
    intros i. induction ps as [|p ps IH]; intros h r o h' r' H; simpl in H; [inversion H; apply grows_refl|].
    destruct (update_at h p i r) as [[[[]|e] h1] r1] eqn:E; apply grows_update in E; [|inversion H; subst; auto].
    eapply grows_trans; eauto.
  Qed.
  Lemma grows_each : forall (f : nat -> cores w -> RNG w -> res unit * cores w * RNG w) js,
    (forall j h r o h' r', f j h r = (o, h', r') -> grows h h') ->
    forall h r o h' r', each_child f js h r = (o, h', r') -> grows h h'.
  Proof.
    intros f js K. induction js as [|j js IH]; intros h r o h' r' H; simpl in H; [inversion H; apply grows_refl|].
    destruct (f j h r) as [[[[]|e] h1] r1] eqn:E; apply K in E; [|inversion H; subst; auto]. eapply grows_trans; eauto.
  Qed.
  Lemma grows_respond : forall f sc imp sh i h r o h' r', respond f sc imp sh i h r = (o, h', r') -> grows h h'.
  Proof.
    induction f as [|f IH]; intros sc imp sh i h r o h' r' H; cbn [respond] in H; [inversion H; apply grows_refl|].
    destruct (nth_error h i) as [c|]; [|inversion H; apply grows_refl].
    destruct (group_of sc h i) as [g|]; [|inversion H; apply grows_refl].
    destruct (resp_fixed _ _ _ _ _ _ _ _) as [[[prior|e] h1] r1] eqn:E1; apply grows_resp_fixed in E1; [|inversion H; subst; auto].
    set (h1p := kupd h1 i _) in *. assert (S1 : grows h1 h1p) by (apply grows_kupd; intros d; more_auto).
    destruct (resp_actors _ _ _ _) as [[[[]|e] h2] r2] eqn:E2; apply grows_resp_actors in E2;
      [|inversion H; subst; eapply grows_trans; [eauto|eapply grows_trans; eauto]].
    destruct (each_child _ _ _ _) as [[[[]|e] h3] r3] eqn:E3;
      (apply grows_each in E3; [|intros j ha ra oa hb rb Hj; eapply IH; eauto]).
    - assert (S3 : grows h h3) by (repeat (eapply grows_trans; [eassumption|]); auto; apply grows_refl).
      inversion H; subst. destruct (filter _ _); auto. eapply grows_trans; [exact S3|]. apply grows_kupd. intros d; more_auto.
    - inversion H; subst. repeat (eapply grows_trans; [eassumption|]). apply grows_refl.
  Qed.
  Lemma grows_fold : forall i l h, grows h (fold_left (fun h kv => kset h i (fst kv) (snd kv)) l h).
  Proof. intros i. induction l as [|x l IH]; intros h; cbn [fold_left]; [apply grows_refl|]. eapply grows_trans; [apply grows_kset|apply IH]. Qed.

  (** ** cores and the groups above them *)

  Inductive lin sc h : nat -> list name -> Prop :=
  | ln_root : forall i c, at_ h i c -> k_parent c = None -> k_group c = sc_root sc -> lin sc h i [sc_root sc]
  | ln_child : forall i c p cp ks g, at_ h i c -> k_parent c = Some p -> at_ h p cp -> lin sc h p ks ->
      dget (sc_groups sc) (k_group cp) = Some g -> In (k_group c) (g_children g) -> lin sc h i (k_group c :: ks).
  Definition full sc h : Prop := forall i c, at_ h i c -> exists ks g, lin sc h i ks /\ line sc (k_group c) ks /\
    dget (sc_groups sc) (k_group c) = Some g /\ incl (g_fixed g) (dkeys (k_locus c)).

  Lemma grows_at : forall h h' i c, grows h h' -> at_ h i c -> exists c', at_ h' i c' /\ more c c'.
  Proof.
    intros h h' i c [L G] H. destruct (at_exists h' i) as [c' Hc]; [rewrite L; eapply at_length; eauto|]. exists c'. split; auto.
    destruct (G i c' Hc) as (d & Hd & M). unfold at_ in *. congruence.
  Qed.
  Lemma lin_ext : forall sc h h', (forall i c, at_ h i c -> exists c', at_ h' i c' /\ k_group c' = k_group c /\ k_parent c' = k_parent c) ->
    forall i ks, lin sc h i ks -> lin sc h' i ks.
  Proof.
    intros sc h h' X i ks H. induction H as [i c A P G|i c p cp ks g A P Ap L IH G I].
    - destruct (X i c A) as (c' & A' & G' & P'). eapply ln_root; eauto; congruence.
    - destruct (X i c A) as (c' & A' & G' & P'). destruct (X p cp Ap) as (d & Ad & Gd & _). rewrite <- G'.
      eapply (ln_child _ _ i c' p d ks g); auto; congruence.
  Qed.
  Lemma full_grows : forall sc h h', grows h h' -> full sc h -> full sc h'.
  Proof.
    intros sc h h' G F i c H. pose proof G as [L G']. destruct (G' i c H) as (d & Hd & M1 & M2 & M3).
    destruct (F i d Hd) as (ks & g & F1 & F2 & F3 & F4). exists ks, g. rewrite M1. splits; auto; [|eapply incl_tran; eauto].
    eapply lin_ext; [|eauto]. intros j x Hx. destruct (grows_at _ _ _ _ G Hx) as (y & Hy & Q1 & Q2 & _). eauto.
  Qed.
  (** whatever a group above fixes is visible *)
  Lemma lin_visible : forall sc h, forest h -> full sc h -> forall i ks, lin sc h i ks ->
    forall k g x, In k ks -> dget (sc_groups sc) k = Some g -> In x (g_fixed g) -> exists v, lookup h i x = Some v.
  Proof.
    intros sc h Fo F i ks H. induction H as [i c A P G|i c p cp ks gp A P Ap L IH Gp I]; intros k g x Hk Hg Hx; rewrite (lookup_eq _ _ _ _ Fo A).
    - destruct Hk as [<-|[]]. destruct (F i c A) as (ks & g' & _ & _ & F3 & F4). rewrite G, Hg in F3. inversion F3; subst.
      apply F4, dget_In in Hx. destruct Hx as [v Hv]. rewrite Hv. eauto.
    - destruct (dget (k_locus c) x) as [v|] eqn:Q; eauto. rewrite P. destruct Hk as [<-|Hk]; [|eapply IH; eauto].
      exfalso. destruct (F i c A) as (ks' & g' & _ & _ & F3 & F4). rewrite Hg in F3. inversion F3; subst. apply F4, dget_In in Hx. destruct Hx as [v Hv]. congruence.
  Qed.

  (** ** generating *)

  Lemma generate_full : forall sc g k nick par exo h r i h' r', coherent (sc_bn sc) -> sorted (sc_bn sc) (g_fixed g) -> closed_groups sc -> evaluable (sc_bn sc) ->
    dget (sc_groups sc) k = Some g -> gives sc k exo ->
    (forall d, In d (g_exo g) -> In d (dkeys exo) \/ exists p v, par = Some p /\ lookup h p d = Some v) ->
    generate sc g nick par exo h r = (Ok i, h', r') ->
    exists c, h' = h ++ [c] /\ k_group c = g_name g /\ k_parent c = par /\ incl (g_fixed g) (dkeys (k_locus c)).
  Proof.
    intros sc g k nick par exo h r i h' r' C [S1 [S2 S3]] Cl Ev Hg Gv Vis G. unfold generate in G.
    destruct (gen_exo (sc_bn sc) h par (g_exo g) exo r) as [[vs|e] r1] eqn:E1; [|discriminate].
    destruct (gen_fixed (sc_bn sc) (g_fixed g) vs (lp_zero w) r1) as [[[vs' prior]|e] r2] eqn:E2; [|discriminate].
    inversion G; subst. clear G. eexists. splits; try reflexivity. cbn [k_locus].
    pose proof (gen_exo_ok _ _ _ _ _ _ _ _ Vis E1) as X. destruct (gen_fixed_ok _ C _ _ _ _ _ _ _ S1 S3 E2) as [Y1 [Y2 Y3]].
    assert (Xe : forall p, In p (g_exo g) -> dget vs' p <> None).
    { intros p Hp Q. specialize (X p). assert (Z : exists v, dget vs p = Some v).
      { rewrite X. destruct (Vis p Hp) as [H|(q & v & -> & Hv)].
        - apply dget_In in H. destruct H as [v Hv]. rewrite Hv. eauto.
        - destruct (dget exo p); eauto. rewrite (proj2 (mem_In _ _) Hp). eauto. }
      destruct Z as [v Hv]. apply Y1 in Hv. congruence. }
    assert (Z : forall l1 l2, g_fixed g = l1 ++ l2 -> forall n, In n l1 -> dget vs' n <> None).
    { induction l1 as [|x l1 IH] using rev_ind; intros l2 Eq n Hn; [destruct Hn|]. rewrite <- app_assoc in Eq. cbn in Eq.
      apply in_app_or in Hn. destruct Hn as [Hn|[<-|[]]]; [eapply IH; eauto|].
      assert (Hx : In x (g_fixed g)) by (rewrite Eq; apply in_or_app; right; left; auto).
      destruct (In_dec_name x (dkeys vs)) as [Hv|Hv].
      { apply dget_In in Hv. destruct Hv as [v Hv]. apply Y1 in Hv. congruence. }
      specialize (Y3 x Hx Hv). intros Q. rewrite Q in Y3. destruct Y3 as (l & Hl & Hr).
      destruct (is_exo_l l) eqn:Xl.
      { apply Hv. pose proof (Gv g x l Hg Hx Hl Xl) as H. apply dget_In in H. destruct H as [v H]. apply dget_In. exists v. rewrite X, H. auto. }
      apply (Ev x l (dget vs') r1 Hl Xl); auto. intros p Hp. apply (co_parents _ C _ _ Hl) in Hp.
      destruct (Cl k g x p Hg Hx Hp) as [Hf|He]; auto. eapply IH; [exact Eq|].
      assert (Np : p <> x) by (intros ->; apply (co_acyclic _ C x); constructor; auto).
      pose proof (S3 p x Hp Hf Hx) as B. destruct B as (m1 & m2 & m3 & B). rewrite B in Eq, S1. clear - Eq S1 Np.
      assert (Eq2 : (m1 ++ p :: m2) ++ x :: m3 = l1 ++ x :: l2) by (rewrite <- app_assoc; exact Eq).
      assert (D : NoDup ((m1 ++ p :: m2) ++ x :: m3)) by (rewrite <- app_assoc; exact S1).
      revert Eq2 D. generalize (m1 ++ p :: m2) (in_elt p m1 m2). clear. intros m Hp Eq D. revert l1 Eq Hp D.
      induction m as [|y m IH]; intros l1 Eq Hp D; [destruct Hp|]. destruct l1 as [|z l1].
      - cbn in Eq. inversion Eq; subst. inversion D; subst. exfalso. apply H1. apply in_elt.
      - cbn in Eq. inversion Eq; subst. destruct Hp as [->|Hp]; [left; auto|right]. inversion D; subst. eapply IH; eauto. }
    intros n Hn. rewrite dkeys_dupdate_In, dkeys_dfilter, filter_In, mem_In. left. split; auto.
    specialize (Z (g_fixed g) [] ltac:(rewrite app_nil_r; auto) n Hn). destruct (dget vs' n) as [v|] eqn:Q; [|congruence]. apply dget_In. eauto.
  Qed.

  Lemma lin_app : forall sc h c i ks, lin sc h i ks -> lin sc (h ++ [c]) i ks.
  Proof. intros sc h c. apply lin_ext. intros i x Hx. exists x. splits; auto. apply at_app; auto. Qed.

  Lemma full_app : forall sc h c g ks, full sc h -> lin sc (h ++ [c]) (length h) ks -> line sc (k_group c) ks ->
    dget (sc_groups sc) (k_group c) = Some g -> incl (g_fixed g) (dkeys (k_locus c)) -> full sc (h ++ [c]).
  Proof.
    intros sc h c g ks F L1 L2 G I i d H. apply at_app_inv in H. destruct H as [H|[-> ->]].
    - destruct (F i d H) as (ks' & g' & A & B & D & E). exists ks', g'. splits; auto. apply lin_app; auto.
    - exists ks, g. auto.
  Qed.

  Definition named sc : Prop := forall k g, dget (sc_groups sc) k = Some g -> g_name g = k.

  Section Grown.
    Context (sc : simcore w) (C : coherent (sc_bn sc)) (Sg : groups_sorted sc) (Nm : named sc)
            (Cl : closed_groups sc) (Su : supplied sc) (Ev : evaluable (sc_bn sc)).

    Lemma root_full : forall h nick exo r g o h' r', full sc h -> dget (sc_groups sc) (sc_root sc) = Some g -> gives sc (sc_root sc) exo ->
      generate sc g nick None exo h r = (o, h', r') -> full sc h'.
    Proof.
      intros h nick exo r g o h' r' F Hg Gv G. destruct o as [i|e]; [|apply generate_cases in G; subst; auto].
      destruct (generate_full sc g (sc_root sc) nick None exo h r i h' r' C (Sg _ _ Hg) Cl Ev Hg Gv) as (c & -> & H1 & H2 & H3); auto.
      { intros d Hd. destruct (Su _ [] g d (li_root sc) Hg Hd) as (k' & _ & [] & _). }
      rewrite (Nm _ _ Hg) in H1. eapply full_app; eauto; rewrite ?H1; [|apply li_root|exact Hg].
      eapply ln_root; [apply at_app_last|auto|auto].
    Qed.
    Lemma sg_breed_full : forall h i nick k exo r o h' r', forest h -> full sc h -> gives sc k exo -> sg_breed sc i nick k exo h r = (o, h', r') -> full sc h'.
    Proof.
      intros h i nick k exo r o h' r' Fo F Gv G. destruct o as [j|e]; [|apply sg_breed_cases in G; subst; auto].
      unfold sg_breed, group_of in G. destruct (nth_error h i) as [ci|] eqn:E; [|discriminate].
      destruct (dget (sc_groups sc) (k_group ci)) as [gi|] eqn:Ei; [|discriminate].
      destruct (negb (mem k (g_children gi))) eqn:Ec; [discriminate|]. apply Bool.negb_false_iff, mem_In in Ec.
      destruct (dget (sc_groups sc) k) as [g|] eqn:Eg; [|discriminate].
      destruct (F i ci E) as (ks & g' & L1 & L2 & _ & _).
      pose proof (li_child sc _ _ _ _ L2 Ei Ec) as L3.
      destruct (generate_full sc g k nick (Some i) exo h r j h' r' C (Sg _ _ Eg) Cl Ev Eg Gv) as (c & -> & H1 & H2 & H3); auto.
      { intros d Hd. right. destruct (Su k ks g d L3 Eg Hd) as (k' & g2 & Q1 & Q2 & Q3).
        destruct (lin_visible sc h Fo F i ks L1 k' g2 d Q1 Q2 Q3) as [v Hv]. eauto. }
      rewrite (Nm _ _ Eg) in H1. eapply full_app; eauto; rewrite ?H1; [|exact L3|exact Eg].
      rewrite <- H1. eapply ln_child; [apply at_app_last|exact H2|apply at_app; exact E|apply lin_app; exact L1|exact Ei|rewrite H1; auto].
    Qed.
    Lemma breed_full : forall h i nick k exo r o h' r', forest h -> full sc h -> gives sc k exo -> breed sc i nick k exo h r = (o, h', r') -> full sc h'.
    Proof.
      intros h i nick k exo r o h' r' Fo F Gv G. unfold breed in G. destruct (nth_error h i) as [c|]; [|inversion G; subst; auto].
      destruct (dmem nick (k_children c)); [inversion G; subst; auto|].
      destruct (sg_breed sc i nick k exo h r) as [[[j|e] h1] r1] eqn:E; inversion G; subst; (apply sg_breed_full in E; [|auto..]); auto.
      eapply full_grows; [|exact E]. apply grows_kupd. intros d. more_auto.
    Qed.

    Lemma grown_full : forall h, grown sc h -> full sc h.
    Proof.
      intros h H. induction H.
      - intros i c Hc. unfold at_ in Hc. destruct i; discriminate.
      - unfold sc_generate in H1. destruct (dget (sc_groups sc) (sc_root sc)) as [g|] eqn:E; [eapply root_full; eauto|inversion H1; subst; auto].
      - eapply breed_full; eauto. apply (history_forest sc), grown_history; auto.
      - unfold get_sibling in H1. destruct (nth_error h i) as [c|] eqn:E; [|inversion H1; subst; auto].
        destruct (k_parent c); [|inversion H1; subst; auto]. eapply breed_full; eauto. apply (history_forest sc), grown_history; auto.
      - unfold get_prototype in H1. eapply sg_breed_full; eauto. apply (history_forest sc), grown_history; auto.
      - eapply full_grows; [|eauto]. apply grows_kupd. intros d. more_auto.
      - unfold detach in H0. destruct (nth_error h i) as [c|]; [|inversion H0; subst; auto].
        destruct (k_parent c) as [p|]; [|inversion H0; subst; auto]. inversion H0; subst. eapply full_grows; [|eauto].
        eapply grows_trans; [|apply grows_fold]. apply grows_kupd. intros d. more_auto.
      - unfold clone_core in H0. destruct (nth_error h i) as [c|] eqn:E; [|inversion H0; subst; auto].
        destruct (k_parent c) eqn:P; [inversion H0; subst; auto|]. destruct (group_of sc h i) as [g|] eqn:Eg; [|inversion H0; subst; auto].
        unfold group_of in Eg. rewrite E in Eg. destruct (IHgrown i c E) as (ks & g' & L1 & _ & F3 & F4). rewrite Eg in F3. inversion F3; subst g'.
        assert (Gr : k_group c = sc_root sc).
        { inversion L1 as [i0 c0 A B D|i0 c0 p0 cp ks0 g0 A B]; subst; unfold at_ in A; rewrite E in A; inversion A; subst; auto. congruence. }
        destruct (generate sc g (k_nick c) None (k_locus c) h r) as [[o1 h1] r1] eqn:G. apply root_full in G; auto.
        + destruct o1; inversion H0; subst; auto.
        + congruence.
        + intros g0 n l Hg0 Hn _ _. rewrite <- Gr, Eg in Hg0. inversion Hg0; subst. auto.
      - eapply full_grows; [apply grows_kset|auto].
      - eapply full_grows; [eapply grows_actors; eauto|auto].
      - eapply full_grows; [eapply grows_sampler; eauto|auto].
      - unfold impulse_core in H0. destruct (downstream _ _); [|inversion H0; subst; auto]. eapply full_grows; [eapply grows_respond; eauto|auto].
      - unfold impulse_list in H0. destruct (downstream _ _); [|inversion H0; subst; auto]. eapply full_grows; [eapply grows_respond; eauto|auto].
    Qed.
  End Grown.

  Lemma groups_named : forall t (d : dict group), (forall k g, dget d k = Some g -> g_name g = k) ->
    forall k g, dget (groups_from t d) k = Some g -> g_name g = k.
  Proof.
    induction t as [a sh ks IH] using stree_ind'. intros d D k g H. rewrite groups_from_eq in H.
    assert (G : forall l e, Forall (fun t => forall d : dict group, (forall k g, dget d k = Some g -> g_name g = k) -> forall k g, dget (groups_from t d) k = Some g -> g_name g = k) l ->
      (forall k g, dget e k = Some g -> g_name g = k) -> forall k g, dget (fold_left (fun d k => groups_from k d) l e) k = Some g -> g_name g = k).
    { induction l as [|x l IHl]; intros e Hl He k0 g0 H0; cbn [fold_left] in H0; eauto. inversion Hl; subst. eapply IHl; [auto| |exact H0]. eauto. }
    eapply G; [exact IH| |exact H]. intros k0 g0 H0. rewrite dget_dset in H0. destruct (String.eqb_spec k0 (a_name a)) as [->|]; eauto.
    inversion H0; subst. reflexivity.
  Qed.
End Supply.

(** Missing: the groups must be closed and supplied; what inject_bn makes of a request need not be,
    see the refutations below. *)
Theorem C90_complete_partial : forall w (b : bn w) t sc h i c, built b -> as_simulation_core b t = Ok sc ->
  closed_groups sc -> supplied sc -> evaluable b -> grown sc h -> at_ h i c ->
  exists g, dget (sc_groups sc) (k_group c) = Some g
    /\ (forall n, In n (g_fixed g) -> exists v, dget (k_locus c) n = Some v)
    /\ forall k g' x, In k (g_children g) -> dget (sc_groups sc) k = Some g' -> In x (g_exo g') -> exists v, nearest h i x v.
Proof.
  intros w b t sc h i c B E Cl Su Ev Gr At. destruct (C46_blueprints w b t sc B E) as (Eb & Sg & _).
  destruct (built_coherent _ B) as [C F]. assert (Nm : named sc).
  { unfold as_simulation_core in E. destruct (inject b _) as [s|]; cbn [bind] in E; [|discriminate]. inversion E; subst. intros k g H. cbn [sc_groups] in H.
    eapply groups_named; [|exact H]. intros k1 g1 H1. discriminate H1. }
  assert (Fu : full sc h) by (apply grown_full; auto; rewrite Eb; auto).
  pose proof (history_forest sc h (grown_history sc h Gr)) as Fo.
  destruct (Fu i c At) as (ks & g & L1 & L2 & G & I). exists g. splits; auto.
  - intros n Hn. apply dget_In. auto.
  - intros k g' x Hk Hg Hx. pose proof (li_child sc _ _ _ _ L2 G Hk) as L3. destruct (Su k ks g' x L3 Hg Hx) as (k' & g2 & Q1 & Q2 & Q3).
    destruct (lin_visible sc h Fo Fu i ks L1 k' g2 x Q1 Q2 Q3) as [v Hv]. exists v. apply lookup_nearest; auto.
Qed.
Print Assumptions C90_complete_partial.

(** ** the default core, everything floating and everything fixed *)

(** a single node set that is asked to float at least all leaves: exactly the deterministic nodes are fixed *)
Lemma float_deterministic : forall w (b : bn w) nm aflo s, coherent b -> fresh b -> inject b (NSet nm [] aflo []) = Ok s ->
  incl (leaves (dag b)) aflo -> (forall n l, holds b n l -> is_pseudo_l l = false) ->
  (forall x, In x (a_fixed (s_alloc s)) -> deterministic b x) /\ (forall x, In x (a_float (s_alloc s)) -> ~ deterministic b x).
Proof.
  intros w b nm aflo s C F E Lv Np. assert (V : valid_request b (NSet nm [] aflo [])) by (apply inject_iff; eauto).
  assert (K : forall x, In x aflo -> node b x) by (intros x Hx; apply (V nm [] aflo (ask_here _ _ _ _)); auto).
  destruct (inject_known b _ s C F E) as (t1 & t2 & was & hs & t3 & t4 & E1 & E2 & E3 & E4 & E5 & K1 & K2 & K3 & K4).
  rewrite resolve_local_eq in E1. destruct (local_one b true nm [] [] aflo) as [[a al]|] eqn:El; cbn [bind mapM fst snd] in E1; [|discriminate]. inversion E1; subst. clear E1.
  destruct (local_float b nm aflo a al C F K El) as (D1 & D2 & D3 & D4).
  rewrite raise_up_eq in E2. cbn [map fold_left] in E2. rewrite relate_eq in E2.
  destruct (relate_one b true [] (set_will a [])) as [[a1 h1]|] eqn:Er; cbn [bind relate_kids fst snd] in E2; [|discriminate]. inversion E2; subst. clear E2.
  destruct (relate_root _ _ _ _ Er) as (given & R1 & R2 & R3 & R4). cbn in R1, R2, R3, R4.
  assert (Y : forall x, node b x -> In x (a_fixed a1) \/ In x (a_float a1)).
  { intros x Nx. rewrite R1, R2. destruct (D4 Lv Np x Nx) as [H|[H|[H|[H1 H2]]]]; auto. destruct (R3 x H1 H2) as [[|] Q]; auto 10. }
  assert (W : forall x, In x (a_fixed a1) -> deterministic b x).
  { intros x Hx. apply R1 in Hx. destruct Hx as [Hx|[Hx|(_ & _ & Hr)]]; [apply D1; auto|apply D1; auto|].
    pose proof (hr_node _ _ _ _ Hr) as Nx. destruct (hr_spec b x given C Nx) as [r [Er' [_ Q]]]. rewrite Hr in Er'. inversion Er'; subst. apply Q; auto. }
  assert (Z : forall x, In x (a_float a1) -> ~ deterministic b x).
  { intros x Hx. apply R2 in Hx. destruct Hx as [Hx|(_ & _ & Hr)]; [apply D2; auto|].
    pose proof (hr_node _ _ _ _ Hr) as Nx. destruct (hr_spec b x given C Nx) as [r [Er' [Q _]]]. rewrite Hr in Er'. inversion Er'; subst. auto. }
  unfold locate_undefined in E3. destruct (Order_ok b C F) as [od [Eo [[Do Io] _]]]. rewrite Eo in E3. cbn [bind] in E3. rewrite pass_down_eq in E3. cbv zeta in E3.
  match type of E3 with context[foldM ?f ?ns ?s0] => assert (Nil : ns = []) end.
  { apply nil_of. intros x Hx. apply diff_In in Hx. destruct Hx as [Hx Hc]. apply Hc. cbn. apply union_In. apply Y. apply Io. auto. }
  rewrite Nil in E3. cbn [foldM bind mapM] in E3. inversion E3; subst. clear E3.
  rewrite define_samplers_eq in E4. cbn [mapM] in E4. destruct (samplers_one b _) as [a4|] eqn:Es; cbn [bind] in E4; [|discriminate]. inversion E4; subst. clear E4.
  apply (samplers_one_ok b _ _ C) in Es. destruct Es as [(l & s0 & -> & _) _].
  rewrite sort_fixed_eq in E5. cbn [a_fixed set_samplers set_nodes set_relation mapM] in E5. destruct (bn_sort_ok b (a_fixed a1) C F) as [fx' [Eb [_ Sb]]]. rewrite Eb in E5. cbn [bind] in E5. inversion E5; subst.
  cbn. split; auto. intros x Hx. apply W. apply Sb in Hx. tauto.
Qed.

Lemma inject_single : forall w (b : bn w) nm fx fl s, built b -> inject b (NSet nm fx fl []) = Ok s -> s_kids s = [].
Proof.
  intros w b nm fx fl s B E. destruct (C49_requested w b _ s B E) as [Q _].
  assert (Rs : length (allocs s) = 1) by (inversion Q as [|q a l1 l2 _ Q2 Eq]; subst; inversion Q2; subst; reflexivity).
  destruct s as [a sh ks]. rewrite allocs_eq in Rs. cbn in Rs |- *. destruct ks as [|k ks]; auto. exfalso.
  destruct k as [a1 sh1 ks1]. cbn [flat_map] in Rs. rewrite allocs_eq in Rs. cbn in Rs. lia.
Qed.

Lemma line_alone : forall w (sc : simcore w) g, sc_groups sc = [(sc_root sc, g)] -> g_children g = [] -> forall k ks, line sc k ks -> ks = [sc_root sc].
Proof.
  intros w sc g E Ch k ks H. induction H as [|k ks g' c H IH G I]; auto. rewrite E in G. cbn in G. destruct (String.eqb k (sc_root sc)); inversion G; subst. rewrite Ch in I. destruct I.
Qed.
Lemma single_closed : forall w (sc : simcore w) g, sc_groups sc = [(sc_root sc, g)] -> g_children g = [] -> g_exo g = [] ->
  (forall n p, In n (g_fixed g) -> edge (dag (sc_bn sc)) p n -> In p (g_fixed g)) -> closed_groups sc /\ supplied sc.
Proof.
  intros w sc g E Ch Ex Cl. assert (X : forall k g', dget (sc_groups sc) k = Some g' -> g' = g).
  { intros k g' H. rewrite E in H. cbn in H. destruct (String.eqb k (sc_root sc)); inversion H; auto. }
  split.
  - intros k g' n p H Hn He. rewrite (X _ _ H) in *. left. eauto.
  - intros k ks g' x _ H Hx. rewrite (X _ _ H), Ex in Hx. destruct Hx.
Qed.

(** The core made without a node set, and those in which everything floats or is fixed: in a network
    without pseudo nodes they are closed and supplied, so every core holds what its group fixes. *)
Theorem C90_default : forall w (b : bn w) sc h i c, built b -> (forall n l, holds b n l -> is_pseudo_l l = false) ->
  as_simulation_core b None = Ok sc \/ all_float_sc b = Ok sc \/ all_fixed_sc b = Ok sc ->
  evaluable b -> grown sc h -> at_ h i c ->
  exists g, dget (sc_groups sc) (k_group c) = Some g /\ forall n, In n (g_fixed g) -> exists v, dget (k_locus c) n = Some v.
Proof.
  intros w b sc h i c B Np E Ev Gr At. destruct (built_coherent _ B) as [C F].
  assert (X : exists t, as_simulation_core b t = Ok sc /\ closed_groups sc /\ supplied sc).
  { assert (Fl : forall nm fl s, inject b (NSet nm [] fl []) = Ok s -> incl (leaves (dag b)) fl ->
       let sc := mkSC b (a_name (s_alloc s)) (groups_from s []) in closed_groups sc /\ supplied sc).
    { intros nm fl s Ei Lv. destruct (C49_requested w b _ s B Ei) as [_ Ex]. pose proof (inject_single w b nm [] fl s B Ei) as Ks.
      destruct (float_deterministic w b nm fl s C F Ei Lv Np) as [P1 P2]. destruct (C49_partition_partial w b nm fl s B Ei) as [_ P3]. specialize (P3 Lv Np).
      destruct s as [a sh ks]. cbn [s_kids s_alloc] in *. subst ks. cbv zeta. eapply single_closed; cbn; try reflexivity; auto.
      intros n p Hn He. apply P1 in Hn. assert (Pp : path (dag b) p n) by (constructor; auto).
      assert (Dp : deterministic b p) by (eapply deterministic_up; eauto).
      assert (Np' : node b p) by (apply node_gnodes; eapply (wf_src _ (co_wf _ C)); eauto).
      apply P3 in Np'. destruct Np' as [Q|Q]; auto. exfalso. apply (P2 p Q). auto. }
    destruct E as [E|[E|E]].
    - exists None. split; auto. unfold as_simulation_core in E. destruct (inject b _) as [s|] eqn:Ei; cbn [bind] in E; [|discriminate]. inversion E; subst sc. eapply Fl; eauto. apply incl_refl.
    - unfold all_float_sc in E. destruct (Order_ok b C F) as [od [Eo [[Do Io] _]]]. rewrite Eo in E. cbn [bind] in E. exists (Some (NSet "Root" [] od [])). split; auto.
      unfold as_simulation_core in E. destruct (inject b _) as [s|] eqn:Ei; cbn [bind] in E; [|discriminate]. inversion E; subst sc. eapply Fl; eauto.
      intros x Hx. apply Io. apply node_gnodes. apply (proj2 (leaves_spec _ (co_wf _ C))) in Hx. tauto.
    - destruct (all_fixed_group w b sc B E) as (od & g & Eb & Eg & [[Do Io] To] & Fx & Ex).
      destruct (C48_allocation w b B) as (od2 & g2 & sc2 & E2 & _ & Eg2 & _ & _ & _ & _ & _ & Ch). rewrite E in E2. inversion E2; subst sc2. rewrite Eg in Eg2. inversion Eg2; subst g2.
      unfold all_fixed_sc in E. destruct (Order b) as [od'|]; cbn [bind] in E; [|discriminate]. exists (Some (NSet "Root" od' [] [])). split; auto.
      eapply single_closed; eauto. rewrite Eb, Fx. intros n p Hn He. apply Io. apply node_gnodes. eapply (wf_src _ (co_wf _ C)); eauto. }
  destruct X as (t & Et & Cl & Su). destruct (C90_complete_partial w b t sc h i c B Et Cl Su Ev Gr At) as (g & H1 & H2 & _). eauto.
Qed.
Print Assumptions C90_default.

(** ** witnesses *)

(** Some core made from [t] lacks the node [n], which its group fixes. *)
Definition lacking {w} (b : bn w) (t : nset) (n : name) : Prop :=
  exists sc h i c g, as_simulation_core b (Some t) = Ok sc /\ grown sc h /\ at_ h i c
    /\ dget (sc_groups sc) (k_group c) = Some g /\ In n (g_fixed g) /\ ~ In n (dkeys (k_locus c)).

(** a root core, then offspring of offspring in the groups [ks] *)
Fixpoint chain {w} (sc : simcore w) (ks : list name) (i : nat) (h : cores w) (r : RNG w) : option (cores w * nat) :=
  match ks with
  | [] => Some (h, i)
  | k :: ks' => match breed sc i k k [] h r with (Ok j, h', r') => chain sc ks' j h' r' | _ => None end
  end.
Definition chained {w} (sc : simcore w) (exo : dict (V w)) (ks : list name) (r : RNG w) : option (cores w * nat) :=
  match sc_generate sc "r" exo [] r with (Ok i, h, r') => chain sc ks i h r' | _ => None end.
Definition lacks {w} (b : bn w) (t : nset) (ks : list name) (n : name) (r : RNG w) : bool :=
  match as_simulation_core b (Some t) with
  | Ok sc => match chained sc [] ks r with
             | Some (h, j) => match nth_error h j with
                              | Some c => match dget (sc_groups sc) (k_group c) with
                                          | Some g => mem n (g_fixed g) && negb (dmem n (k_locus c))
                                          | None => false
                                          end
                              | None => false
                              end
             | None => false
             end
  | Err _ => false
  end.
Lemma chain_grown : forall w (sc : simcore w) ks i h r h' j, (forall k, In k ks -> gives sc k []) -> grown sc h -> chain sc ks i h r = Some (h', j) -> grown sc h'.
Proof.
  intros w sc. induction ks as [|k ks IH]; intros i h r h' j G Gr H; cbn [chain] in H; [inversion H; subst; auto|].
  destruct (breed sc i k k [] h r) as [[[m|e] h1] r1] eqn:E; [|discriminate]. eapply IH; [| |exact H]; [intros k0 Hk; apply G; right; auto|].
  eapply gw_breed; [exact Gr|apply G; left; auto|exact E].
Qed.
Lemma chained_grown : forall w (sc : simcore w) exo ks r h j, gives sc (sc_root sc) exo -> (forall k, In k ks -> gives sc k []) -> chained sc exo ks r = Some (h, j) -> grown sc h.
Proof.
  intros w sc exo ks r h j Gv G H. unfold chained in H. destruct (sc_generate sc "r" exo [] r) as [[[i|e] h1] r1] eqn:E; [|discriminate].
  eapply chain_grown; [exact G| |exact H]. eapply gw_root; [apply gw_none|exact Gv|exact E].
Qed.
Lemma lacks_lacking : forall w (b : bn w) t ks n r, (forall x l, holds b x l -> is_exo_l l = false) -> built b -> lacks b t ks n r = true -> lacking b t n.
Proof.
  intros w b t ks n r Nx B H. unfold lacks in H. destruct (as_simulation_core b (Some t)) as [sc|] eqn:E; [|discriminate].
  destruct (chained sc [] ks r) as [[h j]|] eqn:Ec; [|discriminate]. destruct (nth_error h j) as [c|] eqn:Ej; [|discriminate].
  destruct (dget (sc_groups sc) (k_group c)) as [g|] eqn:Eg; [|discriminate]. apply andb_prop in H. destruct H as [H1 H2].
  assert (Gv : forall k, gives sc k []).
  { intros k g0 m l _ _ Hl Xl. destruct (C46_blueprints w b (Some t) sc B E) as (Eb & _). rewrite Eb in Hl. rewrite (Nx _ _ Hl) in Xl. discriminate. }
  exists sc, h, j, c, g. splits; auto.
  - eapply chained_grown; eauto.
  - apply mem_In; auto.
  - intros Q. apply dmem_In in Q. rewrite Q in H2. discriminate.
Qed.

(** for the examples: distributions, values, copies of a parent and operations on two parents *)
Definition plain (l : loci exw) : bool :=
  match l with
  | LFunc _ (EName x) ps => mem x ps
  | LFunc _ (EOp _ [EName x; EName y]) ps => mem x ps && mem y ps
  | LFunc _ _ _ => false
  | _ => true
  end.
Lemma plain_evaluable : forall b : bn exw, forallb (fun p => plain (a_loci (snd p))) (b_attrs b) = true -> evaluable b.
Proof.
  intros b H n l d q Hl X K E. apply bget_holds in Hl. unfold bget in Hl. destruct (dget (b_attrs b) n) as [a|] eqn:Ea; [|discriminate].
  inversion Hl; subst l. clear Hl. rewrite forallb_forall in H. specialize (H _ (dget_in_pair _ _ _ Ea)). cbn [snd] in H.
  destruct (a_loci a) as [m v|m|m f ps|m e ps|m ps]; cbn [render plain is_exo_l loci_parents] in *; try discriminate.
  - unfold get_distribution in E. destruct (parse_distribution f d) as [D|[]]; simpl in E; discriminate.
  - destruct (restrict_ok d ps K) as [dd [Ed Hd]]. rewrite Ed in E. unfold execute in E.
    assert (L : forall x, mem x ps = true -> exists v, ModelExpr.lookup (w_math exw) (dget dd) x = Ok v).
    { intros x Hx. unfold ModelExpr.lookup. rewrite Hd, Hx. destruct (d x) as [v|] eqn:Q; eauto. exfalso. apply (K x); auto. apply mem_In; auto. }
    destruct e as [s|s|x|op args|f args kws]; try discriminate.
    + destruct (L x H) as [v Hv]. cbn [eval] in E. rewrite Hv in E. discriminate.
    + destruct args as [|[| |x| |] [|[| |y| |] [|]]]; try discriminate. apply andb_prop in H. destruct H as [H1 H2].
      destruct (L x H1) as [v Hv]. destruct (L y H2) as [u Hu]. cbn [eval] in E. rewrite Hv, Hu in E. cbn [bind] in E.
      change (w_op exw op [v; u]) with (ex_op op [v; u]) in E. unfold ex_op in E. destruct v; try discriminate. destruct u; try discriminate.
      repeat match type of E with context[if ?c then _ else _] => destruct c end; discriminate.
Qed.
Lemma no_exo : forall w (b : bn w), forallb (fun p => negb (is_exo_l (a_loci (snd p)))) (b_attrs b) = true -> forall x l, holds b x l -> is_exo_l l = false.
Proof.
  intros w b H x l Hl. apply bget_holds in Hl. unfold bget in Hl. destruct (dget (b_attrs b) x) as [a|] eqn:Ea; [|discriminate].
  inversion Hl; subst l. rewrite forallb_forall in H. specialize (H _ (dget_in_pair _ _ _ Ea)). cbn [snd] in H. destruct (is_exo_l _); auto; discriminate.
Qed.

(** A single node set asked to fix u and n, where m = u + q and n = m: m is put among the fixed
    nodes, its random parent q floats. *)
Definition exlone : bn exw := defs (bn_new "n") [LDist (w:=exw) "u" (ECall "norm" [] []) []; LDist "q" (ECall "norm" [] []) [];
  LFunc "m" (EOp "+" [EName "u"; EName "q"]) ["u"; "q"]; LFunc "n" (EName "m") ["m"]].
Lemma exlone_built : built exlone.
Proof. unfold exlone. apply defs_built; [constructor|vm_compute; reflexivity]. Qed.
Theorem C90_single_refuted : exists w (b : bn w) nm fx n, built b /\ evaluable b /\ In n fx /\ lacking b (NSet nm fx [] []) n.
Proof.
  exists exw, exlone, "root", ["u"; "n"], "n". splits.
  - exact exlone_built.
  - apply plain_evaluable. vm_compute. reflexivity.
  - right. left. reflexivity.
  - apply (lacks_lacking exw exlone _ [] "n" 0); [apply no_exo; vm_compute; reflexivity|exact exlone_built|]. vm_compute. reflexivity.
Qed.
Print Assumptions C90_single_refuted.

Lemma all_fixed_bn : forall w (b : bn w) sc, built b -> all_fixed_sc b = Ok sc -> sc_bn sc = b.
Proof.
  intros w b sc B E. unfold all_fixed_sc in E. destruct (Order b) as [od|]; cbn [bind] in E; [|discriminate E].
  destruct (C46_blueprints w b _ sc B E) as (Eb & _). exact Eb.
Qed.
Example C90_default_example : built exlone /\ evaluable exlone /\ (forall n l, holds exlone n l -> is_pseudo_l l = false)
  /\ exists sc h c, all_fixed_sc exlone = Ok sc /\ grown sc h /\ at_ h 0 c /\ List.length (k_locus c) = 4.
Proof.
  splits; [exact exlone_built|apply plain_evaluable; vm_compute; reflexivity| |].
  - intros n l H. apply bget_holds in H. unfold bget in H. destruct (dget (b_attrs exlone) n) as [x|] eqn:Ex; [|discriminate H]. inversion H; subst l.
    assert (Q : forallb (fun p => negb (is_pseudo_l (a_loci (snd p)))) (b_attrs exlone) = true) by (vm_compute; reflexivity).
    rewrite forallb_forall in Q. specialize (Q _ (dget_in_pair _ _ _ Ex)). cbn [snd] in Q. destruct (is_pseudo_l _); auto; discriminate Q.
  - assert (X : match all_fixed_sc exlone with
                | Ok sc => match chained sc [] [] 0 with
                           | Some (h, j) => option_map (fun c => List.length (k_locus c)) (nth_error h 0) | None => None end
                | Err _ => None end = Some 4) by (vm_compute; reflexivity).
    destruct (all_fixed_sc exlone) as [sc|] eqn:E; [|discriminate X].
    match type of X with (match ?m with _ => _ end) = _ => destruct m as [[h j]|] eqn:Ec; [|discriminate X] end.
    match type of X with option_map _ ?m = _ => destruct m as [c|] eqn:En; cbn [option_map] in X; [|discriminate X] end.
    injection X as X. exists sc, h, c. splits; [reflexivity| |exact En|exact X].
    pose proof (all_fixed_bn exw exlone sc exlone_built E) as Eb.
    eapply (chained_grown exw sc [] [] 0 h j); [| |exact Ec]; [|intros k []].
    intros g n l _ _ Hl Xl. rewrite Eb in Hl. rewrite (no_exo exw exlone) with (x := n) in Xl; [discriminate Xl|vm_compute; reflexivity|exact Hl].
Qed.

(** Nothing random at all (a = 1, d = a, x = d, y = d): d, needed in g1, is hoisted to c1, which does
    not take its parent a from the root. *)
Theorem C90_hoist_refuted : exists w (b : bn w) t n, built b /\ evaluable b /\ (forall x, ~ random b x) /\ lacking b t n.
Proof.
  exists exw, exhoist, (NSet "root" ["a"] [] [NSet "c1" [] [] [NSet "g1" ["x"] [] []]]), "d". splits.
  - exact exhoist_built.
  - apply plain_evaluable. vm_compute. reflexivity.
  - intros x [l [H R]]. apply bget_holds in H. unfold bget in H. destruct (dget (b_attrs exhoist) x) as [a|] eqn:Ea; [|discriminate].
    inversion H; subst l. assert (Q : forallb (fun p => negb (is_rv_l (a_loci (snd p)))) (b_attrs exhoist) = true) by (vm_compute; reflexivity).
    rewrite forallb_forall in Q. specialize (Q _ (dget_in_pair _ _ _ Ea)). cbn [snd] in Q. rewrite R in Q. discriminate.
  - apply (lacks_lacking exw exhoist _ ["c1"] "d" 0); [apply no_exo; vm_compute; reflexivity|exact exhoist_built|]. vm_compute. reflexivity.
Qed.
Print Assumptions C90_hoist_refuted.

(** z = a + x is asked for nowhere; it is passed down to c, which fixes x but does not take a from
    the root. *)
Definition exdown : bn exw := defs (bn_new "n") [LValue (w:=exw) "a" (PZ 1%Z); LDist "x" (ECall "norm" [] []) [];
  LFunc "z" (EOp "+" [EName "a"; EName "x"]) ["a"; "x"]].
Lemma exdown_built : built exdown.
Proof. unfold exdown. apply defs_built; [constructor|vm_compute; reflexivity]. Qed.
Theorem C90_undefined_refuted : exists w (b : bn w) t n, built b /\ evaluable b
  /\ (forall nm fx fl, asks t nm fx fl -> ~ In n fx /\ ~ In n fl) /\ (forall nm fx fl, asks t nm fx fl -> forall x, In x fx \/ In x fl -> ~ path (dag b) n x)
  /\ lacking b t n.
Proof.
  exists exw, exdown, (NSet "root" ["a"] [] [NSet "c" ["x"] [] []]), "z". splits.
  - exact exdown_built.
  - apply plain_evaluable. vm_compute. reflexivity.
  - intros nm fx fl A. apply asks_requests in A. cbn in A. destruct A as [A|[A|[]]]; inversion A; subst; split; cbn; intuition discriminate.
  - intros nm fx fl A x _ P. clear - P. assert (E : forall y, ~ edge (dag exdown) "z" y).
    { intros y Q. assert (Ed : gedges (dag exdown) = [("a", "z"); ("x", "z")]) by (vm_compute; reflexivity). unfold edge in Q. rewrite Ed in Q.
      destruct Q as [Q|[Q|[]]]; discriminate. }
    inversion P; subst; eapply E; eauto.
  - apply (lacks_lacking exw exdown _ ["c"] "z" 0); [apply no_exo; vm_compute; reflexivity|exact exdown_built|]. vm_compute. reflexivity.
Qed.
Print Assumptions C90_undefined_refuted.

(** y, floating in c, depends on d = a: d becomes fixed in c, which does not take a from the root. *)
Definition exlisten : bn exw := defs (bn_new "n") [LDist (w:=exw) "a" (ECall "norm" [] []) []; LFunc "d" (EName "a") ["a"];
  LDist "y" (ECall "norm" [EName "d"] []) ["d"]].
Lemma exlisten_built : built exlisten.
Proof. unfold exlisten. apply defs_built; [constructor|vm_compute; reflexivity]. Qed.
Theorem C90_floating_refuted : exists w (b : bn w) nm fx nm2 fl n y, built b /\ evaluable b /\ In y fl /\ edge (dag b) n y
  /\ lacking b (NSet nm fx [] [NSet nm2 [] fl []]) n.
Proof.
  exists exw, exlisten, "root", ["a"], "c", ["y"], "d", "y". splits.
  - exact exlisten_built.
  - apply plain_evaluable. vm_compute. reflexivity.
  - left. reflexivity.
  - apply edge_dec_true. vm_compute. reflexivity.
  - apply (lacks_lacking exw exlisten _ ["c"] "d" 0); [apply no_exo; vm_compute; reflexivity|exact exlisten_built|]. vm_compute. reflexivity.
Qed.
Print Assumptions C90_floating_refuted.

(** An agent that fixes k and individuals that fix x and y (x ~ norm(a, s), y = x + k, with a and
    s exogenous): closed and supplied. *)
Definition exfam : bn exw := defs (bn_new "fam") [lx; lk; ly].
Lemma exfam_built : built exfam.
Proof. unfold exfam. apply defs_built; [constructor|vm_compute; reflexivity]. Qed.
Lemma exfam_edges : gedges (dag exfam) = [("a", "x"); ("s", "x"); ("x", "y"); ("k", "y")].
Proof. vm_compute. reflexivity. Qed.
Lemma exfam_into : forall p n, edge (dag exfam) p n ->
  (In n ["a"; "s"; "k"] -> False) /\ (In n ["x"; "y"] -> In p ["x"; "y"] \/ In p ["a"; "s"; "k"]).
Proof.
  intros p n H. unfold edge in H. rewrite exfam_edges in H. destruct H as [H|[H|[H|[H|[]]]]]; inversion H; subst; split; simpl; auto 10; intuition discriminate.
Qed.
Definition exfull : nset := NSet "ag" ["k"] [] [NSet "ind" ["x"; "y"] [] []].
Lemma exfam_not_exo : forall n l (P : Prop), In n ["k"; "x"; "y"] -> bget exfam n = Ok l -> is_exo_l l = true -> P.
Proof.
  intros n l P Hn Hl Xl. exfalso. assert (E : match bget exfam n with Ok l => is_exo_l l | Err _ => false end = false) by (destruct Hn as [<-|[<-|[<-|[]]]]; vm_compute; reflexivity).
  rewrite Hl in E. rewrite Xl in E. discriminate E.
Qed.
Example C90_example : built exfam /\ evaluable exfam /\ exists sc h c,
  as_simulation_core exfam (Some exfull) = Ok sc /\ closed_groups sc /\ supplied sc /\ grown sc h
  /\ at_ h 1 c /\ k_group c = "ind" /\ dkeys (k_locus c) = ["x"; "y"].
Proof.
  split; [exact exfam_built|]. split; [apply plain_evaluable; vm_compute; reflexivity|].
  assert (X : match as_simulation_core exfam (Some exfull) with
              | Ok sc => Some (sc_root sc, map (fun p => (fst p, (g_name (snd p), g_children (snd p), g_exo (snd p), g_fixed (snd p)))) (sc_groups sc),
                   match chained sc [("a", PZ 1); ("s", PZ 2)] ["ind"] 0 with
                   | Some (h, j) => option_map (fun c => (k_group c, dkeys (k_locus c))) (nth_error h 1)
                   | None => None end)
              | Err _ => None end
      = Some ("ag", [("ag", ("ag", ["ind"], [], ["a"; "s"; "k"])); ("ind", ("ind", [], ["a"; "s"; "k"], ["x"; "y"]))], Some ("ind", ["x"; "y"]))) by (vm_compute; reflexivity).
  destruct (as_simulation_core exfam (Some exfull)) as [sc|] eqn:E; [|discriminate X]. injection X as X1 X2 X3.
  match type of X3 with (match ?m with _ => _ end) = _ => destruct m as [[h j]|] eqn:Ec; [|discriminate X3] end.
  match type of X3 with option_map _ ?m = _ => destruct m as [c|] eqn:En; cbn [option_map] in X3; [|discriminate X3] end. injection X3 as X3 X4.
  destruct (C46_blueprints exw exfam (Some exfull) sc exfam_built E) as (Eb & _).
  destruct (sc_groups sc) as [|[n1 g1] [|[n2 g2] [|]]] eqn:Eg; try discriminate X2. injection X2 as A1 A2 A3 A4 A5 A6 A7 A8 A9 A10. subst n1 n2.
  assert (G : forall k g, dget (sc_groups sc) k = Some g -> (k = "ag" /\ g = g1) \/ (k = "ind" /\ g = g2)).
  { intros k g H. rewrite Eg in H. cbn in H. destruct (String.eqb_spec k "ag") as [->|]; [inversion H; auto|]. destruct (String.eqb_spec k "ind") as [->|]; [inversion H; auto|discriminate]. }
  exists sc, h, c. splits; [reflexivity| | | |exact En|exact X3|exact X4].
  - intros k g n p H Hn He. rewrite Eb in He. destruct (exfam_into p n He) as [I1 I2]. destruct (G _ _ H) as [[_ ->]|[_ ->]].
    + rewrite A5 in Hn. destruct (I1 Hn).
    + rewrite A9. rewrite A10 in Hn. rewrite A10. exact (I2 Hn).
  - intros k ks g x L H Hx. destruct (G _ _ H) as [[-> ->]|[-> ->]]; [rewrite A4 in Hx; destruct Hx|]. rewrite A9 in Hx.
    inversion L as [Q|k0 ks0 g0 c0 L0 H0 I0]; subst; [rewrite X1 in *; discriminate|].
    destruct (G _ _ H0) as [[-> ->]|[-> ->]]; [|rewrite A8 in I0; destruct I0].
    exists "ag", g1. splits; [|rewrite Eg; reflexivity|rewrite A5; exact Hx]. inversion L0; subst; [left; auto|left; auto].
  - eapply (chained_grown exw sc [("a", PZ 1); ("s", PZ 2)] ["ind"] 0 h j); [| |exact Ec].
    + intros g n l H Hn Hl Xl. rewrite X1 in H. destruct (G _ _ H) as [[_ ->]|[Q _]]; [|discriminate]. rewrite Eb in Hl. apply bget_holds in Hl. rewrite A5 in Hn.
      destruct Hn as [<-|[<-|[<-|[]]]]; simpl; auto. exact (exfam_not_exo "k" l _ (or_introl eq_refl) Hl Xl).
    + intros k [<-|[]] g n l H Hn Hl Xl. destruct (G _ _ H) as [[Q _]|[_ ->]]; [discriminate|]. rewrite Eb in Hl. apply bget_holds in Hl. rewrite A10 in Hn.
      destruct Hn as [<-|[<-|[]]]; [exact (exfam_not_exo "x" l _ (or_intror (or_introl eq_refl)) Hl Xl)|exact (exfam_not_exo "y" l _ (or_intror (or_intror (or_introl eq_refl))) Hl Xl)].
Qed.
