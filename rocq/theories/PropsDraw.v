(** * Property C107: samplers of parameter cores *)

Require Import Coq.ZArith.ZArith Coq.micromega.Lia.
Require Import Verif.Base Verif.World Verif.ModelGraph Verif.ModelExpr Verif.ModelLoci Verif.ModelBN Verif.ModelSample Verif.ModelSim Verif.ModelDraw
        Verif.Spec Verif.SpecBN Verif.SpecExpr Verif.SpecSample Verif.SpecSim
        Verif.ProofBase Verif.ProofGraph Verif.ProofExpr Verif.ProofBN Verif.ProofBNHist Verif.ProofSample
        Verif.ProofSim Verif.ProofSimResp Verif.ProofSimImp Verif.ProofSimActors Verif.ProofSimGen Verif.ExWorld Verif.PropsBN Verif.PropsSim Verif.PropsCores.

(** ** The names of the actors of a core never change *)

Section Keys.
  Context {w : world}.
  Let mk (d : dict (dict (actor w))) : dict (list name) := map (fun ge => (fst ge, dkeys (snd ge))) d.
  Let akeys (c : core w) : name * option (list name) * option (dict (list name)) :=
    (k_group c, option_map dkeys (k_actors c), option_map mk (k_chactors c)).
  Let fine (sc : simcore w) (x : name * option (list name) * option (dict (list name))) : Prop :=
    match x with (gn, oa, oc) =>
      (forall ks, oa = Some ks -> exists g, dget (sc_groups sc) gn = Some g /\ ks = dkeys (g_local g))
      /\ (forall d gn' ks, oc = Some d -> dget d gn' = Some ks -> exists g, dget (sc_groups sc) gn' = Some g /\ ks = dkeys (g_shared g))
    end.
  Let keyed (sc : simcore w) (h : cores w) : Prop := Forall (fine sc) (map akeys h).

  Lemma dset_same : forall {A} (d : dict A) k v, dget d k = Some v -> dset d k v = d.
  Proof. intros A d k v. induction d as [|[k' v'] d IH]; simpl; [discriminate|]. destruct (String.eqb_spec k k'); intros E; [congruence|rewrite IH; auto]. Qed.
  Lemma sadd_in : forall k (l : list name), In k l -> sadd k l = l.
  Proof. intros k l H. unfold sadd. rewrite (proj2 (mem_In k l) H). reflexivity. Qed.
  Lemma mk_get : forall d k, dget (mk d) k = option_map dkeys (dget d k).
  Proof. intros d k. induction d as [|[k' v'] d IH]; simpl; auto. destruct (String.eqb k k'); auto. Qed.
  Lemma mk_set : forall d k e, mk (dset d k e) = dset (mk d) k (dkeys e).
  Proof. intros d k e. induction d as [|[k' v'] d IH]; simpl; auto. destruct (String.eqb k k'); simpl; auto. rewrite IH. reflexivity. Qed.

  Lemma kupd_keys : forall h i f, (forall c, nth_error h i = Some c -> akeys (f c) = akeys c) -> map akeys (kupd h i f) = map akeys h.
  Proof. induction h as [|c h IH]; intros [|i] f E; simpl; auto; [rewrite E; auto|rewrite IH; auto]. Qed.
  Lemma put_actor_keys : forall h p a a0, actor_at h p = Some a0 -> map akeys (put_actor h p a) = map akeys h.
  Proof.
    intros h p a a0 E. destruct p as [i k|i g k]; cbn [put_actor actor_at] in *; apply kupd_keys; intros c C; rewrite C in E; unfold akeys.
    - destruct (k_actors c) as [d|] eqn:D; [|discriminate]. cbn [k_group k_actors k_chactors set_actors option_map].
      rewrite dkeys_dset, sadd_in; auto. apply dget_In. eauto.
    - destruct (k_chactors c) as [d|] eqn:D; [|discriminate]. destruct (dget d g) as [e|] eqn:G; [|discriminate].
      cbn [k_group k_actors k_chactors set_chactors option_map]. rewrite mk_set, dkeys_dset, (sadd_in k (dkeys e)) by (apply dget_In; eauto).
      rewrite dset_same; auto. rewrite mk_get, G. reflexivity.
  Qed.
  Lemma kset_keys : forall h i x v, map akeys (kset h i x v) = map akeys h.
  Proof. intros. apply kupd_keys. reflexivity. Qed.
  Lemma fold_kset_keys : forall i l h, map akeys (fold_left (fun h kv => kset h i (fst kv) (snd kv)) l h) = map akeys h.
  Proof. intros i. induction l as [|[x v] l IH]; intros h; simpl; auto. rewrite IH. apply kset_keys. Qed.
  Lemma update_at_keys : forall h p i r o h' r', update_at h p i r = (o, h', r') -> map akeys h' = map akeys h.
  Proof.
    intros h p i r o h' r' E. unfold update_at in E. destruct (actor_at h p) as [a|] eqn:A; [|inversion E; subst; auto].
    destruct (a_update a (lookup h i) r) as [[a'|e] r1]; inversion E; subst; auto. eapply put_actor_keys; eauto.
  Qed.
  Lemma resp_fixed_keys : forall b imp sh i ds prior h r o h' r', resp_fixed b imp sh i ds prior h r = (o, h', r') -> map akeys h' = map akeys h.
  Proof.
    intros b imp sh i. induction ds as [|d ds IH]; intros prior h r o h' r' E; cbn [resp_fixed] in E; [inversion E; subst; auto|].
    destruct (bget b d) as [l|]; [|inversion E; subst; auto].
    assert (S : forall o1 h1 r1, match dget imp d with
        | Some v => (Ok tt, kupd h i (fun c => set_locus c (dset (k_locus c) d v)), r)
        | None => if mem d sh then match render l (lookup h i) r with Ok (v, r') => (Ok tt, kset h i (loci_name l) v, r') | Err e => (Err e, h, r) end else (Ok tt, h, r)
        end = (o1, h1, r1) -> map akeys h1 = map akeys h).
    { intros o1 h1 r1 Q. destruct (dget imp d); [inversion Q; subst; apply kupd_keys; reflexivity|].
      destruct (mem d sh); [|inversion Q; subst; auto]. destruct (render l (lookup h i) r) as [[v rv]|]; inversion Q; subst; auto. apply kset_keys. }
    destruct (match dget imp d with Some v => _ | None => _ end) as [[[u|e] h1] r1]; specialize (S _ _ _ eq_refl); [|inversion E; subst; auto].
    destruct (evaluate l (lookup h1 i)); [|inversion E; subst; auto]. rewrite <- S. eapply IH; eauto.
  Qed.
  Lemma resp_actors_keys : forall i ps h r o h' r', resp_actors i ps h r = (o, h', r') -> map akeys h' = map akeys h.
  Proof.
    intros i. induction ps as [|p ps IH]; intros h r o h' r' E; cbn [resp_actors] in E; [inversion E; subst; auto|].
    destruct (update_at h p i r) as [[[u|e] h1] r1] eqn:U; apply update_at_keys in U; [|inversion E; subst; auto]. rewrite <- U. eapply IH; eauto.
  Qed.
  Lemma respond_keys : forall f sc imp sh i h r o h' r', respond f sc imp sh i h r = (o, h', r') -> map akeys h' = map akeys h.
  Proof.
    induction f as [|f IH]; intros sc imp sh i h r o h' r' E; cbn [respond] in E; [inversion E; subst; auto|].
    destruct (nth_error h i) as [c|] eqn:C; [|inversion E; subst; auto]. destruct (group_of sc h i) as [g|]; [|inversion E; subst; auto].
    destruct (resp_fixed _ _ _ _ _ _ h r) as [[[pr|e] h1] r1] eqn:E1; apply resp_fixed_keys in E1; [|inversion E; subst; auto].
    destruct (resp_actors _ _ _ r1) as [[[u|e] h2] r2] eqn:E2; apply resp_actors_keys in E2; rewrite kupd_keys in E2 by reflexivity; [|inversion E; subst; congruence].
    assert (Ch : forall js h r o h' r', each_child (respond f sc imp sh) js h r = (o, h', r') -> map akeys h' = map akeys h).
    { induction js as [|j js IHj]; intros ha ra oa hb rb Ec; cbn [each_child] in Ec; [inversion Ec; subst; auto|].
      destruct (respond f sc imp sh j ha ra) as [[[x|e] hc] rc] eqn:Ej; apply IH in Ej; [|inversion Ec; subst; auto]. rewrite <- Ej. eapply IHj; eauto. }
    destruct (each_child _ _ h2 r2) as [[[u2|e] h3] r3] eqn:E3; apply Ch in E3; [|inversion E; subst; congruence].
    inversion E; subst. destruct (filter _ sh); [congruence|]. rewrite kupd_keys by reflexivity. congruence.
  Qed.

  Lemma update_all_keys : forall (pas : env w) l r l' r', update_all pas l r = (Ok l', r') -> dkeys l' = dkeys l.
  Proof.
    intros pas. induction l as [|[k a] l IH]; intros r l' r' E; cbn [update_all] in E; [inversion E; subst; auto|].
    destruct (if is_frozen a then a_update a pas r else (Ok a, r)) as [[a'|e] r1]; [|discriminate].
    destruct (update_all pas l r1) as [[l2|e] r2] eqn:E2; [|discriminate]. inversion E; subst. apply IH in E2. simpl. congruence.
  Qed.
  Lemma make_actors_keys : forall (b : bn w) pas ps r l' r', make_actors b pas ps r = (Ok l', r') -> dkeys l' = dkeys ps.
  Proof.
    intros b pas ps r l' r' E. unfold make_actors in E. destruct (mapM _ ps) as [acts|e] eqn:M; [|discriminate]. apply update_all_keys in E. rewrite E. clear E.
    revert acts M. induction ps as [|[k p] ps IH]; intros acts M; simpl in M; [inversion M; subst; auto|].
    destruct (compose_actor b p) as [a|e]; simpl in M; [|discriminate]. destruct (mapM _ ps) as [acts'|e]; simpl in M; [|discriminate]. inversion M; subst. simpl. f_equal. auto.
  Qed.

  Lemma keyed_same : forall sc h h', map akeys h' = map akeys h -> keyed sc h -> keyed sc h'.
  Proof. intros sc h h' E. unfold keyed. rewrite E. auto. Qed.
  Lemma generate_keyed : forall sc g nick par exo h r o h' r', generate sc g nick par exo h r = (o, h', r') -> keyed sc h -> keyed sc h'.
  Proof.
    intros sc g nick par exo h r o h' r' E K. unfold generate in E. destruct (gen_exo _ _ _ _ _ r) as [[vs|e] r1]; [|inversion E; subst; auto].
    destruct (gen_fixed _ _ _ _ r1) as [[[vs' pr]|e] r2]; [|inversion E; subst; auto]. inversion E; subst. unfold keyed. rewrite map_app. apply Forall_app. split; auto.
    constructor; [|constructor]. split; discriminate.
  Qed.
  Lemma sg_breed_keyed : forall sc i nick gn exo h r o h' r', sg_breed sc i nick gn exo h r = (o, h', r') -> keyed sc h -> keyed sc h'.
  Proof.
    intros sc i nick gn exo h r o h' r' E K. unfold sg_breed in E. destruct (group_of sc h i); [|inversion E; subst; auto].
    destruct (negb _); [inversion E; subst; auto|]. destruct (dget _ gn); [|inversion E; subst; auto]. eapply generate_keyed; eauto.
  Qed.
  Lemma breed_keyed : forall sc i nick gn exo h r o h' r', breed sc i nick gn exo h r = (o, h', r') -> keyed sc h -> keyed sc h'.
  Proof.
    intros sc i nick gn exo h r o h' r' E K. unfold breed in E. destruct (nth_error h i); [|inversion E; subst; auto]. destruct (dmem _ _); [inversion E; subst; auto|].
    destruct (sg_breed sc i nick gn exo h r) as [[[j|e] h1] r1] eqn:B; apply sg_breed_keyed in B; auto; inversion E; subst; auto.
    eapply keyed_same; [|exact B]. apply kupd_keys. reflexivity.
  Qed.
  Lemma keyed_at : forall sc h i c, keyed sc h -> nth_error h i = Some c -> fine sc (akeys c).
  Proof. intros sc h i c K C. eapply Forall_forall; [exact K|]. apply in_map. eapply nth_error_In; eauto. Qed.
  Lemma keyed_kupd : forall sc h i f c, nth_error h i = Some c -> fine sc (akeys (f c)) -> keyed sc h -> keyed sc (kupd h i f).
  Proof.
    intros sc h i f c C Q K. apply Forall_forall. intros x Hx. apply in_map_iff in Hx. destruct Hx as (d & <- & Hd). apply In_nth_error in Hd. destruct Hd as [m Hm].
    rewrite kupd_nth in Hm. destruct (Nat.eqb m i) eqn:Em; [|eapply keyed_at; eauto]. apply Nat.eqb_eq in Em. rewrite Em, C in Hm. simpl in Hm. assert (Ed : f c = d) by congruence. rewrite <- Ed. exact Q.
  Qed.
  Lemma get_actors_keyed : forall sc h i s r o h' r', get_actors sc h i s r = (o, h', r') -> keyed sc h -> keyed sc h'.
  Proof.
    intros sc h i s r o h' r' E K. unfold get_actors in E. destruct (nth_error h i) as [c|] eqn:C; [|inversion E; subst; auto].
    unfold group_of in E. rewrite C in E. destruct (dget (sc_groups sc) (k_group c)) as [g|] eqn:G; [|inversion E; subst; auto].
    destruct (if s then k_parent c else None) as [p|].
    - destruct (nth_error h p) as [pc|] eqn:P; [|inversion E; subst; auto].
      destruct (match k_chactors pc with Some d => dget d (k_group c) | None => None end) as [e|]; [inversion E; subst; auto|].
      destruct (make_actors _ _ _ r) as [[acts|e] r1] eqn:M; [|inversion E; subst; auto]. inversion E; subst. clear E. apply make_actors_keys in M.
      eapply keyed_kupd; [exact P| |exact K]. destruct (keyed_at _ _ _ _ K P) as [K1 K2]. split; [exact K1|]. cbn [akeys k_chactors set_chactors option_map].
      intros d gn' ks Q1 Q2. inversion Q1; subst d. clear Q1. rewrite mk_set, dget_dset in Q2. destruct (String.eqb_spec gn' (k_group c)) as [->|N].
      + inversion Q2; subst. exists g. auto.
      + destruct (k_chactors pc) as [d|] eqn:D; [|discriminate]. eapply K2; [reflexivity|exact Q2].
    - destruct (k_actors c) as [d|] eqn:A; [inversion E; subst; auto|]. destruct (make_actors _ _ _ r) as [[acts|e] r1] eqn:M; [|inversion E; subst; auto]. inversion E; subst. clear E.
      apply make_actors_keys in M. eapply keyed_kupd; [exact C| |exact K]. destruct (keyed_at _ _ _ _ K C) as [K1 K2]. split; [|exact K2].
      cbn [akeys k_actors set_actors option_map k_group]. intros ks Q. inversion Q; subst. eauto.
  Qed.

  Lemma history_keyed : forall sc h, history sc h -> keyed sc h.
  Proof.
    intros sc h H. induction H.
    - constructor.
    - unfold sc_generate in H0. destruct (dget _ _); [eapply generate_keyed; eauto|inversion H0; subst; auto].
    - eapply breed_keyed; eauto.
    - unfold get_sibling in H0. destruct (nth_error h i) as [c|]; [|inversion H0; subst; auto]. destruct (k_parent c); [eapply breed_keyed; eauto|inversion H0; subst; auto].
    - eapply sg_breed_keyed; eauto.
    - eapply keyed_same; [|eassumption]. apply kupd_keys. reflexivity.
    - unfold detach in H0. destruct (nth_error h i) as [c|]; [|inversion H0; subst; auto]. destruct (k_parent c) as [p|]; [|inversion H0; subst; auto].
      assert (R : map akeys (remove_children h p (k_nick c)) = map akeys h) by (apply kupd_keys; reflexivity).
      destruct col; inversion H0; subst; apply (keyed_same sc h); auto.
      + rewrite fold_kset_keys. exact R.
      + rewrite kupd_keys by reflexivity. exact R.
    - unfold clone_core in H0. destruct (nth_error h i) as [c|]; [|inversion H0; subst; auto]. destruct (k_parent c); [inversion H0; subst; auto|].
      destruct (group_of sc h i); [|inversion H0; subst; auto]. destruct (generate _ _ _ _ _ h r) as [[[j|e] h1] r1] eqn:G; apply generate_keyed in G; auto; inversion H0; subst; auto.
    - eapply keyed_same; [|eassumption]. apply kset_keys.
    - eapply get_actors_keyed; eauto.
    - unfold new_sampler in H0. destruct (actor_at h p) as [a|]; [|inversion H0; subst; auto]. destruct (is_frozen a); [|inversion H0; subst; auto].
      eapply keyed_same; [|eassumption]. eapply update_at_keys; eauto.
    - unfold impulse_core in H0. destruct (downstream _ _); [|inversion H0; subst; auto]. eapply keyed_same; [|eassumption]. eapply respond_keys; eauto.
    - unfold impulse_list in H0. destruct (downstream _ _); [|inversion H0; subst; auto]. eapply keyed_same; [|eassumption]. eapply respond_keys; eauto.
  Qed.

  Lemma places_names : forall (sc : simcore w) h i c g s r ps h' r', history sc h -> at_ h i c -> dget (sc_groups sc) (k_group c) = Some g ->
    get_actors sc h i s r = (Ok ps, h', r') ->
    map key_of ps = dkeys (match s, k_parent c with true, Some _ => g_shared g | _, _ => g_local g end).
  Proof.
    intros sc h i c g s r ps h' r' H C G E. apply history_keyed in H. unfold at_ in C. unfold get_actors in E. rewrite C in E. unfold group_of in E. rewrite C, G in E.
    assert (MK : forall f : name -> place, (forall k, key_of (f k) = k) -> forall l, map key_of (map f l) = l).
    { intros f Q l. rewrite map_map. rewrite (map_ext _ (fun k => k)); auto. apply map_id. }
    destruct (if s then k_parent c else None) as [p|] eqn:S.
    - destruct s; [|discriminate]. rewrite S. destruct (nth_error h p) as [pc|] eqn:P; [|discriminate].
      destruct (match k_chactors pc with Some d => dget d (k_group c) | None => None end) as [e|] eqn:Ch.
      + inversion E; subst. rewrite MK by reflexivity. destruct (k_chactors pc) as [d|] eqn:D; [|discriminate].
        destruct (keyed_at _ _ _ _ H P) as [_ K2]. destruct (K2 (mk d) (k_group c) (dkeys e)) as (g' & G' & ->); [rewrite D; reflexivity|rewrite mk_get, Ch; reflexivity|]. congruence.
      + destruct (make_actors _ _ _ r) as [[acts|x] r1] eqn:M; [|discriminate]. inversion E; subst. rewrite MK by reflexivity. eapply make_actors_keys; eauto.
    - assert (L : match s, k_parent c with true, Some _ => g_shared g | _, _ => g_local g end = g_local g) by (destruct s, (k_parent c); auto; discriminate). rewrite L.
      destruct (k_actors c) as [d|] eqn:A.
      + inversion E; subst. rewrite MK by reflexivity. destruct (keyed_at _ _ _ _ H C) as [K1 _]. destruct (K1 (dkeys d)) as (g' & G' & ->); [rewrite A; reflexivity|]. congruence.
      + destruct (make_actors _ _ _ r) as [[acts|x] r1] eqn:M; [|discriminate]. inversion E; subst. rewrite MK by reflexivity. eapply make_actors_keys; eauto.
  Qed.
End Keys.

Lemma history_shared : forall w (sc : simcore w) h i c d gn e, history sc h -> nth_error h i = Some c -> k_chactors c = Some d -> dget d gn = Some e ->
  exists g, dget (sc_groups sc) gn = Some g /\ dkeys e = dkeys (g_shared g).
Proof.
  intros w sc h i c d gn e H C K E. apply history_keyed in H. destruct (keyed_at _ _ _ _ H C) as [_ X]. eapply X; [rewrite K; reflexivity|]. rewrite mk_get, E. reflexivity.
Qed.

(** ** Statements *)

(** [vs] are the results of one call after the other; the generator goes from [r] to [r'] *)
Inductive drew {w : world} (h : cores w) (p : place) (i : nat) : RNG w -> list (V w) -> RNG w -> Prop :=
| dr_nil : forall r, drew h p i r [] r
| dr_cons : forall r v r1 vs r2, call_sampler h p i r = (Ok v, r1) -> drew h p i r1 vs r2 -> drew h p i r (v :: vs) r2.
(** [vs] are successive draws from the distribution [d] *)
Inductive from {w : world} (d : Dist w) : RNG w -> list (V w) -> RNG w -> Prop :=
| fr_nil : forall r, from d r [] r
| fr_cons : forall r vs r', from d (snd (w_sample w d r)) vs r' -> from d r (fst (w_sample w d r) :: vs) r'.
Definition values {w : world} (o : drawn w) : list (V w) := match o with One v => [v] | Many vs => vs end.

Lemma calls_spec : forall w (h : cores w) p i n r o r', draw_calls n h p i r = (o, r') ->
  match o with
  | Ok vs => length vs = n /\ drew h p i r vs r'
  | Err e => exists vs r1, drew h p i r vs r1 /\ length vs < n /\ call_sampler h p i r1 = (Err e, r')
  end.
Proof.
  intros w h p i. induction n as [|n IH]; intros r o r' E; cbn [draw_calls] in E; [inversion E; subst; split; [reflexivity|constructor]|].
  destruct (call_sampler h p i r) as [[v|e] r1] eqn:C.
  - destruct (draw_calls n h p i r1) as [[vs|e] r2] eqn:D; apply IH in D; inversion E; subst.
    + destruct D as [L D]. split; [simpl; congruence|]. econstructor; eauto.
    + destruct D as (vs & r3 & D1 & D2 & D3). exists (v :: vs), r3. split; [econstructor; eauto|]. split; [simpl; lia|exact D3].
  - inversion E; subst. exists [], r. split; [constructor|]. split; [simpl; lia|exact C].
Qed.

(** sample gives a single value for n up to 1, else a list of exactly n; the values are those of
    one call after the other, and the first exception ends it. *)
Theorem C107_sample : forall w (h : cores w) p i n r o r', sampler_sample h p i n r = (o, r') ->
  match o with
  | Ok (One v) => (n <= 1)%Z /\ drew h p i r [v] r'
  | Ok (Many vs) => (1 < n)%Z /\ Z.of_nat (length vs) = n /\ drew h p i r vs r'
  | Err e => exists vs r1, drew h p i r vs r1 /\ (Z.of_nat (length vs) < Z.max n 1)%Z /\ call_sampler h p i r1 = (Err e, r')
  end.
Proof.
  intros w h p i n r o r' E. unfold sampler_sample in E. cbv zeta in E. destruct (Z.eqb_spec (Z.max n 1) 1) as [N|N].
  - destruct (call_sampler h p i r) as [[v|e] r1] eqn:C; inversion E; subst.
    + split; [lia|]. econstructor; [exact C|constructor].
    + exists [], r. split; [constructor|]. split; [simpl; lia|exact C].
  - destruct (draw_calls (Z.to_nat (Z.max n 1)) h p i r) as [[vs|e] r1] eqn:C; apply calls_spec in C; inversion E; subst.
    + destruct C as [L D]. split; [lia|]. split; [lia|exact D].
    + destruct C as (vs & r2 & D & L & F). exists vs, r2. split; [exact D|]. split; [lia|exact F].
Qed.
Print Assumptions C107_sample.

(** An up-to-date frozen actor never fails. Of a random node all values are drawn from the one
    distribution its definition gives; of any other node they are all the same and nothing is drawn. *)
Theorem C107_frozen : forall w (h : cores w) p i f l rd s n r, actor_at h p = Some (AFrozen f l rd s) -> up_to_date (lookup h i) (AFrozen f l rd s) ->
  let vis x := if mem x rd then lookup h i x else None in
  exists o r', sampler_sample h p i n r = (Ok o, r') /\ Z.of_nat (length (values o)) = Z.max n 1
    /\ (forall m fn ps, l = LDist m fn ps -> exists d, get_distribution fn vis = Ok d /\ from d r (values o) r')
    /\ ((forall m fn ps, l <> LDist m fn ps) -> r' = r /\ exists v, (forall r0, render l vis r0 = Ok (v, r0)) /\ forall x, In x (values o) -> x = v).
Proof.
  intros w h p i f l rd s n r A U vis.
  assert (T : forall k r, exists vs r', draw_calls k h p i r = (Ok vs, r')
    /\ (forall m fn ps, l = LDist m fn ps -> exists d, get_distribution fn vis = Ok d /\ from d r vs r')
    /\ ((forall m fn ps, l <> LDist m fn ps) -> r' = r /\ exists v, (forall r0, render l vis r0 = Ok (v, r0)) /\ forall x, In x vs -> x = v)).
  { clear n r. unfold up_to_date in U. destruct (is_rv_l l) eqn:Rv.
    - destruct l as [m v|m|m fn ps|m e ps|m ps]; try discriminate Rv. destruct U as (d & D & ->).
      assert (Q : forall k r, exists vs r', draw_calls k h p i r = (Ok vs, r') /\ from d r vs r').
      { induction k as [|k IH]; intros r; cbn [draw_calls]; [exists [], r; split; [reflexivity|constructor]|].
        unfold call_sampler at 1. rewrite A. cbn [a_sample is_rv_l]. destruct (IH (snd (w_sample w d r))) as (vs & r' & E & F).
        destruct (w_sample w d r) as [v r1] eqn:W. cbn [snd] in E, F. rewrite E. exists (v :: vs), r'. split; [reflexivity|].
        replace v with (fst (w_sample w d r)) by (rewrite W; reflexivity). constructor. rewrite W. exact F. }
      intros k r. destruct (Q k r) as (vs & r' & E & F). exists vs, r'. split; [exact E|]. split.
      + intros m' fn' ps' K. injection K as <- <- <-. exists d. split; [exact D|exact F].
      + intros N. destruct (N m fn ps eq_refl).
    - assert (U' : exists v, (forall r, render l vis r = Ok (v, r)) /\ s = SVal v) by (destruct l as [m v|m|m fn ps|m e ps|m ps]; try discriminate Rv; exact U).
      destruct U' as (v & V & ->).
      assert (Q : forall k r, exists vs, draw_calls k h p i r = (Ok vs, r) /\ forall x, In x vs -> x = v).
      { induction k as [|k IH]; intros r; cbn [draw_calls]; [exists []; split; [reflexivity|intros x []]|].
        unfold call_sampler at 1. rewrite A. cbn [a_sample]. rewrite Rv. destruct (IH r) as (vs & E & F). rewrite E. exists (v :: vs). split; [reflexivity|].
        intros x [<-|X]; auto. }
      intros k r. destruct (Q k r) as (vs & E & F). exists vs, r. split; [exact E|]. split.
      + intros m fn ps ->. discriminate Rv.
      + intros _. split; [reflexivity|]. exists v. split; [exact V|exact F]. }
  unfold sampler_sample. cbv zeta. destruct (Z.eqb_spec (Z.max n 1) 1) as [N|N].
  - destruct (T 1 r) as (vs & r' & E & X & Y). cbn [draw_calls] in E. destruct (call_sampler h p i r) as [[v|e] r1]; [|discriminate E]. inversion E; subst.
    exists (One v), r'. split; [reflexivity|]. split; [simpl; lia|]. split; [exact X|exact Y].
  - destruct (T (Z.to_nat (Z.max n 1)) r) as (vs & r' & E & X & Y). rewrite E. exists (Many vs), r'. apply calls_spec in E. destruct E as [L _].
    split; [reflexivity|]. split; [simpl; lia|]. split; [exact X|exact Y].
Qed.
Print Assumptions C107_frozen.

Lemma get_actors_sees : forall w (sc : simcore w) h i s r o h' r', history sc h -> get_actors sc h i s r = (o, h', r') -> forall j x, lookup h' j x = lookup h j x.
Proof.
  intros w sc h i s r o h' r' H E j x. symmetry. apply lookup_ext; [eapply history_forest; eauto|eapply get_actors_shape; eauto|].
  intros m c c' _ C C'. unfold at_ in *. apply get_actors_cases in E. destruct E as [->|(c0 & g & acts & C0 & G & E)]; [congruence|].
  assert (K : forall q f, (forall c, k_locus (f c) = k_locus c) -> h' = kupd h q f -> dget (k_locus c) x = dget (k_locus c') x).
  { intros q f F Eh. subst h'. rewrite kupd_nth in C'. destruct (Nat.eqb m q); rewrite C in C'; simpl in C'; inversion C'; subst; auto. rewrite F. reflexivity. }
  destruct E as [E|E]; decompose [and ex] E; eapply K; eauto; reflexivity.
Qed.

(** the blueprints that count for a core *)
Definition blueprints_of {w : world} (g : group) (c : core w) (shared : bool) : dict blueprint :=
  match shared, k_parent c with true, Some _ => g_shared g | _, _ => g_local g end.

(** list_actors names exactly the blueprints of the group, whatever happened before. *)
Theorem C107_names : forall w (sc : simcore w) h i c g s r o h' r', history sc h -> at_ h i c -> dget (sc_groups sc) (k_group c) = Some g ->
  list_actors sc h i s r = (o, h', r') ->
  (forall j x, lookup h' j x = lookup h j x) /\ forall ks, o = Ok ks -> ks = dkeys (blueprints_of g c s).
Proof.
  intros w sc h i c g s r o h' r' H C G E. unfold list_actors in E. destruct (get_actors sc h i s r) as [[[ps|e] h1] r1] eqn:A; inversion E; subst.
  - split; [eapply get_actors_sees; eauto|]. intros ks K. injection K as <-. eapply places_names; eauto.
  - split; [eapply get_actors_sees; eauto|]. intros ks K. discriminate K.
Qed.
Print Assumptions C107_names.

Lemma key_find : forall ps k, match find (fun q => String.eqb (key_of q) k) ps with
  | Some q => In q ps /\ place_key q = k
  | None => ~ In k (map key_of ps)
  end.
Proof.
  intros ps k. destruct (find _ ps) as [q|] eqn:F.
  - apply find_some in F. destruct F as [F1 F2]. apply String.eqb_eq in F2. split; auto.
  - intros Q. apply in_map_iff in Q. destruct Q as (q & Q1 & Q2). pose proof (find_none _ _ F q Q2) as N. simpl in N. rewrite Q1, String.eqb_refl in N. discriminate N.
Qed.

(** A sampler is obtained for the blueprints of the group only (KeyError else), and its actor is then
    up to date with the core it was asked from, even if it is shared; no value of a core changes. If it
    is not obtained though it has a blueprint, its frozen actor cannot be brought up to date. *)
Theorem C107_get_sampler : forall w (sc : simcore w) h i c g k s r ps h1 r1 o h' r', history sc h -> at_ h i c -> dget (sc_groups sc) (k_group c) = Some g ->
  get_actors sc h i s r = (Ok ps, h1, r1) -> get_sampler sc h i k s r = (o, h', r') ->
  (forall j x, lookup h' j x = lookup h j x)
  /\ (~ In k (dkeys (blueprints_of g c s)) -> o = Err KeyError /\ h' = h1 /\ r' = r1)
  /\ (forall q, o = Ok q -> In q ps /\ place_key q = k /\ In k (dkeys (blueprints_of g c s)) /\ (exists a, actor_at h' q = Some a /\ up_to_date (lookup h' i) a)
        /\ forall q', q' <> q -> actor_at h' q' = actor_at h1 q')
  /\ (forall e, o = Err e -> In k (dkeys (blueprints_of g c s)) -> exists q f l rd st r2,
        actor_at h1 q = Some (AFrozen f l rd st) /\ place_key q = k /\ a_update (AFrozen f l rd st) (lookup h i) r1 = (Err e, r2) /\ h' = h1).
Proof.
  intros w sc h i c g k s r ps h1 r1 o h' r' H C G A E. pose proof (places_names sc h i c g s r ps h1 r1 H C G A) as P. fold (blueprints_of g c s) in P.
  pose proof (get_actors_sees _ _ _ _ _ _ _ _ _ H A) as L1. assert (H1 : history sc h1) by (eapply hi_actors; eauto).
  destruct (C68_places w sc h i c s r ps h1 r1 C A) as (Ex & _). unfold get_sampler in E. rewrite A in E. pose proof (key_find ps k) as F. rewrite P in F.
  destruct (find _ ps) as [q|].
  - destruct F as [F1 F2]. destruct (Ex q F1) as [a Aq].
    assert (Ik : In k (dkeys (blueprints_of g c s))) by (rewrite <- P, <- F2; apply (in_map key_of); exact F1).
    destruct (new_sampler h1 q i r1) as [[[u|e] h2] r2] eqn:N; inversion E; subst o h' r'; clear E.
    + destruct u. destruct (C68_sampler w sc h1 q i r1 h2 r2 a H1 Aq N) as (S1 & S2 & a' & S3 & S4 & _). split; [intros j x; rewrite S1; apply L1|]. split; [tauto|]. split; [|discriminate].
      intros q' Q. injection Q as <-. split; auto. split; auto. split; auto. split; [exists a'; auto|exact S2].
    + unfold new_sampler in N. rewrite Aq in N. destruct (is_frozen a) eqn:Fr; [|discriminate N]. unfold update_at in N. rewrite Aq in N.
      destruct (a_update a (lookup h1 i) r1) as [[a'|e'] r3] eqn:U; [discriminate N|]. injection N as Ne Nh Nr. subst e' h2 r3. split; [exact L1|]. split; [tauto|]. split; [discriminate|].
      intros e0 Q _. injection Q as <-. destruct a as [f l rd st|f l rd|f l rd fl]; try discriminate Fr. exists q, f, l, rd, st, r2. split; [exact Aq|]. split; [exact F2|]. split; [|reflexivity].
      rewrite <- U. cbn [a_update]. assert (Rd : read_upstream rd (lookup h i) = read_upstream rd (lookup h1 i)); [|rewrite Rd; reflexivity].
      unfold read_upstream. generalize (@nil (name * V w) : dict (V w)) at 1 2. clear - L1. induction rd as [|x rd IH]; intros d; simpl; auto. rewrite L1. apply IH.
  - inversion E; subst. split; [exact L1|]. split; [auto|]. split; [discriminate|]. intros e _ I. tauto.
Qed.
Print Assumptions C107_get_sampler.

(** get_samplers makes one sampler per blueprint; all their actors are up to date with the core then. *)
Theorem C107_get_samplers : forall w (sc : simcore w) h i c g s r ps h' r', history sc h -> at_ h i c -> dget (sc_groups sc) (k_group c) = Some g ->
  get_samplers sc h i s r = (Ok ps, h', r') ->
  map place_key ps = dkeys (blueprints_of g c s) /\ (forall j x, lookup h' j x = lookup h j x)
  /\ forall q, In q ps -> exists a, actor_at h' q = Some a /\ up_to_date (lookup h' i) a.
Proof.
  intros w sc h i c g s r ps h' r' H C G E. unfold get_samplers in E. destruct (get_actors sc h i s r) as [[[ps1|e] h1] r1] eqn:A; [|discriminate E].
  destruct (all_samplers ps1 i h1 r1) as [[[u|e] h2] r2] eqn:S; inversion E; subst ps1 h2 r2; clear E.
  pose proof (get_actors_sees _ _ _ _ _ _ _ _ _ H A) as L1. assert (H1 : history sc h1) by (eapply hi_actors; eauto).
  destruct (C68_places w sc h i c s r ps h1 r1 C A) as (Ex & _). split; [exact (places_names sc h i c g s r ps h1 r1 H C G A)|].
  assert (T : forall todo done h1 r1 u, history sc h1 -> (forall q, In q (done ++ todo) -> exists a, actor_at h1 q = Some a) ->
    (forall q, In q done -> exists a, actor_at h1 q = Some a /\ up_to_date (lookup h1 i) a) -> all_samplers todo i h1 r1 = (Ok u, h', r') ->
    (forall j x, lookup h' j x = lookup h1 j x) /\ forall q, In q (done ++ todo) -> exists a, actor_at h' q = Some a /\ up_to_date (lookup h' i) a).
  { clear. induction todo as [|q todo IH]; intros done h1 r1 u H1 Ex D S; cbn [all_samplers] in S.
    - inversion S; subst. split; [reflexivity|]. rewrite app_nil_r. exact D.
    - destruct (new_sampler h1 q i r1) as [[[v|e] h2] r2] eqn:N; [|discriminate S]. destruct v.
      destruct (Ex q) as [a Aq]; [apply in_or_app; right; left; reflexivity|].
      destruct (C68_sampler w sc h1 q i r1 h2 r2 a H1 Aq N) as (S1 & S2 & a' & S3 & S4 & _).
      assert (All : forall q0, (exists a, actor_at h1 q0 = Some a) -> exists a, actor_at h2 q0 = Some a).
      { intros q0 [b B]. destruct (place_eq_dec q0 q) as [->|Nq]; [eauto|]. exists b. rewrite S2; auto. }
      assert (H2 : history sc h2) by (eapply hi_sampler; eauto).
      destruct (IH (done ++ [q]) h2 r2 u H2) as [T1 T2]; auto.
      + intros q0 Q. rewrite <- app_assoc in Q. apply All, Ex. exact Q.
      + intros q0 Q. apply in_app_or in Q. destruct Q as [Q|[<-|[]]]; [|eauto]. destruct (D q0 Q) as (b & B1 & B2). destruct (place_eq_dec q0 q) as [->|Nq]; [eauto|].
        exists b. rewrite S2 by auto. split; auto. destruct b as [f l rd st| |]; simpl; auto. eapply up_to_date_agree; [|exact B2]. intros x _. symmetry. apply S1.
      + split; [intros j x; rewrite T1; apply S1|]. rewrite <- app_assoc in T2. exact T2. }
  destruct (T ps [] h1 r1 u H1) as [T1 T2]; auto.
  - intros q [].
  - split; [intros j x; rewrite T1; apply L1|exact T2].
Qed.
Print Assumptions C107_get_samplers.

(** get_child_samplers refuses a group that is no child group. For a child group it gives the actors
    its children share, which are there only after one of them was asked for actors: before, it
    raises. *)
Theorem C107_child : forall w (sc : simcore w) h i c g gn, history sc h -> at_ h i c -> dget (sc_groups sc) (k_group c) = Some g ->
  (~ In gn (g_children g) -> get_child_samplers sc h i gn = Err AssertionError)
  /\ (In gn (g_children g) -> forall j d r ps h' r', at_ h j d -> k_parent d = Some i -> k_group d = gn -> get_actors sc h j true r = (Ok ps, h', r') ->
        get_child_samplers sc h' i gn = Ok ps)
  /\ (forall ps, get_child_samplers sc h i gn = Ok ps -> forall j d r, at_ h j d -> k_parent d = Some i -> k_group d = gn -> get_actors sc h j true r = (Ok ps, h, r))
  /\ (In gn (g_children g) -> (forall k, actor_at h (PShared i gn k) = None) -> forall g', dget (sc_groups sc) gn = Some g' -> g_shared g' <> [] ->
        get_child_samplers sc h i gn = Err TypeError \/ get_child_samplers sc h i gn = Err AttributeError).
Proof.
  intros w sc h i c g gn H C G. unfold at_ in C.
  assert (Child : forall h i c, nth_error h i = Some c -> dget (sc_groups sc) (k_group c) = Some g -> In gn (g_children g) ->
    get_child_samplers sc h i gn = match k_chactors c with
      | None => Err TypeError
      | Some d => match dget d gn with
                  | Some e => Ok (map (PShared i gn) (dkeys e))
                  | None => match dget (sc_groups sc) gn with None => Err KeyError | Some _ => Err AttributeError end
                  end
      end).
  { clear. intros h i c C G I. unfold get_child_samplers, group_of. rewrite C, G, (proj2 (mem_In _ _) I). reflexivity. }
  splits.
  - intros N. unfold get_child_samplers, group_of. rewrite C, G. destruct (mem gn (g_children g)) eqn:M; [apply mem_In in M; tauto|reflexivity].
  - intros I j d r ps h' r' D P Gd A. unfold get_actors, group_of in A. unfold at_ in D. rewrite D, Gd in A. destruct (dget (sc_groups sc) gn) as [g'|] eqn:Gg; [|discriminate A]. rewrite P, C in A.
    destruct (match k_chactors c with Some d => dget d gn | None => None end) as [e|] eqn:K.
    + inversion A; subst ps h' r'. rewrite (Child h i c C G I). destruct (k_chactors c) as [dd|]; [|discriminate K]. rewrite K. reflexivity.
    + destruct (make_actors _ _ _ r) as [[acts|x] r2]; [|discriminate A]. injection A as A1 A2 A3. subst ps h' r2.
      erewrite Child; [|rewrite kupd_nth, Nat.eqb_refl, C; reflexivity|exact G|exact I]. cbn [k_chactors set_chactors]. rewrite dget_dset, String.eqb_refl. reflexivity.
  - intros ps E j d r D P Gd. assert (I : In gn (g_children g)).
    { unfold get_child_samplers, group_of in E. rewrite C, G in E. destruct (mem gn (g_children g)) eqn:M; [apply mem_In; exact M|discriminate E]. }
    rewrite (Child h i c C G I) in E. destruct (k_chactors c) as [dd|] eqn:K; [|discriminate E]. destruct (dget dd gn) as [e|] eqn:Ge; [|destruct (dget (sc_groups sc) gn); discriminate E]. injection E as <-.
    destruct (history_shared w sc h i c dd gn e H C K Ge) as (g' & Gg & _). unfold get_actors, group_of. unfold at_ in D. rewrite D, Gd, Gg, P, C, K, Ge. reflexivity.
  - intros I N g' Gg Sh. rewrite (Child h i c C G I). destruct (k_chactors c) as [dd|] eqn:K; [|auto]. rewrite Gg. destruct (dget dd gn) as [e|] eqn:Ge; [|auto]. exfalso.
    destruct e as [|[k a] e].
    + destruct (history_shared w sc h i c dd gn [] H C K Ge) as (g2 & G2 & E2). replace g2 with g' in E2 by congruence. destruct (g_shared g'); [auto|discriminate E2].
    + specialize (N k). cbn [actor_at] in N. rewrite C, K, Ge in N. cbn [dget] in N. rewrite String.eqb_refl in N. discriminate N.
Qed.
Print Assumptions C107_child.

(** ** A frozen actor always has something to sample *)

Section Ready.
  Context {w : world}.
  Let ready (a : actor w) : Prop :=
    match a with AFrozen _ l _ s => if is_rv_l l then exists d, s = SDist d else exists v, s = SVal v | _ => True end.
  Let fine (c : core w) : Prop :=
    (forall d, k_actors c = Some d -> Forall (fun ka => ready (snd ka)) d)
    /\ (forall d, k_chactors c = Some d -> Forall (fun ge => Forall (fun ka => ready (snd ka)) (snd ge)) d).
  Let allfine (h : cores w) : Prop := Forall fine h.

  Lemma dset_all : forall {A} (P : A -> Prop) (d : dict A) k v, Forall (fun kv => P (snd kv)) d -> P v -> Forall (fun kv => P (snd kv)) (dset d k v).
  Proof. intros A P d k v F V. induction F as [|[k' v'] d Q F IH]; simpl; [repeat constructor; auto|]. destruct (String.eqb k k'); constructor; auto. Qed.
  Lemma dget_all : forall {A} (P : A -> Prop) (d : dict A) k v, Forall (fun kv => P (snd kv)) d -> dget d k = Some v -> P v.
  Proof. intros A P d k v F. induction F as [|[k' v'] d Q F IH]; simpl; [discriminate|]. destruct (String.eqb k k'); auto. intros E. inversion E; subst. exact Q. Qed.
  Lemma a_update_ready : forall a (pas : env w) r a' r', a_update a pas r = (Ok a', r') -> ready a'.
  Proof.
    intros [f l rd s|f l rd|f l rd fl] pas r a' r' E; cbn [a_update] in E; try discriminate E.
    destruct l as [m v|m|m fn ps|m e ps|m ps].
    3: destruct (get_distribution fn _); inversion E; subst; cbn; eauto.
    all: destruct (render _ _ r) as [[u ru]|]; inversion E; subst; cbn; eauto.
  Qed.
  Lemma kupd_fine : forall h i f, (forall c, nth_error h i = Some c -> fine c -> fine (f c)) -> allfine h -> allfine (kupd h i f).
  Proof.
    induction h as [|c h IH]; intros [|i] f E F; inversion F; subst; simpl; auto; constructor; auto. apply IH; auto.
  Qed.
  Lemma kset_fine : forall h i x v, allfine h -> allfine (kset h i x v).
  Proof. intros. apply kupd_fine; auto. Qed.
  Lemma fold_kset_fine : forall i l h, allfine h -> allfine (fold_left (fun h kv => kset h i (fst kv) (snd kv)) l h).
  Proof. intros i. induction l as [|[x v] l IH]; intros h F; simpl; auto. apply IH, kset_fine, F. Qed.
  Lemma put_fine : forall h p a, ready a -> allfine h -> allfine (put_actor h p a).
  Proof.
    intros h p a R F. destruct p as [i k|i g k]; cbn [put_actor]; apply kupd_fine; auto; intros c C [F1 F2].
    - destruct (k_actors c) as [d|] eqn:D; [|split; auto; rewrite D; auto]. split; cbn [k_actors k_chactors set_actors]; [|exact F2]. intros d' E. inversion E; subst. apply dset_all; auto.
    - destruct (k_chactors c) as [d|] eqn:D; [|split; auto; rewrite D; auto]. destruct (dget d g) as [e|] eqn:G; [|split; auto; rewrite D; auto].
      split; cbn [k_actors k_chactors set_chactors]; [exact F1|]. intros d' E. inversion E; subst. apply (dset_all (fun e => Forall (fun ka => ready (snd ka)) e)); [auto|].
      apply dset_all; auto. exact (dget_all (fun e => Forall (fun ka => ready (snd ka)) e) d g e (F2 d eq_refl) G).
  Qed.
  Lemma update_at_fine : forall h p i r o h' r', update_at h p i r = (o, h', r') -> allfine h -> allfine h'.
  Proof.
    intros h p i r o h' r' E F. unfold update_at in E. destruct (actor_at h p) as [a|] eqn:A; [|inversion E; subst; auto].
    destruct (a_update a (lookup h i) r) as [[a'|e] r1] eqn:U; inversion E; subst; auto. apply put_fine; auto. eapply a_update_ready; eauto.
  Qed.
  Lemma resp_fixed_fine : forall b imp sh i ds prior h r o h' r', resp_fixed b imp sh i ds prior h r = (o, h', r') -> allfine h -> allfine h'.
  Proof.
    intros b imp sh i. induction ds as [|d ds IH]; intros prior h r o h' r' E F; cbn [resp_fixed] in E; [inversion E; subst; auto|].
    destruct (bget b d) as [l|]; [|inversion E; subst; auto].
    assert (T : forall o1 h1 r1, match dget imp d with
        | Some v => (Ok tt, kupd h i (fun c => set_locus c (dset (k_locus c) d v)), r)
        | None => if mem d sh then match render l (lookup h i) r with Ok (v, r') => (Ok tt, kset h i (loci_name l) v, r') | Err e => (Err e, h, r) end else (Ok tt, h, r)
        end = (o1, h1, r1) -> allfine h1).
    { intros o1 h1 r1 Q. destruct (dget imp d); [inversion Q; subst; apply kupd_fine; auto|].
      destruct (mem d sh); [|inversion Q; subst; auto]. destruct (render l (lookup h i) r) as [[v rv]|]; inversion Q; subst; auto. apply kset_fine; auto. }
    destruct (match dget imp d with Some v => _ | None => _ end) as [[[u|e] h1] r1]; specialize (T _ _ _ eq_refl); [|inversion E; subst; auto].
    destruct (evaluate l (lookup h1 i)); [|inversion E; subst; auto]. eapply IH; eauto.
  Qed.
  Lemma resp_actors_fine : forall i ps h r o h' r', resp_actors i ps h r = (o, h', r') -> allfine h -> allfine h'.
  Proof.
    intros i. induction ps as [|p ps IH]; intros h r o h' r' E F; cbn [resp_actors] in E; [inversion E; subst; auto|].
    destruct (update_at h p i r) as [[[u|e] h1] r1] eqn:U; apply update_at_fine in U; auto; [|inversion E; subst; auto]. eapply IH; eauto.
  Qed.
  Lemma respond_fine : forall f sc imp sh i h r o h' r', respond f sc imp sh i h r = (o, h', r') -> allfine h -> allfine h'.
  Proof.
    induction f as [|f IH]; intros sc imp sh i h r o h' r' E F; cbn [respond] in E; [inversion E; subst; auto|].
    destruct (nth_error h i) as [c|] eqn:C; [|inversion E; subst; auto]. destruct (group_of sc h i) as [g|]; [|inversion E; subst; auto].
    destruct (resp_fixed _ _ _ _ _ _ h r) as [[[pr|e] h1] r1] eqn:E1; apply resp_fixed_fine in E1; auto; [|inversion E; subst; auto].
    destruct (resp_actors _ _ _ r1) as [[[u|e] h2] r2] eqn:E2; apply resp_actors_fine in E2; try (apply kupd_fine; auto); [|inversion E; subst; auto].
    assert (Ch : forall js h r o h' r', each_child (respond f sc imp sh) js h r = (o, h', r') -> allfine h -> allfine h').
    { induction js as [|j js IHj]; intros ha ra oa hb rb Ec Fa; cbn [each_child] in Ec; [inversion Ec; subst; auto|].
      destruct (respond f sc imp sh j ha ra) as [[[x|e] hc] rc] eqn:Ej; apply IH in Ej; auto; [|inversion Ec; subst; auto]. eapply IHj; eauto. }
    destruct (each_child _ _ h2 r2) as [[[u2|e] h3] r3] eqn:E3; apply Ch in E3; auto; [|inversion E; subst; auto].
    inversion E; subst. destruct (filter _ sh); auto. apply kupd_fine; auto.
  Qed.
  Lemma make_actors_ready : forall (b : bn w) pas ps r l' r', make_actors b pas ps r = (Ok l', r') -> Forall (fun ka => ready (snd ka)) l'.
  Proof.
    intros b pas ps r l' r' E. unfold make_actors in E. destruct (mapM _ ps) as [acts|e]; [|discriminate]. revert r l' r' E.
    induction acts as [|[k a] acts IH]; intros r l' r' E; cbn [update_all] in E; [inversion E; subst; constructor|].
    destruct (if is_frozen a then a_update a pas r else (Ok a, r)) as [[a'|e] r1] eqn:U; [|discriminate].
    destruct (update_all pas acts r1) as [[l2|e] r2] eqn:E2; [|discriminate]. inversion E; subst. constructor; [|eapply IH; eauto]. cbn [snd].
    destruct (is_frozen a) eqn:Z; [eapply a_update_ready; eauto|]. inversion U; subst. destruct a'; [discriminate Z|exact I|exact I].
  Qed.
  Lemma generate_fine : forall sc g nick par exo h r o h' r', generate sc g nick par exo h r = (o, h', r') -> allfine h -> allfine h'.
  Proof.
    intros sc g nick par exo h r o h' r' E F. unfold generate in E. destruct (gen_exo _ _ _ _ _ r) as [[vs|e] r1]; [|inversion E; subst; auto].
    destruct (gen_fixed _ _ _ _ r1) as [[[vs' pr]|e] r2]; [|inversion E; subst; auto]. inversion E; subst. apply Forall_app. split; auto.
    constructor; [|constructor]. split; discriminate.
  Qed.
  Lemma sg_breed_fine : forall sc i nick gn exo h r o h' r', sg_breed sc i nick gn exo h r = (o, h', r') -> allfine h -> allfine h'.
  Proof.
    intros sc i nick gn exo h r o h' r' E K. unfold sg_breed in E. destruct (group_of sc h i); [|inversion E; subst; auto].
    destruct (negb _); [inversion E; subst; auto|]. destruct (dget _ gn); [|inversion E; subst; auto]. eapply generate_fine; eauto.
  Qed.
  Lemma breed_fine : forall sc i nick gn exo h r o h' r', breed sc i nick gn exo h r = (o, h', r') -> allfine h -> allfine h'.
  Proof.
    intros sc i nick gn exo h r o h' r' E K. unfold breed in E. destruct (nth_error h i); [|inversion E; subst; auto]. destruct (dmem _ _); [inversion E; subst; auto|].
    destruct (sg_breed sc i nick gn exo h r) as [[[j|e] h1] r1] eqn:B; apply sg_breed_fine in B; auto; inversion E; subst; auto. apply kupd_fine; auto.
  Qed.
  Lemma get_actors_fine : forall sc h i s r o h' r', get_actors sc h i s r = (o, h', r') -> allfine h -> allfine h'.
  Proof.
    intros sc h i s r o h' r' E K. unfold get_actors in E. destruct (nth_error h i) as [c|] eqn:C; [|inversion E; subst; auto].
    unfold group_of in E. rewrite C in E. destruct (dget (sc_groups sc) (k_group c)) as [g|] eqn:G; [|inversion E; subst; auto].
    destruct (if s then k_parent c else None) as [p|].
    - destruct (nth_error h p) as [pc|] eqn:P; [|inversion E; subst; auto].
      destruct (match k_chactors pc with Some d => dget d (k_group c) | None => None end) as [e|]; [inversion E; subst; auto|].
      destruct (make_actors _ _ _ r) as [[acts|e] r1] eqn:M; [|inversion E; subst; auto]. inversion E; subst. clear E. apply make_actors_ready in M.
      apply kupd_fine; auto. intros c0 C0 [F1 F2]. split; cbn [k_actors k_chactors set_chactors]; [exact F1|]. intros d D. inversion D; subst.
      apply (dset_all (fun e => Forall (fun ka => ready (snd ka)) e)); auto. assert (c0 = pc) by congruence. subst c0. destruct (k_chactors pc) as [d|]; [auto|constructor].
    - destruct (k_actors c) as [d|] eqn:A; [inversion E; subst; auto|]. destruct (make_actors _ _ _ r) as [[acts|e] r1] eqn:M; [|inversion E; subst; auto]. inversion E; subst. clear E.
      apply make_actors_ready in M. apply kupd_fine; auto. intros c0 C0 [F1 F2]. split; cbn [k_actors k_chactors set_actors]; [|exact F2]. intros d D. inversion D; subst. exact M.
  Qed.

  Lemma history_fine : forall sc h, history sc h -> allfine h.
  Proof.
    intros sc h H. induction H.
    - constructor.
    - unfold sc_generate in H0. destruct (dget _ _); [eapply generate_fine; eauto|inversion H0; subst; auto].
    - eapply breed_fine; eauto.
    - unfold get_sibling in H0. destruct (nth_error h i) as [c|]; [|inversion H0; subst; auto]. destruct (k_parent c); [eapply breed_fine; eauto|inversion H0; subst; auto].
    - eapply sg_breed_fine; eauto.
    - apply kupd_fine; auto.
    - unfold detach in H0. destruct (nth_error h i) as [c|]; [|inversion H0; subst; auto]. destruct (k_parent c) as [p|]; [|inversion H0; subst; auto].
      assert (R : allfine (remove_children h p (k_nick c))) by (apply kupd_fine; auto).
      destruct col; inversion H0; subst; auto.
      + apply fold_kset_fine. exact R.
      + apply kupd_fine; auto.
    - unfold clone_core in H0. destruct (nth_error h i) as [c|]; [|inversion H0; subst; auto]. destruct (k_parent c); [inversion H0; subst; auto|].
      destruct (group_of sc h i); [|inversion H0; subst; auto]. destruct (generate _ _ _ _ _ h r) as [[[j|e] h1] r1] eqn:G; apply generate_fine in G; auto; inversion H0; subst; auto.
    - apply kset_fine; auto.
    - eapply get_actors_fine; eauto.
    - unfold new_sampler in H0. destruct (actor_at h p) as [a|]; [|inversion H0; subst; auto]. destruct (is_frozen a); [|inversion H0; subst; auto]. eapply update_at_fine; eauto.
    - unfold impulse_core in H0. destruct (downstream _ _); [|inversion H0; subst; auto]. eapply respond_fine; eauto.
    - unfold impulse_list in H0. destruct (downstream _ _); [|inversion H0; subst; auto]. eapply respond_fine; eauto.
  Qed.
  Lemma history_ready : forall (sc : simcore w) h p f (l : loci w) rd s, history sc h -> actor_at h p = Some (AFrozen f l rd s) ->
    if is_rv_l l then exists d, s = SDist d else exists v, s = SVal v.
  Proof.
    intros sc h p f l rd s H A. apply history_fine in H. change (ready (AFrozen f l rd s)).
    destruct p as [i k|i g k]; cbn [actor_at] in A; destruct (nth_error h i) as [c|] eqn:C; try discriminate A;
      (assert (F : fine c) by (eapply Forall_forall; [exact H|eapply nth_error_In; eauto])); destruct F as [F1 F2].
    - destruct (k_actors c) as [d|]; [|discriminate A]. apply (dget_all ready d k); auto.
    - destruct (k_chactors c) as [d|]; [|discriminate A]. destruct (dget d g) as [e|] eqn:G; [|discriminate A]. apply (dget_all ready e k); auto.
      apply (dget_all (fun e => Forall (fun ka => ready (snd ka)) e) d g); auto.
  Qed.
End Ready.

(** Whatever was done with the cores before, a frozen actor can be sampled: never an exception, and
    never a value that nothing computed. Its values do not depend on the core the sampler belongs to. *)
Theorem C107_never_fails : forall w (sc : simcore w) h p f l rd s, history sc h -> actor_at h p = Some (AFrozen f l rd s) ->
  (is_rv_l l = true -> exists d, s = SDist d /\ forall i n r, exists o r', sampler_sample h p i n r = (Ok o, r') /\ from d r (values o) r')
  /\ (is_rv_l l = false -> exists v, s = SVal v /\ forall i n r, exists o, sampler_sample h p i n r = (Ok o, r) /\ forall x, In x (values o) -> x = v).
Proof.
  intros w sc h p f l rd s H A. pose proof (history_ready sc h p f l rd s H A) as R.
  split; intros B; rewrite B in R; [destruct R as [d ->]; exists d|destruct R as [v ->]; exists v]; (split; [reflexivity|]); intros i n r; unfold sampler_sample; cbv zeta.
  - assert (Q : forall k r, exists vs r', draw_calls k h p i r = (Ok vs, r') /\ from d r vs r').
    { clear n r. induction k as [|k IH]; intros r; cbn [draw_calls]; [exists [], r; split; [reflexivity|constructor]|].
      unfold call_sampler at 1. rewrite A. cbn [a_sample]. rewrite B. destruct (IH (snd (w_sample w d r))) as (vs & r' & E & F).
      destruct (w_sample w d r) as [v r1] eqn:W. cbn [snd] in E, F. rewrite E. exists (v :: vs), r'. split; [reflexivity|].
      replace v with (fst (w_sample w d r)) by (rewrite W; reflexivity). constructor. rewrite W. exact F. }
    destruct (Z.max n 1 =? 1)%Z.
    + destruct (Q 1 r) as (vs & r' & E & F). cbn [draw_calls] in E. destruct (call_sampler h p i r) as [[v|e] r1]; [|discriminate E]. inversion E; subst. exists (One v), r'. auto.
    + destruct (Q (Z.to_nat (Z.max n 1)) r) as (vs & r' & E & F). rewrite E. exists (Many vs), r'. auto.
  - assert (Q : forall k, exists vs, draw_calls k h p i r = (Ok vs, r) /\ forall x, In x vs -> x = v).
    { clear n. induction k as [|k IH]; cbn [draw_calls]; [exists []; split; [reflexivity|intros x []]|].
      unfold call_sampler at 1. rewrite A. cbn [a_sample]. rewrite B. destruct IH as (vs & E & F). rewrite E. exists (v :: vs). split; [reflexivity|].
      intros x [<-|X]; auto. }
    destruct (Z.max n 1 =? 1)%Z.
    + unfold call_sampler. rewrite A. cbn [a_sample]. rewrite B. exists (One v). split; [reflexivity|]. intros x [<-|[]]; reflexivity.
    + destruct (Q (Z.to_nat (Z.max n 1))) as (vs & E & F). rewrite E. exists (Many vs). auto.
Qed.
Print Assumptions C107_never_fails.

(** An actor that is not frozen renders its node anew at each call, from the values the core sees at
    that moment of the names it reads and of no others. *)
Theorem C107_single : forall w (h : cores w) p i f l rd r, actor_at h p = Some (ASingle f l rd) ->
  let vis x := if mem x rd then lookup h i x else None in
  (forall v r', render l vis r = Ok (v, r') -> call_sampler h p i r = (Ok v, r'))
  /\ (forall e, render l vis r = Err e -> call_sampler h p i r = (Err e, r))
  /\ forall h' j, actor_at h' p = Some (ASingle f l rd) -> (forall x, In x rd -> lookup h' j x = lookup h i x) -> call_sampler h' p j r = call_sampler h p i r.
Proof.
  intros w h p i f l rd r A vis.
  assert (G : forall h i, actor_at h p = Some (ASingle f l rd) ->
    call_sampler h p i r = match render l (fun x => if mem x rd then lookup h i x else None) r with Ok (v, r') => (Ok v, r') | Err e => (Err e, r) end).
  { clear. intros h i A. unfold call_sampler. rewrite A. cbn [a_sample]. unfold render1.
    rewrite (render_agree l _ (fun x => if mem x rd then lookup h i x else None) r (fun x _ => read_upstream_get rd (lookup h i) x)). reflexivity. }
  split; [|split].
  - intros v r' E. rewrite (G h i A). fold vis. rewrite E. reflexivity.
  - intros e E. rewrite (G h i A). fold vis. rewrite E. reflexivity.
  - intros h' j A' L. rewrite (G h i A), (G h' j A'). rewrite (render_agree l (fun x => if mem x rd then lookup h' j x else None) (fun x => if mem x rd then lookup h i x else None) r); [reflexivity|].
    intros x _. destruct (mem x rd) eqn:M; auto. apply L. apply mem_In. exact M.
Qed.
Print Assumptions C107_single.

(** two individuals, of which the first asked for its samplers *)
Definition exbare6 : cores exw :=
  snd (fst (breed exsc6 0 "i1" "ind" [] (snd (fst (sc_generate exsc6 "root" [("a", PZ 1); ("s", PZ 2)] [] 0))) 4)).
Lemma exbare6_history : history exsc6 exbare6.
Proof. apply st_breed, st_root. constructor. Qed.
Example C107_example : history exsc6 exh6 /\ fst (fst (list_actors exsc6 exh6 1 true 0)) = Ok ["x"]
  /\ fst (sampler_sample exh6 (PShared 0 "ind" "x") 1 3 4) = Ok (Many (w:=exw) [PZ 5; PZ 6; PZ 7])
  /\ fst (sampler_sample exh6 (PShared 0 "ind" "x") 1 0 4) = Ok (One (w:=exw) (PZ 5))
  /\ fst (fst (get_sampler exsc6 exh6 2 "x" true 4)) = Ok (PShared 0 "ind" "x")
  /\ fst (fst (get_sampler exsc6 exh6 2 "y" true 4)) = Err KeyError
  /\ fst (fst (get_samplers exsc6 exh6 2 true 4)) = Ok [PShared 0 "ind" "x"]
  /\ fst (sampler_sample (snd (fst (get_samplers exsc6 exh6 2 true 4))) (PShared 0 "ind" "x") 2 2 4) = Ok (Many (w:=exw) [PZ 104; PZ 105]).
Proof. split; [exact exh6_history|]. splits; vm_compute; try reflexivity. Qed.
Example C107_example_child : history exsc6 exbare6 /\ get_child_samplers exsc6 exbare6 0 "ag" = Err AssertionError
  /\ map k_group exbare6 = ["ag"; "ind"] /\ get_child_samplers exsc6 exbare6 0 "ind" = Err TypeError
  /\ get_child_samplers exsc6 (snd (fst (get_actors exsc6 exbare6 1 true 0))) 0 "ind" = Ok [PShared 0 "ind" "x"].
Proof. split; [exact exbare6_history|]. splits; vm_compute; reflexivity. Qed.
(** a function that was frozen gives the same value again and again *)
Definition exfix : cores exw := snd (fst (get_actors exsc exh2 1 false 9)).
Example C107_example_function : fst (sampler_sample exfix (PLocal 1 "z") 1 3 4) = Ok (Many (w:=exw) [PZ 128; PZ 128; PZ 128])
  /\ snd (sampler_sample exfix (PLocal 1 "z") 1 3 4) = 4.
Proof. splits; vm_compute; reflexivity. Qed.
(** the actor of z that the individuals share is not frozen *)
Definition exshared : cores exw := snd (fst (get_actors exsc exh2 1 true 9)).
Example C107_example_single : (match actor_at exshared (PShared 0 "ind" "z") with Some (ASingle _ l rd) => Some (rd, loci_name l) | _ => None end) = Some (["y"; "a"], "z")
  /\ call_sampler exshared (PShared 0 "ind" "z") 1 4 = (Ok (PZ 128), 4)
  /\ fst (call_sampler (kset exshared 1 "y" (PZ 1)) (PShared 0 "ind" "z") 1 4) <> Ok (PZ 128).
Proof. splits; vm_compute; try reflexivity. discriminate. Qed.
