(** * Property C114: distributions describe themselves, and draw what they are asked for *)

Require Import Verif.ModelNum Verif.ModelProb Verif.ModelDescr Verif.ProofBase Coq.ZArith.ZArith.
Open Scope R_scope.

(** ** text and JSON *)

Lemma create_parts : forall blue seq a t o, shop_create blue seq a t = Ok o ->
  seq <> EmptyString /\ exists b l, blue seq = Ok b /\ bp_create b = Ok l
  /\ o = if a then mkObj l (Some seq) (Some [("Args"%string, bp_dict b)]) else mkObj l None None.
Proof.
  intros blue seq a t o H. unfold shop_create in H. apply bind_ok in H. destruct H as [b [H1 H2]].
  apply bind_ok in H2. destruct H2 as [l [H2 H3]]. destruct seq as [|x seq]; [discriminate|]. split; [discriminate|].
  exists b, l. splits; auto. destruct a; injection H3 as <-; auto.
Qed.

(** What parse_distribution makes is named by the text it was made from, as given and not as
    completed, and gives its arguments under Args; being described changes nothing else. *)
Theorem C114_described : forall quote blue seq to_complete o, shop_create blue seq true to_complete = Ok o ->
  obj_str quote o = Ok (quote seq)
  /\ (exists b, blue seq = Ok b /\ obj_json o = Ok [("Args"%string, bp_dict b)])
  /\ exists o', shop_create blue seq false to_complete = Ok o' /\ o_law o' = o_law o.
Proof.
  intros quote blue seq t o H. destruct (create_parts _ _ _ _ _ H) as [N [b [l [B [L ->]]]]]. splits.
  - unfold obj_str. simpl. destruct seq; congruence.
  - exists b. split; auto.
  - exists (mkObj l None None). split; auto. unfold shop_create. destruct seq as [|x seq]; [congruence|].
    rewrite B. simpl. rewrite L. reflexivity.
Qed.
Print Assumptions C114_described.

(** Made without a description, or not by the workshop at all, a distribution cannot be printed
    and has no JSON. *)
Theorem C114_undescribed : forall quote o, (exists blue seq t, shop_create blue seq false t = Ok o) \/ (exists l, o = obj_new l) ->
  obj_str quote o = Err TypeError /\ obj_json o = Err AttributeError.
Proof.
  intros quote o H. assert (E : exists l, o = mkObj l None None).
  { destruct H as [[blue [seq [t H]]]|[l ->]]; [|exists l; auto]. destruct (create_parts _ _ _ _ _ H) as [_ [b [l [_ [_ ->]]]]]. exists l. auto. }
  destruct E as [l ->]. auto.
Qed.
Print Assumptions C114_undescribed.

(** The JSON tells the distributions apart though it does not name the family: equal arguments
    under equal names, whatever the texts and the variables in them, mean the same blueprint. *)
Lemma bp_dict_inj : forall b b', bp_dict b = bp_dict b' -> b = b'.
Proof.
  intros b b' H. destruct b as [c|kv], b' as [c'|kv']; try (destruct c); try (destruct c'); simpl in H; try discriminate; injection H; intros; subst; auto.
  apply eq_IZR in H1. subst. auto.
Qed.
Theorem C114_json : forall blue blue' seq seq' t t' o o' j, shop_create blue seq true t = Ok o -> shop_create blue' seq' true t' = Ok o' ->
  obj_json o = Ok j -> obj_json o' = Ok j -> o_law o = o_law o'.
Proof.
  intros blue blue' seq seq' t t' o o' j H H' J J'.
  destruct (create_parts _ _ _ _ _ H) as [_ [b [l [_ [L ->]]]]]. destruct (create_parts _ _ _ _ _ H') as [_ [b' [l' [_ [L' ->]]]]].
  unfold obj_json in *. simpl in *. assert (E : bp_dict b = bp_dict b') by congruence. apply bp_dict_inj in E. congruence.
Qed.
Print Assumptions C114_json.

(** The text alone does not: the same text with other variables is another distribution. *)
Theorem C114_text_refuted : exists blue blue' seq o o' quote, parse_distribution blue seq = Ok o /\ parse_distribution blue' seq = Ok o'
  /\ obj_str quote o = obj_str quote o' /\ o_law o <> o_law o'.
Proof.
  exists (fun _ => Ok (BCre (CUniform 0 1))), (fun _ => Ok (BCre (CUniform 0 2))), "unif(0, k)"%string. unfold parse_distribution, shop_create. simpl.
  unfold create. simpl. do 2 eexists. exists (fun s => s). splits; try reflexivity. simpl. intros K. injection K as K. lra.
Qed.
Print Assumptions C114_text_refuted.

Example C114_example : exists o, parse_distribution (fun _ => Ok (BCre (CNorm 1 2))) "norm(1, s)" = Ok o
  /\ o_law o = LSp (SNorm 1 2) /\ obj_str (fun s => ("'" ++ s ++ "'")%string) o = Ok "'norm(1, s)'"%string
  /\ obj_json o = Ok [("Args"%string, [("mean"%string, FNum 1); ("sd"%string, FNum 2)])].
Proof.
  unfold parse_distribution, shop_create. simpl. unfold create. simpl. replace (rltb 0 2) with true by (symmetry; apply rltb_true; lra). simpl.
  eexists. splits; reflexivity.
Qed.
Example C114_example_undescribed : exists o, shop_create (fun _ => Ok (BCat [("a"%string, 1)])) "cat(kv)" false true = Ok o
  /\ obj_str (fun s => s) o = Err TypeError /\ obj_json o = Err AttributeError.
Proof. eexists. splits; reflexivity. Qed.

(** ** samples *)

Lemma draws_length : forall G A (f : G -> A * G) n g, List.length (fst (draws f n g)) = n.
Proof. induction n as [|n IH]; intros g; simpl; auto. destruct (f g) as [x g1]. specialize (IH g1). destruct (draws f n g1). simpl in *. auto. Qed.

(** what sampling n values should return: a bare value for one, an array of n otherwise *)
Definition asked {A} (n : nat) (P : A -> Prop) (r : drawn A) : Prop :=
  match r with Bare x => n = 1%nat /\ P x | Arr l => n <> 1%nat /\ List.length l = n /\ Forall P l end.

(** Every distribution of numbers gives as many as asked for, one of them bare; a constant is
    bare also when none is asked for. The values are those of the family, rounded for counts. *)
Theorem C114_sample : forall G (rvs : sp -> G -> R * G) rnd d n g,
  let r := fst (sp_sample rvs rnd d n g) in
  ((forall k, d <> SConst k) \/ (0 < n)%nat ->
   asked n (fun x => match d with
                     | SConst k => x = k
                     | SBinom _ _ | SPoisson _ => exists g0, x = rnd (fst (rvs d g0))
                     | _ => exists g0, x = fst (rvs d g0)
                     end) r)
  /\ (forall k, d = SConst k -> n = 0%nat -> r = Bare k)
  /\ sp_call rvs rnd d g = sp_sample rvs rnd d 1 g /\ (exists x, fst (sp_call rvs rnd d g) = Bare x).
Proof.
  intros G rvs rnd d n g r.
  assert (D : forall k h x, In x (fst (draws (rvs d) k h)) -> exists g0, x = fst (rvs d g0)).
  { induction k as [|m IH]; intros g0 x Hx; simpl in Hx; [contradiction|]. destruct (rvs d g0) as [y g1] eqn:E.
    destruct (draws (rvs d) m g1) as [l g2] eqn:E2. simpl in Hx. destruct Hx as [<-|Hx]; [exists g0; rewrite E; auto|].
    apply (IH g1). rewrite E2. auto. }
  pose proof (draws_length _ _ (rvs d) n g) as L. specialize (D n g).
  split; [|split; [|split]].
  - intros Hn. subst r.
    assert (K : (exists k, d = SConst k) \/ forall k, d <> SConst k) by (destruct d; try (right; intros; discriminate); left; eexists; reflexivity).
    destruct K as [[k ->]|K].
    + destruct Hn as [Hn|Hn]; [destruct (Hn k eq_refl)|]. simpl. destruct n as [|[|n]]; [inversion Hn|split; auto|].
      split; [auto|]. split; [apply repeat_length|]. apply Forall_forall. intros x Hx. apply repeat_spec in Hx. auto.
    + destruct (Nat.eq_dec n 1) as [->|N1].
      * unfold sp_sample. destruct (rvs d g) as [x g'] eqn:E. assert (X : x = fst (rvs d g)) by (rewrite E; auto).
        destruct d; try (destruct (K k eq_refl)); simpl; (split; [auto|exists g; congruence]).
      * destruct (draws (rvs d) n g) as [l g'] eqn:E. simpl in L, D.
        assert (S : fst (sp_sample rvs rnd d n g) = Arr (map (fun x => if integral d then rnd x else x) l)).
        { unfold sp_sample. destruct d; try (destruct (K k eq_refl)); (destruct n as [|[|n]]; [|congruence|]); rewrite E; auto. }
        rewrite S. unfold asked. split; [auto|]. split; [rewrite map_length; auto|]. apply Forall_forall. intros x Hx.
        apply in_map_iff in Hx. destruct Hx as [y [<- Hy]]. destruct (D y Hy) as [g0 ->].
        destruct d; try (destruct (K k eq_refl)); simpl; exists g0; auto.
  - intros k -> ->. reflexivity.
  - reflexivity.
  - unfold sp_call, sp_sample. destruct d; try (eexists; reflexivity); destruct (rvs _ g) as [x g']; eexists; reflexivity.
Qed.
Print Assumptions C114_sample.

(** A table of categories can be sampled exactly if it is not empty, its weights do not sum to
    zero and none has the sign opposite to the sum; ValueError otherwise. The values are then
    categories, as many as asked for, one of them bare. *)
Theorem C114_categories : forall G (roll : list flt -> G -> nat * G) kv n g,
  let ok := kv <> [] /\ cat_total kv <> 0 /\ Forall (fun e => 0 <= snd e * cat_total kv) kv in
  let r := fst (cat_sample roll kv n g) in
  (ok -> exists s, r = Ok s /\ asked n (fun x => exists v, In (x, v) kv) s)
  /\ (~ ok -> r = Err ValueError).
Proof.
  intros G roll kv n g ok r.
  assert (P : forallb p_ok (map snd (cat_p kv)) = true <-> kv = [] \/ (cat_total kv <> 0 /\ Forall (fun e => 0 <= snd e * cat_total kv) kv)).
  { unfold cat_p. rewrite map_map. simpl. rewrite forallb_forall. split.
    - intros H. destruct kv as [|e0 kv0]; [auto|]. right. remember (e0 :: kv0) as kv eqn:K.
      assert (Z : cat_total kv <> 0).
      { intros Z. specialize (H (fdiv (snd e0) (cat_total kv)) ltac:(apply in_map_iff; exists e0; split; auto; subst kv; left; auto)).
        unfold fdiv in H. rewrite Z in H. replace (reqb 0 0) with true in H by (symmetry; apply reqb_true; auto).
        destruct (reqb (snd e0) 0); [discriminate|]. destruct (rltb 0 (snd e0)); discriminate. }
      split; auto. apply Forall_forall. intros e He.
      specialize (H (fdiv (snd e) (cat_total kv)) ltac:(apply in_map_iff; exists e; auto)). rewrite fdiv_fin in H by auto. simpl in H.
      apply rleb_true in H. replace (snd e * cat_total kv) with (snd e / cat_total kv * (cat_total kv * cat_total kv)) by (field; auto).
      apply Rmult_le_pos; auto. apply Rle_0_sqr.
    - intros [->|[Z F]]; [intros x []|]. intros x Hx. apply in_map_iff in Hx. destruct Hx as [e [<- He]]. rewrite Forall_forall in F.
      rewrite fdiv_fin by auto. simpl. apply rleb_true.
      replace (snd e / cat_total kv) with (snd e * cat_total kv * / (cat_total kv * cat_total kv)) by (field; auto).
      apply Rmult_le_pos; [auto|]. apply Rlt_le, Rinv_0_lt_compat. apply Rsqr_pos_lt. auto. }
  subst r. unfold cat_sample, choice. destruct kv as [|e0 kv0].
  - simpl. split; [intros [K _]; congruence|auto].
  - remember (e0 :: kv0) as kv eqn:K. assert (C : dkeys kv = fst e0 :: dkeys kv0) by (subst kv; auto). rewrite C. rewrite <- C.
    destruct (forallb p_ok (map snd (cat_p kv))) eqn:E.
    + destruct P as [P _]. specialize (P eq_refl). destruct P as [P|P]; [subst kv; discriminate|].
      split; [|intros N; destruct N; subst ok; split; [subst kv; discriminate|auto]]. intros _.
      pose proof (draws_length _ _ (roll (map snd (cat_p kv))) n g) as L. destruct (draws (roll (map snd (cat_p kv))) n g) as [l g'].
      simpl in L. cbn [fst]. simpl bind.
      assert (Q : forall i, exists v, In (nth (i mod List.length (dkeys kv)) (dkeys kv) (fst e0), v) kv).
      { intros i. assert (B : (i mod List.length (dkeys kv) < List.length (dkeys kv))%nat) by (apply Nat.mod_upper_bound; rewrite C; simpl; discriminate).
        pose proof (nth_In (dkeys kv) (fst e0) B) as I. unfold dkeys in I at 3. apply in_map_iff in I. destruct I as [[a v] [A1 A2]]. simpl in A1. exists v. rewrite <- A1. auto. }
      destruct (Nat.eqb_spec n 1) as [N|N].
      * rewrite N in L. destruct l as [|i [|? ?]]; try discriminate. eexists. split; [reflexivity|]. simpl. split; auto.
      * eexists. split; [reflexivity|]. simpl. split; auto. split; [rewrite map_length; auto|]. apply Forall_forall. intros x Hx.
        apply in_map_iff in Hx. destruct Hx as [i [<- _]]. auto.
    + split; [|auto]. intros [_ O]. destruct P as [_ P]. assert (X : false = true) by (apply P; right; auto). discriminate.
Qed.
Print Assumptions C114_categories.

Example C114_example_sample : create (CBinom 4 (1/2)) = Ok (SBinom 4 (1/2))
  /\ fst (sp_sample (fun _ g => (g, g + 1)) (fun x => x) (SBinom 4 (1/2)) 2 0) = Arr [0; 0 + 1]
  /\ fst (sp_sample (fun _ g => (g, g + 1)) (fun x => x) (SBinom 4 (1/2)) 1 0) = Bare 0.
Proof.
  split; [|split; reflexivity]. unfold create. simpl. replace (rleb 0 (1/2)) with true by (symmetry; apply rleb_true; lra).
  replace (rleb (1/2) 1) with true by (symmetry; apply rleb_true; lra). reflexivity.
Qed.
Example C114_example_categories : let kv := [("a"%string, 1); ("b"%string, 3)] in
  (kv <> [] /\ cat_total kv <> 0 /\ Forall (fun e => 0 <= snd e * cat_total kv) kv)
  /\ ~ (cat_total [("a"%string, 1); ("b"%string, -1)] <> 0).
Proof.
  unfold cat_total, rsum. simpl. splits; try discriminate; try lra. repeat constructor; simpl; lra.
Qed.
