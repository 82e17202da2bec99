(** * Properties of the workshops: C95 *)

Require Import Verif.Base Verif.World Verif.ModelExpr Verif.ModelAtelier Verif.SpecExpr Verif.ProofBase Verif.ProofExpr Verif.ExWorld Coq.ZArith.ZArith.

(** [c] is what was last registered under [n] in the workshop called [s] *)
Definition registers {w C} (s n : name) (c : C) (os : list (rop w C)) : Prop :=
  exists a b, os = a ++ RRegister s n c :: b /\ forall c', ~ In (RRegister s n c') b.

(** the names registered in the workshop called [s], in the order of the calls *)
Definition registered {w C} (s : name) (os : list (rop w C)) : list name :=
  flat_map (fun o => match o with RRegister s' n _ => if String.eqb s s' then [n] else [] | _ => [] end) os.

(** a list without its repetitions, in the order of the first occurrences *)
Fixpoint firsts (seen l : list name) : list name :=
  match l with
  | [] => []
  | x :: l' => if in_dec string_dec x seen then firsts seen l' else x :: firsts (x :: seen) l'
  end.

(** names and texts in an expression (a quoted argument of a definition is read back as a name) *)
Fixpoint strs (e : expr) : list name :=
  match e with
  | ENum _ | EName _ => []
  | EStr s => [s]
  | EOp _ args => flat_map strs args
  | ECall _ args kws => flat_map strs args ++ flat_map (fun p => strs (snd p)) kws
  end.
Definition names_in (e : expr) : list name := enames e ++ strs e.

Section C95.
  Context {w : world} {C : Type} (cls : C -> V w) (fields : C -> list (name * option string)) (bdict : V w).
  Notation blueprint := (ws_blueprint cls fields bdict).
  Notation run := (reg_run cls fields bdict).
  Notation do_ := (reg_do cls fields bdict).
  Notation step := (rop_do cls fields bdict).

  (** an operation on the workshop [s] that gets as far as evaluating a definition *)
  Definition evaluates (os : list (rop w C)) (s : name) : Prop :=
    exists a o b e loc tc, os = a ++ o :: b /\ (o = RBlueprint s e loc tc \/ o = RCreate s e loc tc)
      /\ (tc = true -> exists e', ws_complete cls fields bdict (shop (run a reg_new) s) e = Ok e').

  Lemma update_length : forall A (l : list A) i x, length (update l i x) = length l.
  Proof. induction l as [|y l IH]; intros [|i] x; simpl; auto. Qed.
  Lemma update_nth : forall A (l : list A) i x j d, i < length l -> nth j (update l i x) d = if Nat.eqb j i then x else nth j l d.
  Proof.
    induction l as [|y l IH]; intros [|i] x [|j] d H; simpl in *; try lia; auto. rewrite IH by lia. auto.
  Qed.

  Definition reg_wf (r : registry C) : Prop :=
    (forall s h, dget (r_names r) s = Some h -> h < length (r_shops r))
    /\ (forall s s' h, dget (r_names r) s = Some h -> dget (r_names r) s' = Some h -> s = s').

  Lemma get_wf : forall s r, reg_wf r -> exists h r', get_atelier (Some s) r = (Ok h, r') /\ reg_wf r' /\ h < length (r_shops r')
    /\ dget (r_names r') s = Some h /\ (forall s' h', dget (r_names r) s' = Some h' -> dget (r_names r') s' = Some h')
    /\ (forall s', s' <> s -> dget (r_names r') s' = dget (r_names r) s')
    /\ (forall h', shop_at r' h' = shop_at r h').
  Proof.
    intros s r [W1 W2]. unfold get_atelier. destruct (dget (r_names r) s) as [h|] eqn:E.
    - exists h, r. splits; auto. split; auto. eapply W1; eauto.
    - eexists _, _. split; [reflexivity|]. cbn [r_names r_shops].
      assert (D : forall x, dget (dset (r_names r) s (length (r_shops r))) x = if String.eqb x s then Some (length (r_shops r)) else dget (r_names r) x)
        by (intros; apply dget_dset).
      splits.
      + split; cbn [r_names r_shops].
        * intros s' h H. rewrite D in H. rewrite app_length; simpl. destruct (String.eqb s' s); [injection H as <-; lia|]. apply W1 in H. lia.
        * intros s1 s2 h H1 H2. rewrite D in H1, H2. destruct (String.eqb_spec s1 s), (String.eqb_spec s2 s); subst; auto.
          -- injection H1 as <-. apply W1 in H2. lia.
          -- injection H2 as <-. apply W1 in H1. lia.
          -- eauto.
      + rewrite app_length; simpl; lia.
      + rewrite D, String.eqb_refl. auto.
      + intros s' h' H. rewrite D. destruct (String.eqb_spec s' s); subst; congruence.
      + intros s' N. rewrite D. destruct (String.eqb_spec s' s); congruence.
      + intros h'. unfold shop_at; cbn [r_shops]. destruct (Nat.ltb_spec h' (length (r_shops r))).
        * rewrite app_nth1; auto.
        * rewrite app_nth2 by lia. rewrite (nth_overflow (r_shops r)) by lia. destruct (h' - length (r_shops r)) as [|[|k]]; auto.
  Qed.

  Lemma do_wf : forall o r, reg_wf r -> reg_wf (do_ o r).
  Proof.
    intros o r W. unfold reg_do. destruct (get_wf (rop_shop o) r W) as (h & r' & -> & [W1 W2] & _).
    split; cbn [set_shop r_names r_shops]; [|exact W2]. intros s h' H. rewrite update_length. eauto.
  Qed.

  Lemma new_wf : reg_wf (@reg_new C).
  Proof. split; intros; discriminate. Qed.

  Lemma run_wf : forall os r, reg_wf r -> reg_wf (run os r).
  Proof. induction os as [|o os IH]; intros r W; simpl; auto. apply IH. apply do_wf. auto. Qed.

  Lemma shop_spec : forall (r : registry C) s, shop r s = match dget (r_names r) s with Some h => shop_at r h | None => [] end.
  Proof.
    intros r s. unfold shop, get_atelier. destruct (dget (r_names r) s) as [h|] eqn:E; auto.
    unfold shop_at. cbn [r_shops]. rewrite app_nth2 by lia. rewrite Nat.sub_diag. auto.
  Qed.

  Lemma shop_do : forall o r s, reg_wf r -> shop (do_ o r) s = if String.eqb s (rop_shop o) then step o (shop r s) else shop r s.
  Proof.
    intros o r s W. rewrite !shop_spec. unfold reg_do.
    destruct (get_wf (rop_shop o) r W) as (k & rk & E & [Wk1 Wk2] & Lk & Dk & Kk & Nk & Sk).
    assert (S0 : shop r (rop_shop o) = shop_at rk k) by (unfold shop; rewrite E; auto). rewrite shop_spec in S0.
    rewrite E. cbn [set_shop r_names]. destruct (String.eqb_spec s (rop_shop o)) as [->|N].
    - rewrite Dk, S0. unfold shop_at at 1. cbn [set_shop r_shops]. rewrite update_nth by auto. rewrite Nat.eqb_refl. auto.
    - rewrite Nk by auto. destruct (dget (r_names r) s) as [h|] eqn:D; auto. rewrite <- Sk. unfold shop_at at 1. cbn [set_shop r_shops].
      rewrite update_nth by auto. destruct (Nat.eqb_spec h k) as [->|M]; auto. exfalso. apply N. eapply Wk2; eauto.
  Qed.

  Lemma run_snoc : forall os o r, run (os ++ [o]) r = do_ o (run os r).
  Proof. intros. unfold reg_run. rewrite fold_left_app. auto. Qed.

  (** how one operation changes its workshop *)
  Lemma step_spec : forall o ws n, dget (step o ws) n =
    match o with
    | RGet _ => dget ws n
    | RRegister _ m c => if String.eqb n m then Some (Creator c) else dget ws n
    | RBlueprint _ e _ tc | RCreate _ e _ tc =>
        match (if tc then ws_complete cls fields bdict ws e else Ok e) with
        | Ok _ => if String.eqb n "__builtins__" then Some (match dget ws n with Some x => x | None => Builtins end) else dget ws n
        | Err _ => dget ws n
        end
    end.
  Proof.
    intros o ws n.
    assert (B : dget (with_builtins ws) n = if String.eqb n "__builtins__" then Some (match dget ws n with Some x => x | None => Builtins end) else dget ws n).
    { unfold with_builtins, dmem. destruct (dget ws "__builtins__") eqn:D.
      - destruct (String.eqb_spec n "__builtins__"); subst; auto. rewrite D. auto.
      - rewrite dget_dset. destruct (String.eqb_spec n "__builtins__"); subst; auto. rewrite D. auto. }
    destruct o as [s|s m c|s e loc tc|s e loc tc]; simpl; auto.
    - unfold register. apply dget_dset.
    - unfold ws_blueprint. destruct (if tc then _ else _); simpl; auto.
    - unfold ws_create, ws_blueprint. destruct (if tc then _ else _); simpl; auto.
  Qed.

  Lemma entry_kind : forall os s n, n <> "__builtins__"%string -> dget (shop (run os reg_new) s) n <> Some Builtins.
  Proof.
    intros os s n N. induction os as [|o os IH] using rev_ind; [discriminate|].
    rewrite run_snoc, shop_do by (apply run_wf; apply new_wf). destruct (String.eqb_spec s (rop_shop o)); auto.
    rewrite step_spec. apply String.eqb_neq in N. destruct o as [s'|s' m c|s' e' loc tc|s' e' loc tc]; auto; try rewrite N.
    - destruct (String.eqb n m); [discriminate|auto].
    - destruct (if tc then _ else _); auto.
    - destruct (if tc then _ else _); auto.
  Qed.

  Lemma registers_snoc : forall (os : list (rop w C)) o s n c, registers s n c (os ++ [o]) <->
    o = RRegister s n c \/ (registers s n c os /\ forall c', o <> RRegister s n c').
  Proof.
    intros os o s n c. split.
    - intros (a & b & E & N). destruct b as [|x b] using rev_ind.
      + apply app_inj_tail in E. destruct E as [_ ->]. auto.
      + clear IHb. rewrite app_comm_cons, app_assoc in E. apply app_inj_tail in E. destruct E as [-> ->].
        right. split.
        * exists a, b. split; auto. intros c' H. apply (N c'). apply in_or_app. auto.
        * intros c' ->. apply (N c'). apply in_or_app. simpl. auto.
    - intros [->|[(a & b & -> & N) M]].
      + exists os, []. split; auto.
      + exists a, (b ++ [o]). split; [rewrite <- app_assoc; auto|]. intros c' H. apply in_app_or in H.
        destruct H as [H|[H|[]]]; [apply (N c'); auto|]. apply (M c'). auto.
  Qed.

  (** names are bound to what was registered last under them in the workshop of that name *)
  Lemma entries : forall os s n c, n <> "__builtins__"%string ->
    (dget (shop (run os reg_new) s) n = Some (Creator c) <-> registers s n c os).
  Proof.
    intros os s n c N. induction os as [|o os IH] using rev_ind.
    - split; [discriminate|]. intros (a & b & E & _). destruct a; discriminate E.
    - rewrite run_snoc, shop_do, registers_snoc by (apply run_wf; apply new_wf).
      assert (F : (forall c', o <> RRegister s n c') ->
                  ((if String.eqb s (rop_shop o) then dget (step o (shop (run os reg_new) s)) n else dget (shop (run os reg_new) s) n)
                   = dget (shop (run os reg_new) s) n)).
      { intros D. destruct (String.eqb_spec s (rop_shop o)); auto. rewrite step_spec.
        assert (N' := N). apply String.eqb_neq in N'. destruct o as [s'|s' m c'|s' e' loc tc|s' e' loc tc]; auto; try rewrite N'.
        - simpl in e. subst s'. destruct (String.eqb_spec n m); auto. subst. exfalso. apply (D c'). auto.
        - destruct (if tc then _ else _); auto.
        - destruct (if tc then _ else _); auto. }
      assert (G : (exists c', o = RRegister s n c') \/ (forall c', o <> RRegister s n c')).
      { destruct o as [s'|s' m c'|s' e' loc tc|s' e' loc tc]; try (right; discriminate).
        destruct (string_dec s s') as [<-|]; [|right; intros c1 H; injection H; congruence].
        destruct (string_dec n m) as [<-|]; [|right; intros c1 H; injection H; congruence]. left. eauto. }
      destruct G as [[c' ->]|G].
      + cbn [rop_shop]. rewrite String.eqb_refl, step_spec, String.eqb_refl. split.
        * intros H. injection H as ->. auto.
        * intros [H|[_ H]]; [injection H as ->; auto|]. exfalso. apply (H c'). auto.
      + specialize (F G). assert (F' : dget (if String.eqb s (rop_shop o) then step o (shop (run os reg_new) s) else shop (run os reg_new) s) n
           = dget (shop (run os reg_new) s) n) by (rewrite <- F; destruct (String.eqb s (rop_shop o)); auto).
        match goal with |- (dget ?x n = _ <-> _) => replace (dget x n) with (dget (shop (run os reg_new) s) n) by (symmetry; exact F') end.
        destruct IH as [I1 I2]. split; [auto|]. intros [->|[H _]]; auto. exfalso. apply (G c). auto.
  Qed.

  Lemma firsts_snoc : forall l seen x, firsts seen (l ++ [x]) = firsts seen l ++ (if in_dec string_dec x (seen ++ l) then [] else [x]).
  Proof.
    induction l as [|y l IH]; intros seen x; simpl.
    - rewrite app_nil_r. destruct (in_dec string_dec x seen); auto.
    - destruct (in_dec string_dec y seen) as [Hy|Hy].
      + rewrite IH. f_equal. destruct (in_dec string_dec x (seen ++ l)) as [a|a], (in_dec string_dec x (seen ++ y :: l)) as [b|b]; auto; exfalso.
        * apply b. apply in_or_app. apply in_app_or in a. simpl. tauto.
        * apply a. apply in_or_app. apply in_app_or in b. destruct b as [b|[<-|b]]; auto.
      + simpl. f_equal. rewrite IH. f_equal. destruct (in_dec string_dec x ((y :: seen) ++ l)) as [a|a], (in_dec string_dec x (seen ++ y :: l)) as [b|b]; auto; exfalso.
        * apply b. apply in_or_app. simpl in a. rewrite in_app_iff in a. simpl. tauto.
        * apply a. simpl. rewrite in_app_iff. apply in_app_or in b. simpl in b. tauto.
  Qed.

  Lemma firsts_In : forall l seen x, In x (firsts seen l) <-> In x l /\ ~ In x seen.
  Proof.
    induction l as [|y l IH]; intros seen x; simpl; [tauto|]. destruct (in_dec string_dec y seen) as [Hy|Hy].
    - rewrite IH. split; [tauto|]. intros [[<-|H] N]; tauto.
    - simpl. rewrite IH. simpl. split.
      + intros [<-|[H N]]; tauto.
      + intros [[<-|H] N]; auto. destruct (string_dec y x); auto. right. tauto.
  Qed.

  Lemma filter_sadd : forall f x l, filter f (sadd x l) = if f x then sadd x (filter f l) else filter f l.
  Proof.
    intros f x l. unfold sadd. destruct (mem x l) eqn:M.
    - destruct (f x) eqn:E; auto. replace (mem x (filter f l)) with true; auto. symmetry. apply mem_In. apply filter_In. apply mem_In in M. auto.
    - rewrite filter_app. simpl. destruct (f x) eqn:E; [|apply app_nil_r].
      replace (mem x (filter f l)) with false; auto. symmetry. apply mem_false. apply mem_false in M. intros H. apply filter_In in H. tauto.
  Qed.

  Lemma keys_step : forall o (ws : workshop C), dkeys (step o ws) = match o with
    | RGet _ => dkeys ws
    | RRegister _ m c => sadd m (dkeys ws)
    | RBlueprint _ e _ tc | RCreate _ e _ tc =>
        match (if tc then ws_complete cls fields bdict ws e else Ok e) with Ok _ => sadd "__builtins__"%string (dkeys ws) | Err _ => dkeys ws end
    end.
  Proof.
    intros o ws.
    assert (B : dkeys (with_builtins ws) = sadd "__builtins__"%string (dkeys ws)).
    { unfold with_builtins. destruct (dmem "__builtins__" ws) eqn:D; [|apply dkeys_dset]. apply dmem_In in D. unfold sadd.
      apply mem_In in D. rewrite D. auto. }
    destruct o as [s|s m c|s e loc tc|s e loc tc]; simpl; auto.
    - apply dkeys_dset.
    - unfold ws_blueprint. destruct (if tc then _ else _); simpl; auto.
    - unfold ws_create, ws_blueprint. destruct (if tc then _ else _); simpl; auto.
  Qed.

  (** the listing, apart from the entry that eval adds *)
  Lemma listing : forall os s, let plain := fun n : name => negb (String.eqb n "__builtins__") in
    filter plain (ws_list (shop (run os reg_new) s)) = firsts [] (filter plain (registered s os)).
  Proof.
    intros os s plain. assert (PB : plain "__builtins__"%string = false) by reflexivity. clearbody plain.
    induction os as [|o os IH] using rev_ind; [reflexivity|].
    rewrite run_snoc, shop_do by (apply run_wf; apply new_wf). unfold registered. rewrite flat_map_app, filter_app. fold (registered s os).
    unfold ws_list in *. simpl flat_map. rewrite app_nil_r.
    destruct (String.eqb_spec s (rop_shop o)) as [E|E].
    - rewrite keys_step. destruct o as [s'|s' m c|s' e loc tc|s' e loc tc]; simpl in E; subst s'; simpl; rewrite ?app_nil_r; auto.
      + rewrite String.eqb_refl. rewrite filter_sadd. simpl. destruct (plain m) eqn:P; [|rewrite app_nil_r; auto].
        rewrite IH, firsts_snoc. simpl. unfold sadd.
        destruct (in_dec string_dec m (filter plain (registered s os))) as [I|I].
        * rewrite app_nil_r. replace (mem m _) with true; auto. symmetry. apply mem_In. apply firsts_In. auto.
        * replace (mem m _) with false; auto. symmetry. apply mem_false. rewrite firsts_In. tauto.
      + destruct (if tc then _ else _); auto. rewrite filter_sadd, PB. exact IH.
      + destruct (if tc then _ else _); auto. rewrite filter_sadd, PB. exact IH.
    - rewrite IH. destruct o as [s'|s' m c|s' e loc tc|s' e loc tc]; simpl in *; rewrite ?app_nil_r; auto.
      destruct (String.eqb_spec s s'); [congruence|]. simpl. rewrite app_nil_r. auto.
  Qed.

  Lemma evaluates_snoc : forall os o s, evaluates (os ++ [o]) s <-> evaluates os s \/
    (exists e loc tc, (o = RBlueprint s e loc tc \/ o = RCreate s e loc tc)
      /\ (tc = true -> exists e', ws_complete cls fields bdict (shop (run os reg_new) s) e = Ok e')).
  Proof.
    intros os o s. split.
    - intros (a & o' & b & e & loc & tc & E & K & H). destruct b as [|x b] using rev_ind.
      + apply app_inj_tail in E. destruct E as [-> ->]. right. exists e, loc, tc. auto.
      + clear IHb. rewrite app_comm_cons, app_assoc in E. apply app_inj_tail in E. destruct E as [-> ->].
        left. exists a, o', b, e, loc, tc. auto.
    - intros [(a & o' & b & e & loc & tc & -> & K & H)|(e & loc & tc & K & H)].
      + exists a, o', (b ++ [o]), e, loc, tc. splits; auto. rewrite <- app_assoc. auto.
      + exists os, o, [], e, loc, tc. auto.
  Qed.

  Lemma builtins_listed : forall os s, In "__builtins__"%string (ws_list (shop (run os reg_new) s)) <->
    In "__builtins__"%string (registered s os) \/ evaluates os s.
  Proof.
    intros os s. induction os as [|o os IH] using rev_ind.
    - simpl. split; [tauto|]. intros [[]|(a & o & b & e & loc & tc & E & _)]. destruct a; discriminate E.
    - rewrite run_snoc, shop_do by (apply run_wf; apply new_wf). rewrite evaluates_snoc. unfold registered. rewrite flat_map_app, in_app_iff.
      fold (registered s os). unfold ws_list in *. simpl flat_map. rewrite app_nil_r.
      destruct (String.eqb_spec s (rop_shop o)) as [E|E].
      + rewrite keys_step. destruct o as [s'|s' m c|s' e loc tc|s' e loc tc]; simpl in E; subst s'; simpl.
        * rewrite IH. split; [tauto|]. intros [[H|[]]|[H|(e & loc & tc & [H|H] & _)]]; auto; discriminate H.
        * rewrite String.eqb_refl, sadd_In, IH. simpl. split.
          -- intros [H|[H|H]]; auto.
          -- intros [[H|[H|[]]]|[H|(e & loc & tc & [H|H] & _)]]; auto; discriminate H.
        * destruct (if tc then _ else _) as [e'|x] eqn:D.
          -- rewrite sadd_In. split; [|auto]. intros _. right. right. exists e, loc, tc. split; auto. intros ->. eauto.
          -- rewrite IH. split; [tauto|]. intros [[H|[]]|[H|(e1 & loc1 & tc1 & [H|H] & K)]]; auto; [|discriminate H].
             injection H as <- <- <-. destruct tc; [|discriminate D]. destruct (K eq_refl) as [e' K']. congruence.
        * destruct (if tc then _ else _) as [e'|x] eqn:D.
          -- rewrite sadd_In. split; [|auto]. intros _. right. right. exists e, loc, tc. split; auto. intros ->. eauto.
          -- rewrite IH. split; [tauto|]. intros [[H|[]]|[H|(e1 & loc1 & tc1 & [H|H] & K)]]; auto; [discriminate H|].
             injection H as <- <- <-. destruct tc; [|discriminate D]. destruct (K eq_refl) as [e' K']. congruence.
      + rewrite IH. split; [tauto|]. intros [[H|H]|[H|(e & loc & tc & [H|H] & _)]]; auto.
        * destruct o as [s'|s' m c|s' e loc tc|s' e loc tc]; simpl in *; try contradiction.
          destruct (String.eqb_spec s s'); [congruence|contradiction].
        * subst o. simpl in E. congruence.
        * subst o. simpl in E. congruence.
  Qed.

  (** evaluation reads no other globals than the names of the expression *)
  Lemma eval_globals : forall (g g' : env w) loc e, (forall x, In x (enames e) -> g x = g' x) -> eval g loc e = eval g' loc e.
  Proof.
    intros g g' loc. assert (L : forall x, g x = g' x -> lookup g loc x = lookup g' loc x) by (intros x H; unfold lookup; rewrite H; auto).
    induction e as [s|s|y|op args IH|f args kws IH1 IH2] using expr_ind'; intros H; auto.
    - apply L. apply H. simpl. auto.
    - rewrite !eval_op. replace (evals g loc args) with (evals g' loc args); auto.
      assert (G : forall l, incl l args -> evals g' loc l = evals g loc l).
      { induction l as [|a l IHl]; intros Hl; simpl; auto. rewrite IHl by (intros z Hz; apply Hl; simpl; auto).
        rewrite (IH a); auto; [apply Hl; simpl; auto|]. intros x Hx. apply H. simpl. apply in_flat_map. exists a. split; auto. apply Hl; simpl; auto. }
      apply G. apply incl_refl.
    - rewrite !eval_call. rewrite (L f) by (apply H; simpl; auto).
      replace (evals g loc args) with (evals g' loc args).
      + replace (evalk g loc kws) with (evalk g' loc kws); auto.
        assert (G : forall l, incl l kws -> evalk g' loc l = evalk g loc l).
        { induction l as [|[k a] l IHl]; intros Hl; simpl; auto. rewrite IHl by (intros z Hz; apply Hl; simpl; auto).
          rewrite (IH2 k a); auto; [apply Hl; simpl; auto|]. intros x Hx. apply H. simpl. right. apply in_or_app. right.
          apply in_flat_map. exists (k, a). split; auto. apply Hl; simpl; auto. }
        apply G. apply incl_refl.
      + assert (G : forall l, incl l args -> evals g' loc l = evals g loc l).
        { induction l as [|a l IHl]; intros Hl; simpl; auto. rewrite IHl by (intros z Hz; apply Hl; simpl; auto).
          rewrite (IH1 a); auto; [apply Hl; simpl; auto|]. intros x Hx. apply H. simpl. right. apply in_or_app. left.
          apply in_flat_map. exists a. split; auto. apply Hl; simpl; auto. }
        apply G. apply incl_refl.
  Qed.

  Definition anames (a : anode) : list name := match a with AE e | AKw _ e => names_in e | ALoad | AOp _ => [] end.

  Lemma names_arg : forall x a args, In a args -> In x (names_in a) -> In x (flat_map enames args ++ flat_map strs args).
  Proof.
    intros x a args H K. unfold names_in in K. rewrite in_app_iff in *. rewrite !in_flat_map. destruct K; [left|right]; eauto.
  Qed.

  Lemma names_call : forall x f args kws, In x (names_in (ECall f args kws)) <->
    x = f \/ (exists a, In a args /\ In x (names_in a)) \/ exists k a, In (k, a) kws /\ In x (names_in a).
  Proof.
    intros x f args kws. unfold names_in. cbn [enames strs]. rewrite in_app_iff. cbn [In]. rewrite !in_app_iff, !in_flat_map. split.
    - intros [[H|[(a & H & K)|([k a] & H & K)]]|[(a & H & K)|([k a] & H & K)]]; auto.
      + right; left. exists a. rewrite in_app_iff. auto.
      + right; right. exists k, a. rewrite in_app_iff. auto.
      + right; left. exists a. rewrite in_app_iff. auto.
      + right; right. exists k, a. rewrite in_app_iff. auto.
    - intros [H|[(a & H & K)|(k & a & H & K)]]; auto; rewrite in_app_iff in K; destruct K as [K|K].
      + left. right. left. eauto.
      + right. left. eauto.
      + left. right. right. exists (k, a). auto.
      + right. right. exists (k, a). auto.
  Qed.

  Lemma names_child : forall n c, In c (achildren n) -> incl (anames c) (anames n).
  Proof.
    intros n c H x K; destruct n as [e|k e| |op]; simpl in H; try contradiction.
    - destruct e as [s|s|y|op args|f args kws]; simpl in H; try contradiction.
      + destruct H as [<-|[]]. destruct K.
      + assert (A : exists a, c = AE a /\ In a args \/ c = AOp op).
        { destruct args as [|a [|b l]]; simpl in H.
          - destruct H as [<-|[]]. exists (ENum ""). auto.
          - destruct H as [<-|[<-|[]]]; [exists (ENum "")|exists a]; simpl; auto.
          - destruct H as [<-|[<-|[<-|H]]]; [exists a|exists a|exists b|]; simpl; auto.
            apply in_map_iff in H. destruct H as (z & <- & Hz). exists z. auto. }
        destruct A as (a & A); destruct A as [[-> A]| ->]; [|destruct K]. simpl in K. apply (names_arg x a args A K).
      + destruct H as [<-|H].
        * simpl in K. apply names_call. destruct K as [<-|[]]. auto.
        * apply in_app_or in H. apply names_call. destruct H as [H|H]; apply in_map_iff in H.
          -- destruct H as (a & <- & H). right; left. exists a. auto.
          -- destruct H as ([k a] & <- & H). right; right. exists k, a. auto.
    - destruct H as [<-|[]]. exact K.
  Qed.

  Lemma names_walk : forall e a, In a (walk e) -> incl (anames a) (names_in e).
  Proof.
    intros e a. unfold walk.
    assert (G : forall fuel todo, In a (awalk fuel todo) -> exists b, In b todo /\ incl (anames a) (anames b)).
    { induction fuel as [|fuel IH]; intros todo H; simpl in H; [destruct H|]. destruct todo as [|n rest]; [destruct H|].
      destruct H as [<-|H]; [exists n; split; [simpl; auto|apply incl_refl]|]. apply IH in H. destruct H as (b & H & K).
      apply in_app_or in H. destruct H as [H|H]; [exists b; simpl; auto|]. exists n. split; [simpl; auto|].
      eapply incl_tran; [exact K|]. apply names_child. auto. }
    intros H. apply G in H. destruct H as (b & [<-|[]] & K). exact K.
  Qed.

  Lemma first_call_in : forall l f args kws, first_call l = Some (f, args, kws) -> In (AE (ECall f args kws)) l.
  Proof.
    induction l as [|a l IH]; intros f args kws H; simpl in H; [discriminate|].
    destruct a as [[s|s|y|op al|f1 al ks]|k1 e1| |op1]; try (right; apply IH; exact H). injection H as -> -> ->. left. auto.
  Qed.

  Lemma fill_names : forall flds args out k e x, fill_fields flds args = Ok out -> In (k, e) out -> In x (enames e) ->
    exists a, In a args /\ In x (names_in a).
  Proof.
    induction flds as [|[k0 d] flds IH]; intros args out k e x F I X; simpl in F.
    - injection F as <-. destruct I.
    - destruct args as [|a args].
      + destruct d as [t|]; [|discriminate]. destruct (fill_fields flds []) as [rest|] eqn:R; simpl in F; [|discriminate].
        injection F as <-. destruct I as [I|I]; [injection I as <- <-; destruct X|]. exact (IH _ _ _ _ _ R I X).
      + destruct (fill_fields flds args) as [rest|] eqn:R; simpl in F; [|discriminate]. injection F as <-.
        destruct I as [I|I].
        * injection I as <- <-. exists a. split; [simpl; auto|]. unfold names_in. apply in_or_app.
          destruct a; simpl in *; auto.
        * eapply IH in R; eauto. destruct R as (b & H & K). exists b. simpl. auto.
  Qed.

  Lemma complete_agree : forall (ws ws' : workshop C) e, (forall n, In n (names_in e) -> dget ws n = dget ws' n) ->
    ws_complete cls fields bdict ws e = ws_complete cls fields bdict ws' e
    /\ forall c, ws_complete cls fields bdict ws e = Ok c -> incl (enames c) (names_in e).
  Proof.
    intros ws ws' e A. unfold ws_complete, complete_def.
    destruct (first_call (walk e)) as [[[tp args] kws]|] eqn:F; [|split; [auto|discriminate]].
    pose proof (names_walk _ _ (first_call_in _ _ _ _ F)) as N. cbn [anames] in N. cbn [in_shop w_schema].
    rewrite <- (A tp) by (apply N; apply names_call; auto). split; [destruct (dget ws tp) as [[c|]|]; auto|].
    intros c H. destruct (dget ws tp) as [[cr|]|]; try discriminate.
    destruct (filter _ _) as [|u us] in H; [injection H as <-; intros x X; apply in_or_app; auto|].
    destruct (fill_fields (u :: us) args) as [temp|] eqn:T; simpl in H; [|discriminate]. injection H as <-.
    intros x X. simpl in X. apply N. apply names_call. destruct X as [<-|X]; auto. right.
    rewrite flat_map_app, in_app_iff, !in_flat_map in X. destruct X as [([k a] & I & X)|([k a] & I & X)]; simpl in X.
    - left. eapply fill_names; eauto.
    - right. exists k, a. split; auto. apply in_or_app. auto.
  Qed.

  Lemma blueprint_agree : forall (ws ws' : workshop C) e loc tc,
    (forall n, In n (names_in e) -> n <> "__builtins__"%string /\ dget ws n = dget ws' n) ->
    fst (blueprint ws e loc tc) = fst (blueprint ws' e loc tc).
  Proof.
    intros ws ws' e loc tc A. unfold ws_blueprint.
    assert (B : forall n, In n (names_in e) -> creators cls bdict (with_builtins ws) n = creators cls bdict (with_builtins ws') n).
    { assert (K : forall v n, n <> "__builtins__"%string -> dget (@with_builtins C v) n = dget v n).
      { intros v n Hn. unfold with_builtins. destruct (dmem "__builtins__" v); auto. rewrite dget_dset.
        apply String.eqb_neq in Hn. rewrite Hn. auto. }
      intros n Hn. destruct (A n Hn) as [N E]. unfold creators. rewrite !K, E by auto. auto. }
    destruct tc.
    - destruct (complete_agree ws ws' e) as [E1 E2]; [intros n Hn; apply A; auto|]. rewrite <- E1.
      destruct (ws_complete cls fields bdict ws e) as [c|x] eqn:D; simpl; auto. apply eval_globals.
      intros n Hn. apply B. apply (E2 c); auto.
    - simpl. apply eval_globals. intros n Hn. apply B. apply in_or_app. auto.
  Qed.
End C95.

(** The same name always leads to the same workshop, different names to different ones; asking
    for a workshop changes none. *)
Theorem C95_handles : forall w C cls fields bdict (os os' : list (rop w C)) s,
  exists h r', get_atelier (Some s) (reg_run cls fields bdict os reg_new) = (Ok h, r')
  /\ (forall s', shop r' s' = shop (reg_run cls fields bdict os reg_new) s')
  /\ (exists r2, get_atelier (Some s) (reg_run cls fields bdict os' r') = (Ok h, r2))
  /\ forall s' h2 r2, s' <> s -> get_atelier (Some s') (reg_run cls fields bdict os' r') = (Ok h2, r2) -> h2 <> h.
Proof.
  intros w C cls fields bdict os os' s. pose proof (run_wf cls fields bdict os _ new_wf) as W.
  destruct (get_wf s _ W) as (h & r' & E & W' & L & D & K & N & S). exists h, r'. split; [exact E|].
  assert (P : forall os (r : registry C), reg_wf r -> dget (r_names r) s = Some h -> dget (r_names (reg_run cls fields bdict os r)) s = Some h).
  { induction os0 as [|o os0 IH]; intros r Wr Dr; [exact Dr|]. simpl. apply IH; [apply do_wf; auto|]. unfold reg_do.
    destruct (get_wf (rop_shop o) r Wr) as (k & rk & -> & _ & _ & _ & Kk & _). cbn [set_shop r_names]. auto. }
  splits.
  - intros s'. rewrite !shop_spec. destruct (string_dec s' s) as [->|Ns]; [|rewrite N by auto; destruct (dget _ s'); auto].
    rewrite D. pose proof (shop_spec (reg_run cls fields bdict os reg_new) s) as Q. unfold shop in Q. rewrite E in Q. exact Q.
  - unfold get_atelier. rewrite (P os' r' W' D). eauto.
  - intros s' h2 r2 Ns G ->. pose proof (run_wf cls fields bdict os' _ W') as W2. destruct (get_wf s' _ W2) as (h3 & r3 & G3 & W3 & _ & D3 & K3 & _).
    rewrite G in G3. injection G3 as <- <-. apply Ns. destruct W3 as [_ W3]. eapply W3; [exact D3|]. apply K3. apply P; auto.
Qed.
Print Assumptions C95_handles.

Theorem C95_not_a_name : forall C (r : registry C), get_atelier None r = (Err AssertionError, r).
Proof. reflexivity. Qed.
Print Assumptions C95_not_a_name.

(** A name means what was registered last under it in this workshop. *)
Theorem C95_entries : forall w C cls fields bdict (os : list (rop w C)) s n, n <> "__builtins__"%string ->
  (forall c, dget (shop (reg_run cls fields bdict os reg_new) s) n = Some (Creator c) <-> registers s n c os)
  /\ (forall c, registers s n c os -> get_schema fields (shop (reg_run cls fields bdict os reg_new) s) n = Ok (fields c))
  /\ ((forall c, ~ In (RRegister s n c) os) -> get_schema fields (shop (reg_run cls fields bdict os reg_new) s) n = Err KeyError
        /\ ws_contains (shop (reg_run cls fields bdict os reg_new) s) n = false).
Proof.
  intros w C cls fields bdict os s n N. splits.
  - intros c. apply entries. auto.
  - intros c H. apply entries with (cls := cls) (fields := fields) (bdict := bdict) in H; auto. unfold get_schema. rewrite H. auto.
  - intros H. assert (D : dget (shop (reg_run cls fields bdict os reg_new) s) n = None).
    { destruct (dget (shop (reg_run cls fields bdict os reg_new) s) n) as [[c|]|] eqn:E; auto.
      - apply entries in E; auto. destruct E as (a & b & -> & _). exfalso. apply (H c). apply in_or_app. simpl. auto.
      - exfalso. eapply entry_kind; eauto. }
    unfold get_schema, ws_contains, dmem. rewrite D. auto.
Qed.
Print Assumptions C95_entries.

(** The listing has every registered name once, in the order of the first registrations
    (leaving aside the name '__builtins__').
    Missing: the name '__builtins__' (C95_builtins, C95_listing_refuted). *)
Theorem C95_listing_partial : forall w C cls fields bdict (os : list (rop w C)) s,
  filter (fun n : name => negb (String.eqb n "__builtins__")) (ws_list (shop (reg_run cls fields bdict os reg_new) s))
  = firsts [] (filter (fun n : name => negb (String.eqb n "__builtins__")) (registered s os)).
Proof. intros. apply listing. Qed.
Print Assumptions C95_listing_partial.

(** '__builtins__' is listed as soon as one definition has been evaluated in the workshop. *)
Theorem C95_builtins : forall w C cls fields bdict (os : list (rop w C)) s,
  In "__builtins__"%string (ws_list (shop (reg_run cls fields bdict os reg_new) s)) <->
  In "__builtins__"%string (registered s os) \/ evaluates cls fields bdict os s.
Proof. intros. apply builtins_listed. Qed.
Print Assumptions C95_builtins.

(** What a definition gives depends on the registrations of the names in it alone: not on what
    was evaluated before, not on other names, not on other workshops. *)
Theorem C95_definition : forall w C cls fields bdict (os os' : list (rop w C)) s e loc tc,
  (forall n, In n (names_in e) -> n <> "__builtins__"%string /\ forall c, registers s n c os <-> registers s n c os') ->
  fst (ws_blueprint cls fields bdict (shop (reg_run cls fields bdict os reg_new) s) e loc tc)
  = fst (ws_blueprint cls fields bdict (shop (reg_run cls fields bdict os' reg_new) s) e loc tc)
  /\ fst (ws_create cls fields bdict (shop (reg_run cls fields bdict os reg_new) s) e loc tc)
  = fst (ws_create cls fields bdict (shop (reg_run cls fields bdict os' reg_new) s) e loc tc).
Proof.
  intros w C cls fields bdict os os' s e loc tc H.
  assert (B : fst (ws_blueprint cls fields bdict (shop (reg_run cls fields bdict os reg_new) s) e loc tc)
    = fst (ws_blueprint cls fields bdict (shop (reg_run cls fields bdict os' reg_new) s) e loc tc)).
  { apply blueprint_agree. intros n Hn. destruct (H n Hn) as [N R]. split; auto.
    destruct (dget (shop (reg_run cls fields bdict os reg_new) s) n) as [[c|]|] eqn:E.
    - apply entries in E; auto. apply R in E. symmetry. apply entries; auto.
    - exfalso. eapply entry_kind; eauto.
    - destruct (dget (shop (reg_run cls fields bdict os' reg_new) s) n) as [[c|]|] eqn:E'; auto.
      + apply entries in E'; auto. apply R in E'. eapply entries in E'; auto. rewrite E in E'. discriminate.
      + exfalso. eapply entry_kind; eauto. }
  split; auto. unfold ws_create.
  destruct (ws_blueprint cls fields bdict (shop (reg_run cls fields bdict os reg_new) s) e loc tc) as [b1 w1].
  destruct (ws_blueprint cls fields bdict (shop (reg_run cls fields bdict os' reg_new) s) e loc tc) as [b2 w2].
  simpl in B. subst b2. auto.
Qed.
Print Assumptions C95_definition.

(** two workshops; in one, a creator is replaced by another; definitions are evaluated in between *)
Definition ex_cls (c : name) : V exw := PBp c [].
Definition ex_fields (c : name) : list (name * option string) := match ex_schema c with Some f => f | None => [] end.
Definition ex_none : env exw := fun _ => None.
Definition ex_hist : list (rop exw name) :=
  [RRegister "Dist" "g" "norm"; RRegister "Other" "g" "exp"; RRegister "Dist" "u" "unif";
   RBlueprint "Dist" (ECall "g" [ENum "3"] []) ex_none true; RRegister "Dist" "g" "exp"].
Notation ex_run os := (reg_run (w := exw) ex_cls ex_fields PNone os reg_new).
Notation ex_bp ws e := (ws_blueprint (w := exw) ex_cls ex_fields PNone ws e ex_none true).

Example C95_example :
  ws_list (shop (ex_run ex_hist) "Dist") = ["g"; "u"; "__builtins__"]
  /\ ws_list (shop (ex_run ex_hist) "Other") = ["g"] /\ ws_list (shop (ex_run ex_hist) "New") = []
  /\ registered "Dist" ex_hist = ["g"; "u"; "g"]
  /\ registers "Dist" "g" "exp"%string ex_hist /\ ~ registers "Dist" "g" "norm"%string ex_hist
  /\ fst (ex_bp (shop (ex_run (firstn 3 ex_hist)) "Dist") (ECall "g" [ENum "3"] [])) = Ok (PBp "norm" [("loc", PZ 3%Z); ("scale", PZ 1%Z)])
  /\ fst (ex_bp (shop (ex_run ex_hist) "Dist") (ECall "g" [ENum "3"] [])) = Ok (PBp "exp" [("rate", PZ 3%Z)])
  /\ ws_str (shop (ex_run ex_hist) "Dist") = "The workshop of g, u, __builtins__"%string.
Proof.
  splits; try reflexivity.
  - exists (firstn 4 ex_hist), []. split; auto.
  - intros H. apply (proj2 (entries (w := exw) ex_cls ex_fields PNone ex_hist "Dist" "g" "norm"%string ltac:(discriminate))) in H.
    vm_compute in H. discriminate H.
Qed.

(** C95_definition applies to it: registering in the other workshop and evaluating change nothing for "u" *)
Example C95_example_definition :
  (forall n, In n (names_in (ECall "u" [ENum "2"] [])) -> n <> "__builtins__"%string /\ forall c : name, registers "Dist" n c ex_hist <-> registers "Dist" n c (firstn 3 ex_hist))
  /\ fst (ex_bp (shop (ex_run ex_hist) "Dist") (ECall "u" [ENum "2"] [])) = Ok (PBp "unif" [("loc", PZ 2%Z); ("width", PZ 1%Z)]).
Proof.
  split; [|reflexivity]. intros n [<-|[]]. split; [discriminate|]. intros c.
  rewrite <- !(entries (w := exw) ex_cls ex_fields PNone) by discriminate. match goal with |- (?a = _ <-> ?b = _) => assert (E : a = b) by (vm_compute; reflexivity); rewrite E end. tauto.
Qed.

(** The listing has a name that was never registered: '__builtins__'. It appears even when the
    definition fails, and asking for its schema is an AttributeError, not a KeyError. *)
Theorem C95_listing_refuted : exists w C cls fields bdict (os : list (rop w C)) s e loc tc,
  let ws := shop (reg_run cls fields bdict os reg_new) s in
  let (out, ws') := ws_blueprint cls fields bdict ws e loc tc in
  ~ In "__builtins__"%string (registered s os) /\ out = Err NameError
  /\ get_schema fields ws "__builtins__" = Err KeyError /\ ws_contains ws "__builtins__" = false
  /\ get_schema fields ws' "__builtins__" = Err AttributeError /\ ws_contains ws' "__builtins__" = true
  /\ ws_list ws' = ws_list ws ++ ["__builtins__"%string].
Proof.
  exists exw, name, ex_cls, ex_fields, PNone, [RRegister "Dist" "g" "exp"], "Dist"%string, (ECall "g" [EName "x"] []), ex_none, true.
  vm_compute. splits; auto. intros [H|[]]. discriminate H.
Qed.
Print Assumptions C95_listing_refuted.
