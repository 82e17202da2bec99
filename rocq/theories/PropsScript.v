(** * Properties C24, C35: definitions and scripts as text *)

Require Import Verif.Base Verif.World Verif.ModelGraph Verif.ModelExpr Verif.ModelLoci Verif.ModelBN
        Verif.ModelScript Verif.Spec Verif.SpecBN Verif.SpecExpr Verif.ProofBase Verif.ProofExpr Verif.ProofBN Verif.ProofBNViews Verif.ProofBNHist Verif.ProofScript
        Verif.ExWorld Verif.PropsBN.
Require Import Coq.ZArith.ZArith Coq.Sorting.Permutation Coq.Relations.Relation_Operators Coq.Relations.Operators_Properties.
Local Open Scope nat_scope.

(** ** Vocabulary *)

(** [u] is [t] without its blanks *)
Inductive squeezed : text -> text -> Prop :=
| sq_nil : squeezed [] []
| sq_blank : forall t u, squeezed t u -> squeezed (" "%char :: t) u
| sq_keep : forall c t u, c <> " "%char -> squeezed t u -> squeezed (c :: t) (c :: u).

(** a word: letters, digits and underscores; a piece without white space *)
Definition word (t : text) : Prop := t <> [] /\ forall c, In c t -> is_word c = true.
Definition solid (t : text) : Prop := t <> [] /\ forall c, In c t -> is_space c = false.
(** nothing or white space follows *)
Definition blank_next (t : text) : Prop := t = [] \/ exists c t', t = c :: t' /\ is_space c = true.

(** [u] reads NAME sep DEFINITION, possibly followed by white space and more *)
Definition reads (sep : ascii) (u n d : text) : Prop :=
  exists rest, u = n ++ sep :: d ++ rest /\ word n /\ solid d /\ blank_next rest.

Lemma squeezed_unblank : forall t u, squeezed t u <-> u = unblank t.
Proof.
  intros t u. split.
  - intros H. induction H as [|t u H IH|c t u Hc H IH]; subst; auto.
    unfold unblank. simpl. destruct (Ascii.eqb_spec c " "); [congruence|auto].
  - intros ->. induction t as [|c t IH]; simpl; [constructor|]. unfold unblank in *. simpl.
    destruct (Ascii.eqb_spec c " ") as [->|]; simpl; constructor; auto.
Qed.

Lemma forallb_In : forall (p : ascii -> bool) t, forallb p t = true <-> forall c, In c t -> p c = true.
Proof. intros p t. apply forallb_forall. Qed.
Lemma word_forallb : forall t, word t <-> t <> [] /\ forallb is_word t = true.
Proof. intros t. unfold word. rewrite forallb_In. tauto. Qed.
Lemma solid_forallb : forall t, solid t <-> t <> [] /\ forallb no_space t = true.
Proof.
  intros t. unfold solid, no_space. rewrite forallb_In. split; intros [H1 H2]; split; auto; intros c Hc; specialize (H2 c Hc).
  - rewrite H2. auto.
  - apply negb_true_iff in H2. auto.
Qed.
Lemma blank_next_ends : forall t, blank_next t <-> ends_run no_space t.
Proof.
  intros t. unfold blank_next, ends_run, no_space. destruct t as [|c t].
  - split; auto.
  - split.
    + intros [H|(c' & t' & H & E)]; [discriminate H|]. injection H as <- <-. rewrite E. auto.
    + intros H. right. exists c, t. apply negb_false_iff in H. auto.
Qed.

Lemma reads_rmatch : forall sep u n d, is_word sep = false ->
  (rmatch [RPlus is_word; ch sep; RPlus no_space] u = Some [n; d] <-> reads sep u n d).
Proof.
  intros sep u n d Hs. rewrite rmatch_sep by auto. unfold reads. split.
  - intros (rest & -> & H1 & H2 & H3 & H4 & H5). exists rest. split; auto. rewrite word_forallb, solid_forallb, blank_next_ends. tauto.
  - intros (rest & -> & H1 & H2 & H3). exists rest. rewrite word_forallb in H1. rewrite solid_forallb in H2. rewrite blank_next_ends in H3. tauto.
Qed.
Lemma reads_none : forall sep u, is_word sep = false -> (forall n d, ~ reads sep u n d) ->
  rmatch [RPlus is_word; ch sep; RPlus no_space] u = None.
Proof.
  intros sep u Hs H. destruct (rmatch_sep_shape is_word no_space sep u) as [E|(a & d & E)]; auto.
  apply reads_rmatch in E; auto. exfalso. eapply H; eauto.
Qed.
Lemma word_name : forall u, word u -> rmatch re_name u = Some [u].
Proof.
  intros u H. apply word_forallb in H. destruct H as [H1 H2]. unfold re_name. apply rmatch_plus. exists [].
  rewrite app_nil_r. repeat split; auto. intros a' rest' Heq _ Hl. exfalso. apply (f_equal (@length _)) in Heq. rewrite app_length in Heq. lia.
Qed.
Lemma name_word : forall u g, rmatch re_name u = Some g -> word u.
Proof.
  intros u g H. unfold re_name in H. destruct (rmatch_plus_shape _ _ _ _ H) as (a & g' & ->). apply rmatch_plus in H.
  destruct H as (rest & -> & H1 & H2 & H3 & _). destruct rest; cbn [rmatch] in H3; [|discriminate H3].
  rewrite app_nil_r. apply word_forallb. auto.
Qed.
Lemma word_not : forall u c, word u -> is_word c = false -> ~ In c u.
Proof. intros u c [_ H] Hc K. rewrite (H c K) in Hc. discriminate Hc. Qed.
Lemma word_reads : forall u sep n d, word u -> is_word sep = false -> ~ reads sep u n d.
Proof. intros u sep n d H Hs (rest & -> & _). eapply word_not; eauto. apply in_app_iff. right. simpl. auto. Qed.

Section Classify.
  Context {w : world} (y : syntax w).

  (** the part of parse_loci after the comment has been cut off *)
  Definition classify (df des : text) : res (loci w * text) :=
    if has "~" df then
      match rmatch re_dist df with
      | Some [n; d] => do e <- read_expr y d; do l <- mk_dist (S_ n) e []; Ok (l, des)
      | _ => Err AttributeError
      end
    else
      match rmatch re_assign df with
      | Some [n; d] =>
          if starts (T "f(") d then do e <- read_expr y d; do l <- mk_pseudo (S_ n) e []; Ok (l, des)
          else match (do e <- read_expr y d; mk_value_text (S_ n) e) with
               | Ok l => Ok (l, des)
               | Err NameError => do e <- read_expr y d; do l <- mk_func (S_ n) e []; Ok (l, des)
               | Err x => Err x
               end
      | _ => match rmatch re_name df with
             | Some _ => Ok (LExo (S_ df), des)
             | None => Err ScriptException
             end
      end.

  Lemma parse_plain : forall t u, squeezed t u -> ~ In "#"%char u -> parse_loci y t = classify u [].
  Proof.
    intros t u H Hc. apply squeezed_unblank in H. unfold parse_loci. rewrite <- H.
    apply has_false in Hc. rewrite Hc. reflexivity.
  Qed.

  Lemma classify_dist : forall u n d des, reads "~" u n d ->
    classify u des = do e <- read_expr y d; do l <- mk_dist (S_ n) e []; Ok (l, des).
  Proof.
    intros u n d des H. unfold classify. assert (I : has "~" u = true).
    { destruct H as (rest & -> & _). apply has_In. apply in_app_iff. right. simpl. auto. }
    rewrite I. apply reads_rmatch in H; [|reflexivity]. unfold re_dist. rewrite H. reflexivity.
  Qed.

  Lemma classify_assign : forall u n d des, ~ In "~"%char u -> reads "=" u n d ->
    classify u des =
      if starts (T "f(") d then do e <- read_expr y d; do l <- mk_pseudo (S_ n) e []; Ok (l, des)
          else match (do e <- read_expr y d; mk_value_text (S_ n) e) with
               | Ok l => Ok (l, des)
               | Err NameError => do e <- read_expr y d; do l <- mk_func (S_ n) e []; Ok (l, des)
               | Err x => Err x
               end.
  Proof.
    intros u n d des Ht H. unfold classify. apply has_false in Ht. rewrite Ht.
    apply reads_rmatch in H; [|reflexivity]. unfold re_assign. rewrite H. reflexivity.
  Qed.

  Lemma classify_word : forall u des, word u -> classify u des = Ok (LExo (S_ u), des).
  Proof.
    intros u des H. unfold classify.
    assert (Ht : has "~" u = false) by (apply has_false, word_not; auto).
    rewrite Ht. unfold re_assign. rewrite (reads_none "=" u); [|reflexivity|intros n d; apply word_reads; auto].
    rewrite word_name; auto.
  Qed.

  Lemma classify_else : forall u des, ~ In "~"%char u -> ~ word u -> (forall n d, ~ reads "=" u n d) -> classify u des = Err ScriptException.
  Proof.
    intros u des Ht Hw Hr. unfold classify. apply has_false in Ht. rewrite Ht. unfold re_assign.
    rewrite (reads_none "=" u); auto. destruct (rmatch re_name u) eqn:E; auto. apply name_word in E. tauto.
  Qed.

  Lemma classify_tilde : forall u des, In "~"%char u -> (forall n d, ~ reads "~" u n d) -> classify u des = Err AttributeError.
  Proof.
    intros u des Ht Hr. unfold classify. apply has_In in Ht. rewrite Ht. unfold re_dist. rewrite (reads_none "~" u); auto.
  Qed.
End Classify.

(** ** C35 *)

(** Blanks never matter. *)
Theorem C35_blanks : forall w (y : syntax w) t t' u, squeezed t u -> squeezed t' u -> parse_loci y t = parse_loci y t'.
Proof.
  intros w y t t' u H H'. apply squeezed_unblank in H. apply squeezed_unblank in H'. unfold parse_loci. rewrite <- H, <- H'. reflexivity.
Qed.
Print Assumptions C35_blanks.

(** NAME ~ DEFINITION: a distribution node of that name with the completed definition, or the
    error of reading it. *)
Theorem C35_dist : forall w (y : syntax w) t u n d, squeezed t u -> ~ In "#"%char u -> reads "~" u n d ->
  match sy_parse y d with
  | None => parse_loci y t = Err SyntaxError
  | Some e => match @complete_def w e, parsed_parents (parse_function e) with
              | Ok func, Ok ps => parse_loci y t = Ok (LDist (S_ n) func ps, [])
              | Err x, _ => parse_loci y t = Err x
              | Ok _, Err x => parse_loci y t = Err x
              end
  end.
Proof.
  intros w y t u n d H Hc Hr. rewrite (parse_plain y t u) by auto. rewrite (classify_dist y u n d) by auto.
  unfold read_expr. destruct (sy_parse y d) as [e|]; [|reflexivity]. cbn [bind]. unfold mk_dist.
  destruct (@complete_def w e) as [func|x]; cbn [bind]; [|reflexivity].
  destruct (parsed_parents (parse_function e)) as [ps|x]; reflexivity.
Qed.
Print Assumptions C35_dist.

(** NAME = f(...): a pseudo node, unless it has no argument to take parents from. *)
Theorem C35_pseudo : forall w (y : syntax w) t u n d, squeezed t u -> ~ In "#"%char u -> ~ In "~"%char u ->
  reads "=" u n d -> (exists d', d = "f"%char :: "("%char :: d') ->
  match sy_parse y d with
  | None => parse_loci y t = Err SyntaxError
  | Some e => (exists ps, parse_loci y t = Ok (LPseudo (S_ n) ps, []) /\ parsed_parents (parse_function e) = Ok ps)
              \/ (exists x, parse_loci y t = Err x /\ parsed_parents (parse_function e) = Err x)
  end.
Proof.
  intros w y t u n d H Hc Ht Hr [d' ->]. rewrite (parse_plain y t u) by auto. rewrite (classify_assign y u n _ [] Ht Hr).
  cbn [starts T list_ascii_of_string]. rewrite !Ascii.eqb_refl. cbn [andb].
  unfold read_expr. destruct (sy_parse y _) as [e|]; [|reflexivity]. cbn [bind]. unfold mk_pseudo.
  destruct (parsed_parents (parse_function e)) as [ps|x]; cbn [bind]; [left|right]; eauto.
Qed.
Print Assumptions C35_pseudo.

(** NAME = EXPRESSION: a constant if the expression has a value without any parent, a function
    node with the mentioned names as parents if a name is unknown, else the error of the
    evaluation. *)
Theorem C35_assign : forall w (y : syntax w) t u n d, squeezed t u -> ~ In "#"%char u -> ~ In "~"%char u ->
  reads "=" u n d -> ~ (exists d', d = "f"%char :: "("%char :: d') ->
  match sy_parse y d with
  | None => parse_loci y t = Err SyntaxError
  | Some e => match eval (w_math w) (fun _ => None) e with
              | Ok v => parse_loci y t = Ok (LValue (S_ n) v, [])
              | Err NameError => exists ps, parse_loci y t = Ok (LFunc (S_ n) e ps, [])
                                   /\ forall p, In p ps <-> mentions e p /\ ~ calls e p
              | Err x => parse_loci y t = Err x
              end
  end.
Proof.
  intros w y t u n d H Hc Ht Hr Hf. rewrite (parse_plain y t u) by auto. rewrite (classify_assign y u n _ [] Ht Hr).
  assert (F : starts (T "f(") d = false).
  { destruct d as [|a d]; [reflexivity|]. cbn [starts T list_ascii_of_string]. destruct (Ascii.eqb_spec "f" a) as [<-|]; [|reflexivity].
    destruct d as [|b d]; [reflexivity|]. destruct (Ascii.eqb_spec "(" b) as [<-|]; [|reflexivity]. exfalso. apply Hf. eauto. }
  rewrite F. unfold read_expr. destruct (sy_parse y d) as [e|]; [|reflexivity]. cbn [bind]. unfold mk_value_text.
  destruct (eval (w_math w) (fun _ => None) e) as [v|x]; cbn [bind]; [reflexivity|].
  destruct x; try reflexivity. unfold mk_func. cbn [bind]. eexists. split; [reflexivity|].
  intros p. simpl. apply evars_In.
Qed.
Print Assumptions C35_assign.

(** NAME alone: an exogenous node. *)
Theorem C35_exogenous : forall w (y : syntax w) t u, squeezed t u -> word u -> parse_loci y t = Ok (LExo (S_ u), []).
Proof.
  intros w y t u H Hw. rewrite (parse_plain y t u) by (auto; apply word_not; auto). apply classify_word; auto.
Qed.
Print Assumptions C35_exogenous.

(** Any other line without # and ~ raises ScriptException. *)
Theorem C35_otherwise : forall w (y : syntax w) t u, squeezed t u -> ~ In "#"%char u -> ~ In "~"%char u ->
  ~ word u -> (forall n d, ~ reads "=" u n d) -> parse_loci y t = Err ScriptException.
Proof. intros w y t u H Hc Ht Hw Hr. rewrite (parse_plain y t u) by auto. apply classify_else; auto. Qed.
Print Assumptions C35_otherwise.

(** Finding: a line with ~ but without NAME ~ DEFINITION raises AttributeError instead. *)
Theorem C35_bad_tilde : forall w (y : syntax w) t u, squeezed t u -> ~ In "#"%char u -> In "~"%char u ->
  (forall n d, ~ reads "~" u n d) -> parse_loci y t = Err AttributeError.
Proof. intros w y t u H Hc Ht Hr. rewrite (parse_plain y t u) by auto. apply classify_tilde; auto. Qed.
Print Assumptions C35_bad_tilde.

(** ** Comments *)

(** [u] reads BODY # COMMENT, the comment being as short as possible: a further # can only be
    its last character *)
Definition commented (u body des : text) : Prop :=
  exists rest, u = body ++ "#"%char :: des ++ rest /\ solid body /\ solid des /\ blank_next rest
    /\ forall x z, des = x ++ "#"%char :: z -> z = [].

Lemma app_longer : forall (a r a' r' : text), a ++ r = a' ++ r' -> length a < length a' ->
  exists c x, a' = a ++ c :: x /\ r = c :: x ++ r'.
Proof.
  intros a. induction a as [|c a IH]; intros r a' r' Heq Hlen.
  - destruct a' as [|c x]; [simpl in Hlen; lia|]. simpl in Heq. subst r. exists c, x. auto.
  - destruct a' as [|c' a']; [simpl in Hlen; lia|]. simpl in Heq. injection Heq as <- Heq. simpl in Hlen.
    destruct (IH r a' r' Heq) as (d & x & -> & ->); [lia|]. exists d, x. auto.
Qed.
Lemma app_shorter : forall (a r a' r' : text), a ++ r = a' ++ r' -> length a' <= length a -> exists z, a = a' ++ z.
Proof.
  intros a r a'. revert a. induction a' as [|c a' IH]; intros a r' Heq Hlen; [exists a; auto|].
  destruct a as [|c' a]; [simpl in Hlen; lia|]. simpl in Heq. injection Heq as -> Heq. simpl in Hlen.
  destruct (IH a r' Heq) as [z ->]; [lia|]. exists z. auto.
Qed.

Lemma commented_rmatch : forall u body des, rmatch re_comment u = Some [body; des] <-> commented u body des.
Proof.
  intros u body des. unfold re_comment, commented. rewrite rmatch_plus. split.
  - intros (rest & -> & Hb & Hbs & Hm & Hl). unfold ch in Hm. destruct rest as [|c rest]; [discriminate Hm|]. cbn [rmatch] in Hm.
    destruct (Ascii.eqb_spec "#" c) as [<-|]; [|discriminate Hm]. apply rmatch_last in Hm. destruct Hm as (r & -> & Hd & Hds & He).
    exists r. rewrite !solid_forallb, blank_next_ends. split; [auto|]. split; [auto|]. split; [auto|]. split; [auto|].
    intros x z ->. destruct z as [|c z]; auto. exfalso.
    assert (K : rmatch [ch "#"; RPlus no_space] ("#"%char :: (c :: z) ++ r) = None).
    { apply (Hl (body ++ "#"%char :: x)).
      - rewrite <- !app_assoc. reflexivity.
      - rewrite forallb_app, Hbs. simpl. rewrite forallb_app in Hds. apply andb_true_iff in Hds. tauto.
      - rewrite app_length. simpl. lia. }
    unfold ch in K. cbn [rmatch] in K. rewrite Ascii.eqb_refl in K. apply rmatch_last_none in K. simpl in K.
    rewrite forallb_app in Hds. simpl in Hds. rewrite K in Hds. rewrite !andb_false_r in Hds. discriminate Hds.
  - intros (rest & -> & Hb & Hd & He & Hx). rewrite solid_forallb in Hb, Hd. rewrite blank_next_ends in He.
    destruct Hb as [Hb Hbs], Hd as [Hd Hds]. exists ("#"%char :: des ++ rest). split; [auto|]. split; [auto|]. split; [auto|]. split.
    + unfold ch. cbn [rmatch]. rewrite Ascii.eqb_refl. apply rmatch_last. eauto.
    + intros a' rest' Heq Ha' Hlen. destruct rest' as [|c rest']; [reflexivity|]. unfold ch. cbn [rmatch].
      destruct (Ascii.eqb_spec "#" c) as [<-|]; auto. apply rmatch_last_none.
      destruct rest' as [|c rest']; simpl; auto. destruct (no_space c) eqn:Ec; auto. exfalso.
      destruct (app_longer _ _ _ _ Heq Hlen) as (h & x & -> & Hr). injection Hr as <- Hr.
      rewrite forallb_app in Ha'. simpl in Ha'. apply andb_true_iff in Ha'. destruct Ha' as [_ Ha'].
      assert (Hy : forallb no_space (x ++ ["#"%char; c]) = true).
      { rewrite forallb_app, Ha'. simpl. rewrite Ec. auto. }
      assert (Hr' : des ++ rest = (x ++ ["#"%char; c]) ++ rest') by (rewrite Hr, <- app_assoc; auto).
      destruct (le_lt_dec (length (x ++ ["#"%char; c])) (length des)) as [L|L].
      * destruct (app_shorter _ _ _ _ Hr' L) as [z Hz]. specialize (Hx x (c :: z)). rewrite Hz, <- app_assoc in Hx. discriminate Hx; auto.
      * destruct (app_longer _ _ _ _ Hr' L) as (h & z & Hz & ->). simpl in He. rewrite Hz, forallb_app in Hy. simpl in Hy.
        rewrite He, andb_false_r in Hy. discriminate Hy.
Qed.

(** The comment is the text after the last # that is followed by something; the definition is
    read from what stands before it, exactly as if it stood alone, unless that again holds a #. *)
Theorem C35_comment : forall w (y : syntax w) t u body des, squeezed t u -> commented u body des -> ~ In "#"%char body ->
  parse_loci y t = match parse_loci y body with Ok (l, _) => Ok (l, des) | Err x => Err x end.
Proof.
  intros w y t u body des H Hc Hb.
  assert (Hs : squeezed body body).
  { destruct Hc as (rest & _ & [_ Hb'] & _). apply squeezed_unblank. symmetry. apply unblank_id. intros K.
    specialize (Hb' _ K). discriminate Hb'. }
  rewrite (parse_plain y body body Hs Hb).
  assert (E : parse_loci y t = classify y body des).
  { apply squeezed_unblank in H. unfold parse_loci. rewrite <- H.
    assert (I : has "#" u = true). { apply has_In. destruct Hc as (rest & -> & _). apply in_app_iff. simpl. auto. }
    rewrite I. apply commented_rmatch in Hc. rewrite Hc. reflexivity. }
  rewrite E. clear E. unfold classify. destruct (has "~" body).
  - destruct (rmatch re_dist body) as [[|n [|d [|x g]]]|]; try reflexivity. destruct (read_expr y d) as [e|x]; [|reflexivity]. cbn [bind].
    destruct (mk_dist (S_ n) e []); reflexivity.
  - destruct (rmatch re_assign body) as [[|n [|d [|x g]]]|]; try (destruct (rmatch re_name body); reflexivity).
    destruct (starts (T "f(") d).
    + destruct (read_expr y d) as [e|x]; [|reflexivity]. cbn [bind]. destruct (mk_pseudo (S_ n) e []); reflexivity.
    + destruct (read_expr y d) as [e|x]; cbn [bind].
      * destruct (mk_value_text (S_ n) e) as [l|[]]; reflexivity.
      * destruct x; reflexivity.
Qed.
Print Assumptions C35_comment.

(** Finding: a line with # that does not read BODY # COMMENT (nothing before it, or nothing
    after it, or a tab before it) raises AttributeError. *)
Theorem C35_bad_comment : forall w (y : syntax w) t u, squeezed t u -> In "#"%char u ->
  (forall body des, ~ commented u body des) -> parse_loci y t = Err AttributeError.
Proof.
  intros w y t u H Hc Hn. apply squeezed_unblank in H. unfold parse_loci. rewrite <- H. apply has_In in Hc. rewrite Hc.
  destruct (rmatch_sep_shape no_space no_space "#" u) as [E|(a & d & E)]; unfold re_comment.
  - rewrite E. reflexivity.
  - exfalso. apply (Hn a d). apply commented_rmatch. exact E.
Qed.
Print Assumptions C35_bad_comment.

(** ** Examples: a small parser *)
Definition exparse (t : text) : option expr :=
  match S_ t with
  | "norm(a,s)" => Some (ECall "norm" [EName "a"; EName "s"] [])
  | "f(a,b)" => Some (ECall "f" [EName "a"; EName "b"] [])
  | "f()" => Some (ECall "f" [] [])
  | "3" => Some (ENum "3")
  | "a+3" => Some (e_add (EName "a") (ENum "3"))
  | "3/0" => Some (EOp "/" [ENum "3"; ENum "0"])
  | "a" => Some (EName "a")
  | "len" => Some (EName "len")
  | _ => None
  end.
Definition exshow (e : expr) : text := match e with EName x => T x | _ => T "norm(loc=a, scale=s)" end.
Definition exy : syntax exw := mkSyntax exw exparse exshow (fun _ => T "3").

Example C35_blanks_example : parse_loci exy (T " x =  a + 3 ") = parse_loci exy (T "x=a+3").
Proof. apply (C35_blanks exw exy _ _ (T "x=a+3")); apply squeezed_unblank; reflexivity. Qed.

Lemma reads_dec : forall sep u n d, is_word sep = false ->
  rmatch [RPlus is_word; ch sep; RPlus no_space] u = Some [n; d] -> reads sep u n d.
Proof. intros sep u n d H E. apply reads_rmatch; auto. Qed.
Lemma not_In : forall c u, has c u = false -> ~ In c u. Proof. intros c u H. apply has_false; auto. Qed.
Lemma no_reads : forall sep u, rmatch [RPlus is_word; ch sep; RPlus no_space] u = None -> is_word sep = false -> forall n d, ~ reads sep u n d.
Proof. intros sep u E H n d K. apply reads_rmatch in K; auto. rewrite E in K. discriminate K. Qed.

Example C35_dist_example : parse_loci exy (T "x ~ norm(a, s)") = Ok (LDist "x" (e_norm (EName "a") (EName "s")) ["a"; "s"], []).
Proof.
  apply (C35_dist exw exy _ (T "x~norm(a,s)") (T "x") (T "norm(a,s)")).
  - apply squeezed_unblank. reflexivity.
  - apply not_In. reflexivity.
  - apply reads_dec; reflexivity.
Qed.
Example C35_pseudo_example : parse_loci exy (T "x = f(a, b)") = Ok (LPseudo "x" ["a"; "b"], []).
Proof.
  pose proof (C35_pseudo exw exy (T "x = f(a, b)") (T "x=f(a,b)") (T "x") (T "f(a,b)")) as H.
  destruct H as [(ps & H & E)|(x & H & E)].
  - apply squeezed_unblank. reflexivity.
  - apply not_In. reflexivity.
  - apply not_In. reflexivity.
  - apply reads_dec; reflexivity.
  - exists (T "a,b)"). reflexivity.
  - injection E as <-. exact H.
  - discriminate E.
Qed.
Example C35_assign_example :
  parse_loci exy (T "x = 3") = Ok (LValue "x" (PZ 3 : V exw), [])
  /\ parse_loci exy (T "x = a + 3") = Ok (LFunc "x" (e_add (EName "a") (ENum "3")) ["a"], [])
  /\ parse_loci exy (T "x = 3 / 0") = Err ZeroDivisionError.
Proof.
  assert (F : forall d, starts (T "f(") d = false -> ~ exists d', d = "f"%char :: "("%char :: d') by (intros d H [d' ->]; discriminate H).
  split; [|split].
  - apply (C35_assign exw exy _ (T "x=3") (T "x") (T "3")); [apply squeezed_unblank; reflexivity|apply not_In; reflexivity|apply not_In; reflexivity|apply reads_dec; reflexivity|apply F; reflexivity].
  - reflexivity.
  - apply (C35_assign exw exy _ (T "x=3/0") (T "x") (T "3/0")); [apply squeezed_unblank; reflexivity|apply not_In; reflexivity|apply not_In; reflexivity|apply reads_dec; reflexivity|apply F; reflexivity].
Qed.
Example C35_exogenous_example : parse_loci exy (T " x_1 ") = Ok (LExo "x_1", []).
Proof. apply (C35_exogenous exw exy _ (T "x_1")); [apply squeezed_unblank; reflexivity|apply word_forallb; split; [discriminate|reflexivity]]. Qed.
Example C35_otherwise_example : parse_loci exy (T "PCore A {") = Err ScriptException.
Proof.
  apply (C35_otherwise exw exy _ (T "PCoreA{")); [apply squeezed_unblank; reflexivity|apply not_In; reflexivity|apply not_In; reflexivity| |].
  - intros H. apply word_name in H. discriminate H.
  - apply no_reads; reflexivity.
Qed.
Example C35_bad_tilde_example : parse_loci exy (T "~ norm(a, s)") = Err AttributeError.
Proof.
  apply (C35_bad_tilde exw exy _ (T "~norm(a,s)")); [apply squeezed_unblank; reflexivity|apply not_In; reflexivity|apply has_In; reflexivity|].
  apply no_reads; reflexivity.
Qed.
Example C35_comment_example : parse_loci exy (T "x = 3 # three") = Ok (LValue "x" (PZ 3 : V exw), T "three").
Proof.
  rewrite (C35_comment exw exy _ (T "x=3#three") (T "x=3") (T "three")); [reflexivity|apply squeezed_unblank; reflexivity| |apply not_In; reflexivity].
  apply commented_rmatch. reflexivity.
Qed.
Example C35_bad_comment_example : parse_loci exy (T "# a comment") = Err AttributeError.
Proof.
  apply (C35_bad_comment exw exy _ (T "#acomment")); [apply squeezed_unblank; reflexivity|apply has_In; reflexivity|].
  intros body des H. apply commented_rmatch in H. discriminate H.
Qed.

(** "anything else raises ScriptException" is false: a line of comment and a line ~ ... raise
    AttributeError, which ends the reading of a script. *)
Theorem C35_other_errors_refuted : exists (y : syntax exw) t, (forall n d, ~ reads "=" t n d) /\ (forall n d, ~ reads "~" t n d)
  /\ ~ word t /\ squeezed t t /\ parse_loci y t = Err AttributeError.
Proof.
  exists exy, (T "#comment"). split; [apply no_reads; reflexivity|]. split; [apply no_reads; reflexivity|].
  split; [intros H; apply word_name in H; discriminate H|]. split; [apply squeezed_unblank; reflexivity|reflexivity].
Qed.
Print Assumptions C35_other_errors_refuted.

(** White space other than blanks does matter: after a tab the definition is cut off. *)
Theorem C35_tab_refuted : exists (y : syntax exw) a b, parse_loci y (a ++ tab :: b) <> parse_loci y (a ++ b)
  /\ exists l, parse_loci y (a ++ tab :: b) = Ok (l, []).
Proof.
  exists exy, (T "x=a"), (T "+3"). split.
  - intros H. assert (K : parse_loci exy (T "x=a" ++ tab :: T "+3") = Ok (LFunc "x" (EName "a") ["a"], [])) by reflexivity.
    rewrite K in H. discriminate H.
  - eexists. reflexivity.
Qed.
Print Assumptions C35_tab_refuted.

(** Finding: a name that Python or MATH_FUNC knows is never a parent: NAME = len is the constant
    that holds the builtin function, even in a network with a node len. *)
Theorem C35_known_name : forall w (y : syntax w) t u n d x v, squeezed t u -> ~ In "#"%char u -> ~ In "~"%char u ->
  reads "=" u n d -> ~ (exists d', d = "f"%char :: "("%char :: d') -> sy_parse y d = Some (EName x) ->
  (w_math w x = Some v \/ w_math w x = None /\ w_builtin w x = Some v) ->
  parse_loci y t = Ok (LValue (S_ n) v, []) /\ loci_parents (LValue (S_ n) v) = [].
Proof.
  intros w y t u n d x v H Hc Ht Hr Hf Hp Hv. split; [|reflexivity].
  pose proof (C35_assign w y t u n d H Hc Ht Hr Hf) as A. rewrite Hp in A. cbn [eval] in A. unfold lookup in A.
  destruct Hv as [E|[E1 E2]]; [rewrite E in A; exact A|]. rewrite E1, E2 in A. exact A.
Qed.
Print Assumptions C35_known_name.
Example C35_known_name_example : parse_loci exy (T "x = len") = Ok (LValue "x" (PFun "len" : V exw), []).
Proof.
  apply (C35_known_name exw exy _ (T "x=len") (T "x") (T "len") "len"); try reflexivity.
  - apply squeezed_unblank; reflexivity.
  - apply not_In; reflexivity.
  - apply not_In; reflexivity.
  - apply reads_dec; reflexivity.
  - intros [d' H]. discriminate H.
  - right. split; reflexivity.
Qed.

(** ** C24 *)

(** the first character that belongs to no word is neither = nor ~ nor # : no definition *)
Lemma first_nonword : forall pre c r n c' r', forallb is_word pre = true -> forallb is_word n = true -> is_word c = false -> is_word c' = false ->
  pre ++ c :: r = n ++ c' :: r' -> c = c'.
Proof.
  intros pre. induction pre as [|x pre IH]; intros c r n c' r' Hp Hn Hc Hc' Heq.
  - destruct n as [|a n]; simpl in Heq; injection Heq as <- _; auto. simpl in Hn. rewrite Hc in Hn. discriminate Hn.
  - destruct n as [|a n]; simpl in Heq; injection Heq as -> Heq; simpl in Hp.
    + rewrite Hc' in Hp. discriminate Hp.
    + simpl in Hn. apply andb_true_iff in Hp. apply andb_true_iff in Hn. destruct Hp as [_ Hp], Hn as [_ Hn]. apply (IH c r n c' r'); auto.
Qed.

Section BadLine.
  Context {w : world} (y : syntax w).

  Lemma classify_bad : forall pre c r des, forallb is_word pre = true -> is_word c = false -> c <> "~"%char -> c <> "="%char ->
    classify y (pre ++ c :: r) des = Err (if has "~" (pre ++ c :: r) then AttributeError else ScriptException).
  Proof.
    intros pre c r des Hp Hc H1 H2.
    assert (R : forall sep, is_word sep = false -> sep <> c -> forall n d, ~ reads sep (pre ++ c :: r) n d).
    { intros sep Hs Hne n d (rest & E & Hn & _). apply word_forallb in Hn. apply Hne. symmetry. eapply first_nonword; [exact Hp|apply Hn|exact Hc|exact Hs|exact E]. }
    destruct (has "~" (pre ++ c :: r)) eqn:E.
    - apply classify_tilde; [apply has_In; auto|]. apply R; auto.
    - apply classify_else; [apply has_false; auto| |apply R; auto].
      intros W. apply (word_not _ c W Hc). apply in_app_iff. simpl. auto.
  Qed.

  Lemma bad_line : forall l pre c r, unblank l = pre ++ c :: r -> forallb is_word pre = true -> is_word c = false ->
    c <> "~"%char -> c <> "="%char -> c <> "#"%char ->
    parse_loci y l = Err ScriptException \/ parse_loci y l = Err AttributeError.
  Proof.
    intros l pre c r H Hp Hc H1 H2 H3. unfold parse_loci. rewrite H.
    destruct (has "#" (pre ++ c :: r)) eqn:E.
    - destruct (rmatch_sep_shape no_space no_space "#" (pre ++ c :: r)) as [M|(body & des & M)]; unfold re_comment; rewrite M; [right; reflexivity|].
      apply commented_rmatch in M. destruct M as (rest & Heq & _). cbn [bind].
      assert (L : length pre < length body).
      { destruct (le_lt_dec (length body) (length pre)) as [L|L]; auto. exfalso.
        destruct (app_shorter _ _ _ _ Heq L) as [z ->]. rewrite <- app_assoc in Heq. apply app_inv_head in Heq.
        destruct z as [|a z]; simpl in Heq; injection Heq as -> _; [congruence|].
        rewrite forallb_app in Hp. simpl in Hp. rewrite andb_false_r in Hp. discriminate Hp. }
      destruct (app_longer _ _ _ _ Heq L) as (c' & x & -> & Hr). injection Hr as <- _.
      change (classify y (pre ++ c :: x) des = Err ScriptException \/ classify y (pre ++ c :: x) des = Err AttributeError).
      rewrite classify_bad by auto. destruct (has "~" (pre ++ c :: x)); auto.
    - change (classify y (pre ++ c :: r) [] = Err ScriptException \/ classify y (pre ++ c :: r) [] = Err AttributeError).
      rewrite classify_bad by auto. destruct (has "~" (pre ++ c :: r)); auto.
  Qed.

  (** a line that starts with a tab *)
  Lemma tab_line : forall l, parse_loci y (tab :: l) = Err (if has "#" l || has "~" l then AttributeError else ScriptException).
  Proof.
    intros l. unfold parse_loci. assert (E : unblank (tab :: l) = tab :: unblank l) by reflexivity. rewrite E.
    assert (Ub : forall c, c <> " "%char -> has c (unblank l) = has c l).
    { intros c Hc. apply eq_true_iff_eq. rewrite !has_In, In_unblank. tauto. }
    assert (Hh : forall c, c <> " "%char -> c <> tab -> has c (tab :: unblank l) = has c l).
    { intros c Hc Ht. rewrite <- (Ub c Hc). unfold has at 1. cbn [existsb]. destruct (Ascii.eqb_spec c tab); [congruence|reflexivity]. }
    rewrite Hh by discriminate. destruct (has "#" l) eqn:Eh; cbn [orb].
    - reflexivity.
    - cbn [bind]. change (classify y ([] ++ tab :: unblank l) [] = Err (if has "~" l then AttributeError else ScriptException)).
      rewrite classify_bad; try reflexivity; try discriminate. simpl app. rewrite Hh by discriminate. reflexivity.
  Qed.

  Lemma append_lines_bad : forall ls b, (forall l, In l ls -> parse_loci y l = Err ScriptException \/ parse_loci y l = Err AttributeError) ->
    append_lines y b ls = if forallb (fun l => match parse_loci y l with Err ScriptException => true | _ => false end) ls
                          then Ok b else Err AttributeError.
  Proof.
    intros ls b. induction ls as [|l ls IH]; intros H; auto. cbn [append_lines forallb]. unfold append_from_definition.
    destruct (H l (or_introl eq_refl)) as [E|E]; rewrite E; [|reflexivity]. cbn [andb]. apply IH. intros; apply H; simpl; auto.
  Qed.

  (** the lines of a generated script *)
  Lemma form_lines : forall b, ~ In nl (T (b_name b)) -> (forall p, In p (b_attrs b) -> ~ In nl (node_line y (snd p))) ->
    lines (form_script y b) = (T "PCore " ++ T (b_name b) ++ T " {") :: map (fun p => node_line y (snd p)) (b_attrs b) ++ [T "}"].
  Proof.
    intros b Hn Ha. unfold form_script.
    assert (E : forall d, (forall p, In p d -> ~ In nl (node_line y (snd p))) ->
              lines (flat_map (fun p : name * attr w => node_line y (snd p) ++ [nl]) d ++ T "}") = map (fun p => node_line y (snd p)) d ++ [T "}"]).
    { intros d. induction d as [|p d IH]; intros H; [reflexivity|]. cbn [flat_map map]. rewrite <- !app_assoc.
      change ([nl] ++ flat_map (fun p0 : name * attr w => node_line y (snd p0) ++ [nl]) d ++ T "}")
        with (nl :: (flat_map (fun p0 : name * attr w => node_line y (snd p0) ++ [nl]) d ++ T "}")).
      rewrite lines_app by (apply H; simpl; auto). rewrite IH by (intros; apply H; simpl; auto). reflexivity. }
    rewrite <- (E (b_attrs b) Ha).
    replace (T "PCore " ++ T (b_name b) ++ T " {" ++ [nl] ++ flat_map (fun p => node_line y (snd p) ++ [nl]) (b_attrs b) ++ T "}")
      with ((T "PCore " ++ T (b_name b) ++ T " {") ++ nl :: (flat_map (fun p => node_line y (snd p) ++ [nl]) (b_attrs b) ++ T "}")).
    - apply lines_app. rewrite !in_app_iff. intros [H|[H|H]]; [|tauto|]; apply has_In in H; discriminate H.
    - rewrite <- !app_assoc. reflexivity.
  Qed.

  Lemma header_tab : forall l, rmatch re_header (tab :: l) = None. Proof. reflexivity. Qed.

  Lemma same_letter_word : forall c d, In c (T "pcore") -> same_letter c d = true -> is_word d = true.
  Proof.
    intros c d H E. unfold same_letter in E. apply orb_true_iff in E. destruct E as [E|E].
    - apply Ascii.eqb_eq in E. subst d. simpl in H. destruct H as [<-|[<-|[<-|[<-|[<-|[]]]]]]; reflexivity.
    - apply Nat.eqb_eq in E. assert (K : nat_of_ascii d = nat_of_ascii c - 32) by lia.
      rewrite <- (ascii_nat_embedding d), K. simpl in H. destruct H as [<-|[<-|[<-|[<-|[<-|[]]]]]]; reflexivity.
  Qed.

  Lemma lits_match : forall cs rs s g, rmatch (map (fun c => RLit (same_letter c)) cs ++ rs) s = Some g -> (forall c, In c cs -> In c (T "pcore")) ->
    exists pre r, s = pre ++ r /\ forallb is_word pre = true /\ rmatch rs r = Some g.
  Proof.
    intros cs rs. induction cs as [|c cs IH]; intros s g H Hc.
    - exists [], s. auto.
    - cbn [map app rmatch] in H. destruct s as [|d s]; [discriminate H|]. destruct (same_letter c d) eqn:E; [|discriminate H].
      destruct (IH s g H) as (pre & r & -> & Hp & Hr); [intros; apply Hc; simpl; auto|]. exists (d :: pre), r. split; [auto|]. split; auto.
      simpl. rewrite (same_letter_word c d); auto. apply Hc; simpl; auto.
  Qed.

  Lemma header_shape : forall u g, rmatch re_header u = Some g -> exists pre r, u = pre ++ "{"%char :: r /\ forallb is_word pre = true.
  Proof.
    intros u g H. unfold re_header in H. apply lits_match in H; [|auto]. destruct H as (pre & r & -> & Hp & H).
    destruct (rmatch_plus_shape _ _ _ _ H) as (a & g' & ->). apply rmatch_plus in H. destruct H as (rest & -> & _ & Ha & H & _).
    destruct rest as [|c rest]; [discriminate H|]. unfold ch in H. cbn [rmatch] in H. destruct (Ascii.eqb_spec "{" c) as [<-|]; [|discriminate H].
    exists (pre ++ a), rest. rewrite <- app_assoc, forallb_app, Hp, Ha. auto.
  Qed.

  (** the header line of a generated script *)
  Lemma header_word : forall n, word n -> rmatch re_header (T "PCore" ++ n ++ T "{") = Some [n].
  Proof.
    intros n Hn. apply word_forallb in Hn. destruct Hn as [H1 H2].
    change (rmatch [RPlus is_word; ch "{"] (n ++ T "{") = Some [n]). apply rmatch_plus. exists (T "{"). repeat split; auto.
    intros a' rest' Heq Ha' Hl. exfalso. destruct (app_longer _ _ _ _ Heq Hl) as (c & x & -> & E). simpl in E. injection E as <- _.
    rewrite forallb_app in Ha'. simpl in Ha'. rewrite andb_false_r in Ha'. discriminate Ha'.
  Qed.

  Lemma header_node : forall a, rmatch re_header (unblank (node_line y a)) = None. Proof. reflexivity. Qed.

  Lemma find_header_app : forall ls l, (forall x, In x ls -> rmatch re_header x = None) -> rmatch re_header l = None -> find_header (ls ++ [l]) = Err ScriptException.
  Proof.
    intros ls l. induction ls as [|x ls IH]; intros H Hl; cbn [app find_header].
    - rewrite Hl. reflexivity.
    - rewrite (H x) by (simpl; auto). apply IH; auto. intros; apply H; simpl; auto.
  Qed.

  Lemma map_unblank_lines : forall b, map unblank (map (fun p : name * attr w => node_line y (snd p)) (b_attrs b))
    = map (fun p : name * attr w => unblank (node_line y (snd p))) (b_attrs b).
  Proof. intros b. rewrite map_map. reflexivity. Qed.

  Lemma parse_unblank : forall l, parse_loci y (unblank l) = parse_loci y l.
  Proof. intros l. unfold parse_loci. rewrite unblank_idem. reflexivity. Qed.

  (** no line of a generated script is a definition *)
  Lemma form_lines_bad : forall b g, ~ In nl (T (b_name b)) -> (forall p, In p (b_attrs b) -> ~ In nl (node_line y (snd p))) ->
    rmatch re_header (unblank (T "PCore " ++ T (b_name b) ++ T " {")) = Some g ->
    forall l, In l (map unblank (lines (form_script y b))) -> parse_loci y l = Err ScriptException \/ parse_loci y l = Err AttributeError.
  Proof.
    intros b g Hn Ha Hg l. rewrite form_lines by auto. cbn [map]. rewrite map_app. intros [<-|H].
    - destruct (header_shape _ _ Hg) as (pre & r & E & Hp). rewrite parse_unblank. eapply bad_line; [exact E|exact Hp| | | |]; try reflexivity; discriminate.
    - apply in_app_iff in H. destruct H as [H|H].
      + apply in_map_iff in H. destruct H as (l' & <- & H). apply in_map_iff in H. destruct H as (p & <- & H). rewrite parse_unblank.
        unfold node_line. rewrite tab_line. destruct (has _ _ || has _ _); auto.
      + simpl in H. destruct H as [<-|[]]. left. reflexivity.
  Qed.
End BadLine.

Lemma complete_empty : forall w n, exists b', complete (bn_new n : bn w) = (Ok tt, b') /\ b_attrs b' = [] /\ b_edges b' = [] /\ b_name b' = n.
Proof. intros w n. eexists. split; [reflexivity|]. auto. Qed.

(** Reading the generated script of a network raises or gives a network without nodes.
    Missing: names and texts with a line break, for which it is false. *)
Theorem C24_not_read_back_partial : forall w (y : syntax w) (b : bn w),
  ~ In nl (T (b_name b)) -> (forall p, In p (b_attrs b) -> ~ In nl (node_line y (snd p))) ->
  match bayes_net_from_script y (form_script y b) with
  | Ok s => forall n, ~ node (sn_bn s) n
  | Err e => e = ScriptException \/ e = AttributeError
  end.
Proof.
  intros w y b Hn Ha. unfold bayes_net_from_script.
  destruct (rmatch re_header (unblank (T "PCore " ++ T (b_name b) ++ T " {"))) as [g|] eqn:Hg.
  - pose proof (form_lines_bad y b g Hn Ha Hg) as Bad. remember (map unblank (lines (form_script y b))) as ls eqn:El.
    destruct (find_header ls) as [n|e] eqn:Eh; cbn [bind].
    + rewrite append_lines_bad by exact Bad. destruct (forallb _ ls); cbn [bind]; auto.
      destruct (complete_empty w (S_ n)) as (b' & E & E1 & _). rewrite E. cbn [sn_bn]. unfold node. rewrite E1. simpl. auto.
    + left. clear -Eh. induction ls as [|l ls IH]; cbn [find_header] in Eh; [congruence|]. destruct (rmatch re_header l) as [[|]|]; auto. discriminate Eh.
  - rewrite form_lines by auto. cbn [map]. rewrite map_app. cbn [find_header]. rewrite Hg.
    change (map unblank [T "}"]) with [T "}"].
    rewrite find_header_app; [left; reflexivity| |reflexivity]. intros x Hx. apply in_map_iff in Hx. destruct Hx as (l & <- & Hx).
    apply in_map_iff in Hx. destruct Hx as (p & <- & _). reflexivity.
Qed.
Print Assumptions C24_not_read_back_partial.

(** With a random or a described node (or the characters # or ~ in a definition) it raises
    AttributeError; otherwise all nodes are lost without notice.
    Missing: names and texts with a line break. *)
Theorem C24_outcome_partial : forall w (y : syntax w) (b : bn w) nm, squeezed (T (b_name b)) nm -> word nm ->
  ~ In nl (T (b_name b)) -> (forall p, In p (b_attrs b) -> ~ In nl (node_line y (snd p))) ->
  ((exists n, random b n) \/ (exists n d, described b n (Some d)) ->
     bayes_net_from_script y (form_script y b) = Err AttributeError)
  /\ ((forall p, In p (b_attrs b) -> ~ In "#"%char (node_line y (snd p)) /\ ~ In "~"%char (node_line y (snd p))) ->
     exists s, bayes_net_from_script y (form_script y b) = Ok s
       /\ b_name (sn_bn s) = S_ nm /\ b_attrs (sn_bn s) = [] /\ b_edges (sn_bn s) = []
       /\ to_script y s = Some (form_script y b)).
Proof.
  intros w y b nm Hs Hw Hn Ha. apply squeezed_unblank in Hs.
  assert (Hg : unblank (T "PCore " ++ T (b_name b) ++ T " {") = T "PCore" ++ nm ++ T "{") by (rewrite !unblank_app, Hs; reflexivity).
  pose proof (header_word nm Hw) as Hh. rewrite <- Hg in Hh.
  pose proof (form_lines_bad y b _ Hn Ha Hh) as Bad.
  assert (Eh : find_header (map unblank (lines (form_script y b))) = Ok nm).
  { rewrite form_lines by auto. cbn [map find_header]. rewrite Hh. reflexivity. }
  unfold bayes_net_from_script. rewrite Eh. cbn [bind]. rewrite append_lines_bad by exact Bad.
  assert (L : forall p, In p (b_attrs b) -> In (unblank (node_line y (snd p))) (map unblank (lines (form_script y b)))).
  { intros p Hp. rewrite form_lines by auto. cbn [map]. right. apply in_map. apply in_app_iff. left. apply (in_map (fun p => node_line y (snd p))). auto. }
  split.
  - intros H.
    assert (X : exists p, In p (b_attrs b) /\ parse_loci y (unblank (node_line y (snd p))) = Err AttributeError).
    { assert (G : forall n a, dget (b_attrs b) n = Some a -> In (n, a) (b_attrs b)).
      { intros n a. apply dget_in_pair. }
      destruct H as [(n & l & (a & H1 & H2) & H3)|(n & d & a & H1 & H2)]; exists (n, a); (split; [apply G; auto|]); rewrite parse_unblank; cbn [snd]; unfold node_line; rewrite tab_line.
      - subst l. destruct (a_loci a); simpl in H3; try discriminate H3.
        assert (E : forall x z, has "~" ((x ++ T " ~ " ++ z) ++ match a_des a with Some d => T " # " ++ T d | None => [] end) = true).
        { intros x z. apply has_In. rewrite !in_app_iff. left. right. left. simpl. auto. }
        unfold loci_repr. rewrite E. rewrite orb_true_r. reflexivity.
      - rewrite H2. assert (E : has "#" (loci_repr y (a_loci a) ++ T " # " ++ T d) = true).
        { apply has_In. rewrite !in_app_iff. right. left. simpl. auto. }
        rewrite E. reflexivity. }
    destruct X as (p & Hp & E).
    destruct (forallb _ _) eqn:F; [|reflexivity]. exfalso. rewrite forallb_forall in F. specialize (F _ (L p Hp)). rewrite E in F. discriminate F.
  - intros H. assert (F : forallb (fun l => match parse_loci y l with Err ScriptException => true | _ => false end) (map unblank (lines (form_script y b))) = true).
    { apply forallb_forall. intros l. rewrite form_lines by auto. cbn [map]. rewrite map_app. intros [<-|Hl].
      - rewrite parse_unblank. assert (P : parse_loci y (T "PCore " ++ T (b_name b) ++ T " {") = Err ScriptException); [|rewrite P; reflexivity].
        rewrite (parse_plain y _ (T "PCore" ++ nm ++ T "{")).
        + change (T "PCore" ++ nm ++ T "{") with (T "PCore" ++ nm ++ "{"%char :: []). rewrite app_assoc.
          apply word_forallb in Hw. destruct Hw as [W1 W2].
          rewrite classify_bad; try reflexivity; try discriminate; [|rewrite forallb_app, W2; reflexivity].
          assert (Ht : has "~" ((T "PCore" ++ nm) ++ ["{"%char]) = false); [|rewrite Ht; reflexivity].
          apply has_false. rewrite !in_app_iff. intros [[K|K]|K].
          * simpl in K. intuition discriminate.
          * rewrite forallb_forall in W2. specialize (W2 _ K). discriminate W2.
          * simpl in K. intuition discriminate.
        + apply squeezed_unblank. auto.
        + rewrite !in_app_iff. intros [K|[K|K]]; [simpl in K; intuition discriminate|exact (word_not nm "#" Hw eq_refl K)|simpl in K; intuition discriminate].
      - apply in_app_iff in Hl. destruct Hl as [Hl|Hl].
        + apply in_map_iff in Hl. destruct Hl as (l' & <- & Hl). apply in_map_iff in Hl. destruct Hl as (p & <- & Hl). rewrite parse_unblank.
          destruct (H p Hl) as [K1 K2]. unfold node_line in *. rewrite tab_line.
          match goal with |- context [has "#" ?z] => assert (E1 : has "#" z = false) by (apply has_false; intros K; apply K1; right; exact K);
            assert (E2 : has "~" z = false) by (apply has_false; intros K; apply K2; right; exact K); rewrite E1, E2 end. reflexivity.
        + simpl in Hl. destruct Hl as [<-|[]]. reflexivity. }
    rewrite F. cbn [bind]. destruct (complete_empty w (S_ nm)) as (b' & E & E1 & E2 & E3). rewrite E. eexists. split; [reflexivity|].
    cbn [sn_bn]. split; [auto|]. split; [auto|]. split; [auto|]. unfold to_script. cbn [sn_bn sn_script].
    assert (Fz : b_frozen b' = true). { assert (Q : b_frozen (snd (complete (bn_new (S_ nm) : bn w))) = true) by reflexivity. rewrite E in Q. exact Q. }
    rewrite Fz. reflexivity.
Qed.
Print Assumptions C24_outcome_partial.

(** a network of constants only: all nodes are lost; with a random node: AttributeError *)
Definition consts : bn exw := mkBn "net" [("k", mkAttr lk None)] [] false None [].
Example C24_outcome_example :
  (exists s, bayes_net_from_script exy (form_script exy consts) = Ok s /\ b_attrs (sn_bn s) = [])
  /\ bayes_net_from_script exy (form_script exy exnet) = Err AttributeError.
Proof.
  assert (W : word (T "net")) by (apply word_forallb; split; [discriminate|reflexivity]).
  assert (Q : squeezed (T "net") (T "net")) by (apply squeezed_unblank; reflexivity).
  assert (N : ~ In nl (T "net")) by (apply not_In; reflexivity).
  split.
  - destruct (C24_outcome_partial exw exy consts (T "net") Q W N) as [_ H].
    + intros p [<-|[]]. apply not_In. reflexivity.
    + destruct H as (s & H1 & _ & H2 & _); [|eauto]. intros p [<-|[]]. split; apply not_In; reflexivity.
  - destruct (C24_outcome_partial exw exy exnet (T "net") Q W N) as [H _].
    + intros p Hp. apply not_In. simpl in Hp. repeat (destruct Hp as [<-|Hp]; [reflexivity|]). destruct Hp.
    + apply H. left. exists "x", lx. split; [|reflexivity]. exists (mkAttr lx None). split; reflexivity.
Qed.
Example C24_not_read_back_example : match bayes_net_from_script exy (form_script exy consts) with
  | Ok s => ~ node (sn_bn s) "k" /\ node consts "k" | Err _ => False end.
Proof.
  pose proof (C24_not_read_back_partial exw exy consts) as H.
  destruct (proj1 C24_outcome_example) as (s & E & _). rewrite E in *. split; [|left; reflexivity].
  apply H; [apply not_In; reflexivity|]. intros p [<-|[]]. apply not_In. reflexivity.
Qed.

(** With a line break in a name a node can be read: the node "a<LF>b" comes back as a node b. *)
Theorem C24_line_break_refuted : exists (y : syntax exw) (b : bn exw) s,
  (exists n, node b n) /\ bayes_net_from_script y (form_script y b) = Ok s /\ exists n, node (sn_bn s) n.
Proof.
  set (nm := S_ ("a"%char :: nl :: ["b"%char])).
  set (b := mkBn "net" [(nm, mkAttr (LExo nm) None)] [] false None [] : bn exw).
  assert (E : match bayes_net_from_script exy (form_script exy b) with Ok s => dkeys (b_attrs (sn_bn s)) | Err _ => [] end = ["b"])
    by (vm_cast_no_check (eq_refl ["b"])).
  exists exy, b. destruct (bayes_net_from_script exy (form_script exy b)) as [s|e]; [|discriminate E].
  exists s. split; [exists nm; left; reflexivity|]. split; [reflexivity|]. exists "b". unfold node. rewrite E. left. reflexivity.
Qed.
Print Assumptions C24_line_break_refuted.

(** The text of to_script is the generated one before and after complete(), and again after
    defrost(), also for a network that was read from a script. *)
Theorem C24_generated : forall w (y : syntax w) (s : snet w),
  (b_frozen (sn_bn s) = false -> to_script y s = Some (form_script y (sn_bn s)))
  /\ (coherent (sn_bn s) -> exists s', scomplete y s = (Ok tt, s') /\ to_script y s' = Some (form_script y (sn_bn s)))
  /\ to_script y (sdefrost s) = Some (form_script y (sn_bn s)).
Proof.
  intros w y s. split; [|split].
  - intros F. unfold to_script. rewrite F. reflexivity.
  - intros C. destruct (C16_complete_freezes w (sn_bn s) C) as (b' & E & F & _ & A & N & _). unfold scomplete. rewrite E.
    eexists. split; [reflexivity|]. unfold to_script. cbn [sn_bn sn_script]. rewrite F. unfold form_script. rewrite A, N. reflexivity.
  - reflexivity.
Qed.
Print Assumptions C24_generated.
Example C24_generated_example : exists s', scomplete exy (mkSnet exnet None) = (Ok tt, s') /\ to_script exy s' = Some (form_script exy exnet).
Proof. apply (C24_generated exw exy (mkSnet exnet None)). apply exnet_coherent. Qed.

(** ** C73: reading a script *)

Section Read.
  Context {w : world} (y : syntax w).

  Lemma append_lines_app : forall ls1 ls2 b, append_lines y b (ls1 ++ ls2) = do b' <- append_lines y b ls1; append_lines y b' ls2.
  Proof.
    intros ls1 ls2. induction ls1 as [|l ls1 IH]; intros b; [reflexivity|]. cbn [app append_lines].
    destruct (append_from_definition y b l) as [[u|e] b']; [apply IH|]. destruct e; try reflexivity. apply IH.
  Qed.

  Lemma find_header_skip : forall ls1 l ls2, rmatch re_header l = None -> find_header (ls1 ++ l :: ls2) = find_header (ls1 ++ ls2).
  Proof.
    intros ls1 l ls2 H. induction ls1 as [|x ls1 IH]; cbn [app find_header].
    - rewrite H. reflexivity.
    - destruct (rmatch re_header x) as [[|n g]|]; auto.
  Qed.

  Lemma lines_text : forall s, join [nl] (lines s) = s.
  Proof.
    intros s. induction s as [|c s IH]; [reflexivity|]. cbn [lines]. destruct (Ascii.eqb_spec c nl) as [->|].
    - pose proof (lines_nonempty s) as N. destruct (lines s) as [|l ls]; [congruence|].
      change (join [nl] ([] :: l :: ls)) with (nl :: join [nl] (l :: ls)). rewrite IH. reflexivity.
    - pose proof (lines_nonempty s) as N. destruct (lines s) as [|l ls]; [congruence|]. destruct ls as [|l2 ls].
      + simpl in *. rewrite IH. reflexivity.
      + change (join [nl] ((c :: l) :: l2 :: ls)) with (c :: join [nl] (l :: l2 :: ls)). rewrite IH. reflexivity.
  Qed.

  Lemma append_ok_script : forall b l, fst (append_from_definition y b l) = Err ScriptException ->
    parse_loci y l = Err ScriptException -> snd (append_from_definition y b l) = b.
  Proof. intros b l _ H. unfold append_from_definition. rewrite H. reflexivity. Qed.
End Read.

(** A network read from a script keeps the text, so that to_script() can be read again and
    gives the same network. *)
Theorem C73_text_kept : forall w (y : syntax w) text s, bayes_net_from_script y text = Ok s ->
  to_script y s = Some text /\ b_frozen (sn_bn s) = true.
Proof.
  intros w y text s H. unfold bayes_net_from_script in H. apply bind_ok in H. destruct H as (n & _ & H). apply bind_ok in H. destruct H as (b & _ & H).
  assert (F : b_frozen (snd (complete b)) = true).
  { unfold complete. destruct (order (dag b)); [|reflexivity]. destruct (rv_roots_of b a); reflexivity. }
  destruct (complete b) as [[u|e] b']; [|discriminate H]. injection H as <-. cbn [snd] in F. split; auto. unfold to_script. cbn [sn_bn sn_script]. rewrite F. reflexivity.
Qed.
Print Assumptions C73_text_kept.

(** A line that is no definition (and no header) is dropped without notice. *)
Theorem C73_ignored : forall w (y : syntax w) (ls1 : list text) (l : text) (ls2 : list text), ls1 ++ ls2 <> [] ->
  (forall x, In x (ls1 ++ l :: ls2) -> ~ In nl x) ->
  parse_loci y l = Err ScriptException -> rmatch re_header (unblank l) = None ->
  match bayes_net_from_script y (join [nl] (ls1 ++ l :: ls2)), bayes_net_from_script y (join [nl] (ls1 ++ ls2)) with
  | Ok s, Ok s' => sn_bn s = sn_bn s'
  | Err e, Err e' => e = e'
  | _, _ => False
  end.
Proof.
  intros w y ls1 l ls2 Hne Hnl Hp Hh. unfold bayes_net_from_script.
  rewrite lines_join; [|destruct ls1; discriminate|exact Hnl].
  rewrite lines_join; [|exact Hne|intros x Hx; apply Hnl; rewrite in_app_iff in *; simpl; tauto].
  rewrite !map_app. cbn [map]. rewrite find_header_skip by exact Hh.
  destruct (find_header (map unblank ls1 ++ map unblank ls2)) as [n|e]; cbn [bind]; [|exact eq_refl].
  rewrite !append_lines_app. destruct (append_lines y (bn_new (S_ n)) (map unblank ls1)) as [b|e]; cbn [bind]; [|exact eq_refl].
  cbn [append_lines]. unfold append_from_definition at 1. rewrite parse_unblank, Hp.
  destruct (append_lines y b (map unblank ls2)) as [b2|e]; cbn [bind]; [|exact eq_refl].
  destruct (complete b2) as [[u|e] b3]; exact eq_refl.
Qed.
Print Assumptions C73_ignored.

(** A single line whose definition raises anything else than ScriptException makes the whole
    reading fail, wherever it stands. *)
Theorem C73_one_bad_line : forall w (y : syntax w) text l e, In l (lines text) -> parse_loci y l = Err e -> e <> ScriptException ->
  exists e', bayes_net_from_script y text = Err e'.
Proof.
  intros w y text l e Hl Hp He. unfold bayes_net_from_script. destruct (find_header _) as [n|e']; cbn [bind]; [|eauto].
  apply in_split in Hl. destruct Hl as (l1 & l2 & El). rewrite El, map_app. cbn [map]. rewrite append_lines_app.
  destruct (append_lines y (bn_new (S_ n)) (map unblank l1)) as [b|e']; cbn [bind]; [|eauto].
  cbn [append_lines]. unfold append_from_definition. rewrite parse_unblank, Hp. destruct e; cbn [bind]; eauto. congruence.
Qed.
Print Assumptions C73_one_bad_line.

(** in particular a line of comment *)
Theorem C73_comment_line : forall w (y : syntax w) text l u, In l (lines text) -> squeezed l ("#"%char :: u) -> ~ In "#"%char u ->
  exists e', bayes_net_from_script y text = Err e'.
Proof.
  intros w y text l u Hl Hs Hu. apply (C73_one_bad_line w y text l AttributeError Hl); [|discriminate].
  apply (C35_bad_comment w y l ("#"%char :: u) Hs); [simpl; auto|].
  intros body des (rest & E & [Hb _] & _). destruct body as [|c body]; [congruence|]. simpl in E. injection E as <- ->. apply Hu.
  apply in_app_iff. simpl. auto.
Qed.
Print Assumptions C73_comment_line.

(** ** C74: the network of a script is given by its definitions, in any order *)

Section Defs.
  Context {w : world} (y : syntax w).

  (** the definitions standing in the lines, with their comments *)
  Inductive defs_of : list text -> list (loci w * text) -> Prop :=
  | do_nil : defs_of [] []
  | do_skip : forall l ls ds, parse_loci y l = Err ScriptException -> defs_of ls ds -> defs_of (l :: ls) ds
  | do_take : forall l ls d ds, parse_loci y l = Ok d -> defs_of ls ds -> defs_of (l :: ls) (d :: ds).

  Definition dnames (ds : list (loci w * text)) : list name := map (fun d => loci_name (fst d)) ds.
  (** a definition of [n] mentions [p] *)
  Definition dep (ds : list (loci w * text)) (p n : name) : Prop :=
    exists l des, In (l, des) ds /\ loci_name l = n /\ In p (loci_parents l).
  Definition loop_free (ds : list (loci w * text)) : Prop := forall n, ~ Relation_Operators.clos_trans name (dep ds) n n.

  Definition note (des : text) : option string := match des with [] => None | _ => Some (S_ des) end.

  (** exactly the defined names with their definitions and comments, and the mentioned but
      undefined names as exogenous nodes; edges from the mentioned names *)
  Record net_of (ds : list (loci w * text)) (b : bn w) : Prop := mkNetOf {
    no_node : forall n, node b n <-> In n (dnames ds) \/ exists m, dep ds n m;
    no_def : forall l des, In (l, des) ds -> dget (b_attrs b) (loci_name l) = Some (mkAttr l (note des));
    no_exo : forall n m, ~ In n (dnames ds) -> dep ds n m -> dget (b_attrs b) n = Some (mkAttr (LExo n) None);
    no_edge : forall p n, edge (dag b) p n <-> dep ds p n
  }.

  Lemma dep_app : forall a b p n, dep (a ++ b) p n <-> dep a p n \/ dep b p n.
  Proof.
    intros a b p n. unfold dep. split.
    - intros (l & d & H & H1). apply in_app_iff in H. destruct H as [H|H]; [left|right]; eauto.
    - intros [(l & d & H & H1)|(l & d & H & H1)]; exists l, d; rewrite in_app_iff; auto.
  Qed.
  Lemma dep_one : forall l des p n, dep [(l, des)] p n <-> loci_name l = n /\ In p (loci_parents l).
  Proof.
    intros l des p n. unfold dep. split.
    - intros (l' & d & [H|[]] & H1). injection H as <- <-. auto.
    - intros H. exists l, des. simpl. auto.
  Qed.
  Lemma dnames_app : forall a b, dnames (a ++ b) = dnames a ++ dnames b. Proof. intros. unfold dnames. apply map_app. Qed.
  Lemma dep_name : forall ds p n, dep ds p n -> In n (dnames ds).
  Proof. intros ds p n (l & d & H & <- & _). unfold dnames. apply (in_map (fun d => loci_name (fst d)) ds (l, d)). auto. Qed.

  Lemma path_dep : forall ds (b : bn w), (forall p n, edge (dag b) p n -> dep ds p n) ->
    forall x z, path (dag b) x z -> Relation_Operators.clos_trans name (dep ds) x z.
  Proof.
    intros ds b H x z P. induction P as [x z E|x m z E P IH].
    - apply Relation_Operators.t_step. auto.
    - eapply Relation_Operators.t_trans; [apply Relation_Operators.t_step; apply H; exact E|exact IH].
  Qed.

  Lemma step_net : forall dn b lo des b', net_of dn b -> ~ In (loci_name lo) (dnames dn) -> defined b lo (note des) b' -> net_of (dn ++ [(lo, des)]) b'.
  Proof.
    intros dn b lo des b' N Fresh Df. constructor.
    - intros n. rewrite (df_nodes _ _ _ _ Df), (no_node _ _ N), dnames_app, in_app_iff. simpl. split.
      + intros [[H|[m H]]|[->|H]]; [auto| |auto|].
        * right. exists m. apply dep_app. auto.
        * right. exists (loci_name lo). apply dep_app. right. apply dep_one. auto.
      + intros [[H|[<-|[]]]|[m H]]; auto. apply dep_app in H. destruct H as [H|H]; [left; right; eauto|]. apply dep_one in H. tauto.
    - intros l' des' H. rewrite (df_attrs _ _ _ _ Df). apply in_app_iff in H. destruct H as [H|[H|[]]].
      + assert (Ne : loci_name l' <> loci_name lo).
        { intros K. apply Fresh. rewrite <- K. unfold dnames. apply (in_map (fun d => loci_name (fst d)) dn (l', des')). auto. }
        destruct (String.eqb_spec (loci_name l') (loci_name lo)); [congruence|]. rewrite (no_def _ _ N _ _ H). reflexivity.
      + injection H as <- <-. rewrite String.eqb_refl. f_equal. f_equal. destruct (note des) eqn:En; auto.
        destruct (dget (b_attrs b) (loci_name lo)) as [a|] eqn:Ea; auto.
        assert (Hn : node b (loci_name lo)) by (apply dget_In; eauto). apply (no_node _ _ N) in Hn. destruct Hn as [Hn|[m Hn]]; [tauto|].
        rewrite (no_exo _ _ N _ _ Fresh Hn) in Ea. injection Ea as <-. reflexivity.
    - intros n m H1 H2. rewrite (df_attrs _ _ _ _ Df). rewrite dnames_app, in_app_iff in H1. simpl in H1.
      destruct (String.eqb_spec n (loci_name lo)); [subst; tauto|].
      destruct (dget (b_attrs b) n) as [a|] eqn:Ea.
      + assert (Hn : node b n) by (apply dget_In; eauto). apply (no_node _ _ N) in Hn. destruct Hn as [Hn|[m' Hn]]; [tauto|].
        rewrite (no_exo _ _ N n m') in Ea; [congruence|tauto|auto].
      + apply dep_app in H2. destruct H2 as [H2|H2].
        * exfalso. assert (Hn : node b n) by (apply (no_node _ _ N); eauto). apply dget_In in Hn. destruct Hn as [v Hn]. congruence.
        * apply dep_one in H2. destruct H2 as [_ H2]. apply mem_In in H2. rewrite H2. reflexivity.
    - intros p n. rewrite (df_edges _ _ _ _ Df), (no_edge _ _ N), dep_app, dep_one. split; intros [H|[H1 H2]]; auto.
  Qed.

  (** a list of lines that can all be appended: the network is given by the definitions *)
  Lemma append_lines_coherent : forall ls b b', coherent b -> append_lines y b ls = Ok b' -> coherent b'
    /\ (forall p n, edge (dag b) p n -> edge (dag b') p n).
  Proof.
    intros ls. induction ls as [|l ls IH]; intros b b' C H; cbn [append_lines] in H; [injection H as <-; auto|].
    unfold append_from_definition in H. destruct (parse_loci y l) as [[lo des]|e].
    - change (match des with [] => None | _ => Some (S_ des) end) with (note des) in H.
      destruct (append_loci b lo (note des)) as [[[]|e] b1] eqn:E.
      + destruct (append_loci_ok _ _ _ _ (co_wf _ C) (co_acyclic _ C) E) as (F & Hp & Hc & Df & A).
        destruct (IH b1 b' (append_loci_coherent _ _ _ _ C E) H) as [C' M]. split; auto. intros p n Hpn. apply M. apply (df_edges _ _ _ _ Df). auto.
      + exfalso. destruct (b_frozen b) eqn:F; [rewrite append_loci_frozen in E by auto; injection E as <- <-; discriminate H|].
        destruct (has_parents_dec b (loci_name lo)) as [Hp|Hp].
        * rewrite (append_loci_parents b lo (note des) (co_wf _ C) (co_acyclic _ C) F Hp) in E. injection E as <- <-. discriminate H.
        * destruct (append_loci_root b lo (note des) (co_wf _ C) (co_acyclic _ C) F Hp) as [[_ (b2 & E2 & _)]|[_ (b2 & E2 & _)]]; rewrite E2 in E; [discriminate E|].
          injection E as <- <-. discriminate H.
    - destruct e; try discriminate H. apply IH; auto.
  Qed.

  Lemma append_lines_net : forall ds dn b, net_of dn b -> coherent b -> NoDup (dnames (dn ++ ds)) ->
    forall ls b', defs_of ls ds -> append_lines y b ls = Ok b' -> net_of (dn ++ ds) b'.
  Proof.
    intros ds dn b N C ND ls b' D. revert dn b N C ND. induction D as [|l ls ds Hl D IH|l ls [lo des] ds Hl D IH]; intros dn b N C ND H; cbn [append_lines] in H.
    - injection H as <-. rewrite app_nil_r. auto.
    - unfold append_from_definition in H. rewrite Hl in H. apply (IH dn b); auto.
    - assert (H2 := H). unfold append_from_definition in H. rewrite Hl in H.
      change (match des with [] => None | _ => Some (S_ des) end) with (note des) in H.
      destruct (append_loci b lo (note des)) as [[[]|e] b1] eqn:E.
      + destruct (append_loci_ok _ _ _ _ (co_wf _ C) (co_acyclic _ C) E) as (F & Hp & Hc & Df & A).
        assert (R : dn ++ (lo, des) :: ds = (dn ++ [(lo, des)]) ++ ds) by (rewrite <- app_assoc; reflexivity). rewrite R in ND |- *.
        apply (IH _ b1); auto; [|eapply append_loci_coherent; eauto]. eapply step_net; eauto.
        rewrite <- R, dnames_app in ND. simpl in ND. apply NoDup_remove_2 in ND. intros K. apply ND. apply in_app_iff. auto.
      + exfalso. destruct (b_frozen b) eqn:F; [rewrite append_loci_frozen in E by auto; injection E as <- <-; discriminate H|].
        destruct (has_parents_dec b (loci_name lo)) as [Hp|Hp].
        * rewrite (append_loci_parents b lo (note des) (co_wf _ C) (co_acyclic _ C) F Hp) in E. injection E as <- <-. discriminate H.
        * destruct (append_loci_root b lo (note des) (co_wf _ C) (co_acyclic _ C) F Hp) as [[_ (b2 & E2 & _)]|[_ (b2 & E2 & _)]]; rewrite E2 in E; [discriminate E|].
          injection E as <- <-. discriminate H.
  Qed.

  Lemma append_defs : forall ds dn b, net_of dn b -> coherent b -> b_frozen b = false -> NoDup (dnames (dn ++ ds)) -> loop_free (dn ++ ds) ->
    forall ls, defs_of ls ds -> exists b', append_lines y b ls = Ok b' /\ net_of (dn ++ ds) b' /\ coherent b' /\ b_frozen b' = false /\ b_name b' = b_name b.
  Proof.
    intros ds dn b N C F ND LF ls D. revert dn b N C F ND LF. induction D as [|l ls ds Hl D IH|l ls [lo des] ds Hl D IH]; intros dn b N C F ND LF.
    - exists b. rewrite app_nil_r. cbn [append_lines]. auto.
    - cbn [append_lines]. unfold append_from_definition. rewrite Hl. apply IH; auto.
    - cbn [append_lines]. unfold append_from_definition. rewrite Hl.
      change (match des with [] => None | _ => Some (S_ des) end) with (note des).
      assert (Fresh : ~ In (loci_name lo) (dnames dn)).
      { rewrite dnames_app in ND. simpl in ND. apply NoDup_remove_2 in ND. intros K. apply ND. apply in_app_iff. auto. }
      assert (Hp : ~ has_parents b (loci_name lo)).
      { intros [p Hp]. apply (no_edge _ _ N) in Hp. apply dep_name in Hp. auto. }
      assert (Hc : ~ closes_cycle b lo).
      { intros (p & Hin & Hp'). apply (LF (loci_name lo)).
        assert (S1 : dep (dn ++ (lo, des) :: ds) p (loci_name lo)). { exists lo, des. rewrite in_app_iff. simpl. auto. }
        destruct Hp' as [->|Hp'].
        - apply Relation_Operators.t_step. exact S1.
        - eapply Relation_Operators.t_trans; [|apply Relation_Operators.t_step; exact S1].
          eapply path_dep; [|exact Hp']. intros u v E. apply dep_app. left. apply (no_edge _ _ N). exact E. }
      destruct (append_loci_root b lo (note des) (co_wf _ C) (co_acyclic _ C) F Hp) as [[_ (b' & E & Df & A')]|[K _]]; [|tauto].
      rewrite E.
      assert (N' : net_of (dn ++ [(lo, des)]) b') by (eapply step_net; eauto).
      assert (C' : coherent b') by (eapply append_loci_coherent; eauto).
      assert (R : dn ++ (lo, des) :: ds = (dn ++ [(lo, des)]) ++ ds) by (rewrite <- app_assoc; reflexivity). rewrite R in ND, LF |- *.
      destruct (IH _ _ N' C' (df_frozen _ _ _ _ Df) ND LF) as (b2 & E2 & N2 & C2 & F2 & Nm). exists b2. rewrite <- (df_name _ _ _ _ Df). auto.
  Qed.

  Lemma net_of_empty : forall n, net_of [] (bn_new n : bn w).
  Proof.
    intros n. constructor.
    - intros m. unfold node. simpl. split; [tauto|]. intros [H|(k & l & d & H & _)]; auto.
    - intros l des [].
    - intros m k _ (l & d & [] & _).
    - intros p m. split; [intros H; destruct H|intros (l & d & [] & _)].
  Qed.

  (** a script: lines without line breaks *)
  Definition plain_lines (ls : list text) : Prop := ls <> [] /\ forall l, In l ls -> ~ In nl l.
End Defs.
Arguments net_of {w}.
Arguments dep {w}.
Arguments dnames {w}.
Arguments loop_free {w}.

Lemma defs_unblank : forall w (y : syntax w) ls ds, defs_of y ls ds -> defs_of y (map unblank ls) ds.
Proof.
  intros w y ls ds D. induction D; cbn [map]; [constructor| |]; [apply do_skip|apply do_take]; auto; rewrite parse_unblank; auto.
Qed.

(** If the definitions have different names and do not depend on each other in a circle, the
    script is read, and the network consists of exactly these definitions, with the names that
    are mentioned but not defined as exogenous nodes. *)
Theorem C74_network : forall w (y : syntax w) (ls : list text) ds n, plain_lines ls -> defs_of y ls ds ->
  find_header (map unblank ls) = Ok n -> NoDup (dnames ds) -> loop_free ds ->
  exists s, bayes_net_from_script y (join [nl] ls) = Ok s
    /\ b_name (sn_bn s) = S_ n /\ b_frozen (sn_bn s) = true /\ coherent (sn_bn s) /\ fresh (sn_bn s) /\ net_of ds (sn_bn s).
Proof.
  intros w y ls ds n [Hne Hnl] D Hh ND LF. unfold bayes_net_from_script. rewrite lines_join by auto. rewrite Hh. cbn [bind].
  apply defs_unblank in D.
  assert (C0 : coherent (bn_new (S_ n) : bn w)) by (apply built_coherent; constructor).
  destruct (append_defs y ds [] (bn_new (S_ n)) (net_of_empty (S_ n)) C0 eq_refl ND LF _ D) as (b & E & N & C & F & Nm).
  rewrite E. cbn [bind].
  destruct (C16_complete_freezes w b C) as (b' & E' & F' & [S1 [S2 S3]] & A & Nm' & _). rewrite E'. eexists. split; [reflexivity|]. cbn [sn_bn].
  split; [rewrite Nm', Nm; reflexivity|]. split; [exact F'|].
  assert (X : coherent b' /\ fresh b').
  { eapply complete_coherent; eauto. }
  split; [apply X|]. split; [apply X|]. constructor.
  - intros m. rewrite <- S1. apply (no_node _ _ N).
  - intros l des H. rewrite A. apply (no_def _ _ N); auto.
  - intros m k H1 H2. rewrite A. eapply (no_exo _ _ N); eauto.
  - intros p m. rewrite <- S3. apply (no_edge _ _ N).
Qed.
Print Assumptions C74_network.

Lemma dep_perm : forall w (ds ds' : list (loci w * text)), Permutation ds ds' -> forall p n, dep ds p n <-> dep ds' p n.
Proof.
  intros w ds ds' P p n. unfold dep. split; intros (l & d & H & R); exists l, d; (split; [|exact R]).
  - exact (Permutation_in _ P H).
  - exact (Permutation_in _ (Permutation_sym P) H).
Qed.
Lemma defs_of_perm : forall w (y : syntax w) ls ls', Permutation ls ls' -> forall ds, defs_of y ls ds -> exists ds', defs_of y ls' ds' /\ Permutation ds ds'.
Proof.
  intros w y ls ls' P. induction P as [|l ls ls' P IH|a b ls|l1 l2 l3 P1 IH1 P2 IH2]; intros ds D.
  - inversion D; subst. exists []. split; constructor.
  - inversion D; subst.
    + destruct (IH _ H3) as (ds' & D' & P'). exists ds'. split; auto. apply do_skip; auto.
    + destruct (IH _ H3) as (ds' & D' & P'). exists (d :: ds'). split; [apply do_take; auto|constructor; auto].
  - inversion D; subst; inversion H3; subst.
    + eexists. split; [apply do_skip; [eassumption|]; apply do_skip; eassumption|apply Permutation_refl].
    + eexists. split; [apply do_take; [eassumption|]; apply do_skip; eassumption|apply Permutation_refl].
    + eexists. split; [apply do_skip; [eassumption|]; apply do_take; eassumption|apply Permutation_refl].
    + eexists. split; [apply do_take; [eassumption|]; apply do_take; eassumption|apply perm_swap].
  - destruct (IH1 _ D) as (d2 & D2 & Q2). destruct (IH2 _ D2) as (d3 & D3 & Q3). exists d3. split; auto. eapply perm_trans; eauto.
Qed.

(** The order of the definitions is irrelevant: the same lines in another order give a network
    with the same nodes, definitions and edges. *)
Theorem C74_line_order : forall w (y : syntax w) (ls ls' : list text) ds n n', plain_lines ls -> Permutation ls ls' -> defs_of y ls ds ->
  find_header (map unblank ls) = Ok n -> find_header (map unblank ls') = Ok n' -> NoDup (dnames ds) -> loop_free ds ->
  exists s s', bayes_net_from_script y (join [nl] ls) = Ok s /\ bayes_net_from_script y (join [nl] ls') = Ok s'
    /\ same_net (sn_bn s) (sn_bn s').
Proof.
  intros w y ls ls' ds n n' PL P D Hh Hh' ND LF.
  destruct (defs_of_perm w y ls ls' P ds D) as (ds' & D' & Q).
  assert (PL' : plain_lines ls').
  { destruct PL as [H1 H2]. split; [intros ->; apply Permutation_sym, Permutation_nil in P; auto|].
    intros l Hl. apply H2. eapply Permutation_in; [apply Permutation_sym; exact P|auto]. }
  assert (ND' : NoDup (dnames ds')) by (eapply Permutation_NoDup; [apply (Permutation_map (fun d => loci_name (fst d)) Q)|exact ND]).
  assert (LF' : loop_free ds').
  { assert (G : forall a b, Relation_Operators.clos_trans name (dep ds') a b -> Relation_Operators.clos_trans name (dep ds) a b).
    { intros a b H. induction H as [a b H|a b c H1 I1 H2 I2]; [apply Relation_Operators.t_step; exact (proj2 (dep_perm w ds ds' Q a b) H)|eapply Relation_Operators.t_trans; eauto]. }
    intros m H. exact (LF m (G m m H)). }
  destruct (C74_network w y ls ds n PL D Hh ND LF) as (s & E & _ & _ & _ & _ & N).
  destruct (C74_network w y ls' ds' n' PL' D' Hh' ND' LF') as (s' & E' & _ & _ & _ & _ & N').
  exists s, s'. split; [exact E|]. split; [exact E'|].
  assert (In' : forall m, In m (dnames ds) <-> In m (dnames ds')).
  { intros m. unfold dnames. split; apply Permutation_in; [|apply Permutation_sym]; apply Permutation_map; auto. }
  assert (Nd : forall m, node (sn_bn s) m <-> node (sn_bn s') m).
  { intros m. rewrite (no_node _ _ N), (no_node _ _ N'), In'. split; (intros [H|[k H]]; [auto|right; exists k; apply (dep_perm w ds ds' Q m k); exact H]). }
  assert (At : forall m, node (sn_bn s) m -> dget (b_attrs (sn_bn s)) m = dget (b_attrs (sn_bn s')) m).
  { intros m H. destruct (in_dec string_dec m (dnames ds)) as [I|I].
    - unfold dnames in I. apply in_map_iff in I. destruct I as ([l des] & <- & I). cbn [fst]. rewrite (no_def _ _ N _ _ I). symmetry. apply (no_def _ _ N'). eapply Permutation_in; eauto.
    - apply (no_node _ _ N) in H. destruct H as [H|[k H]]; [tauto|]. rewrite (no_exo _ _ N m k I H). symmetry. apply (no_exo _ _ N' m k); [rewrite <- In'; auto|]. apply (dep_perm w ds ds' Q m k); exact H. }
  split; [exact Nd|]. split.
  - intros m l. unfold holds. split; intros (a & H1 & H2); exists a; split; auto.
    + rewrite <- At; auto. apply dget_In. eauto.
    + rewrite At; auto. apply Nd. apply dget_In. eauto.
  - intros p m. rewrite (no_edge _ _ N), (no_edge _ _ N'). apply dep_perm; auto.
Qed.
Print Assumptions C74_line_order.

(** Definitions that depend on each other in a circle are never read. *)
Theorem C74_circular : forall w (y : syntax w) (ls : list text) ds, plain_lines ls -> defs_of y ls ds ->
  NoDup (dnames ds) -> (exists n, Relation_Operators.clos_trans name (dep ds) n n) ->
  exists e, bayes_net_from_script y (join [nl] ls) = Err e.
Proof.
  intros w y ls ds [Hne Hnl] D ND [m Hm]. unfold bayes_net_from_script. rewrite lines_join by auto.
  destruct (find_header (map unblank ls)) as [n|e]; cbn [bind]; [|eauto]. apply defs_unblank in D.
  assert (C0 : coherent (bn_new (S_ n) : bn w)) by (apply built_coherent; constructor).
  destruct (append_lines y (bn_new (S_ n)) (map unblank ls)) as [b|e] eqn:E; cbn [bind]; [|eauto]. exfalso.
  pose proof (append_lines_net y ds [] (bn_new (S_ n)) (net_of_empty (S_ n)) C0 ND _ _ D E) as N.
  destruct (append_lines_coherent y _ _ _ C0 E) as [C _]. apply (co_acyclic _ C m).
  assert (G : forall a c, Relation_Operators.clos_trans name (dep ds) a c -> path (dag b) a c).
  { intros a c H. apply clos_trans_t1n in H. induction H as [a c H|a c d H1 H2 I]; [apply path_edge; apply (no_edge _ _ N); exact H|].
    eapply path_step; [apply (no_edge _ _ N); exact H1|exact I]. }
  apply G. exact Hm.
Qed.
Print Assumptions C74_circular.

(** A second definition of a name whose first definition mentions other names is never read. *)
Theorem C74_redefined : forall w (y : syntax w) (ls1 ls2 ls3 : list text) (l1 l2 : text) lo1 lo2 d1 d2,
  plain_lines (ls1 ++ l1 :: ls2 ++ l2 :: ls3) ->
  parse_loci y l1 = Ok (lo1, d1) -> parse_loci y l2 = Ok (lo2, d2) -> loci_name lo1 = loci_name lo2 -> loci_parents lo1 <> [] ->
  exists e, bayes_net_from_script y (join [nl] (ls1 ++ l1 :: ls2 ++ l2 :: ls3)) = Err e.
Proof.
  intros w y ls1 ls2 ls3 l1 l2 lo1 lo2 d1 d2 [Hne Hnl] P1 P2 Hn Hp. unfold bayes_net_from_script. rewrite lines_join by auto.
  match goal with |- context [find_header ?z] => destruct (find_header z) as [n|e] end; cbn [bind]; [|eauto].
  assert (C0 : coherent (bn_new (S_ n) : bn w)) by (apply built_coherent; constructor).
  rewrite map_app. cbn [map]. rewrite map_app. cbn [map]. rewrite append_lines_app.
  destruct (append_lines y (bn_new (S_ n)) (map unblank ls1)) as [b|e] eqn:E; cbn [bind]; [|eauto].
  destruct (append_lines_coherent y _ _ _ C0 E) as [C _].
  change (unblank l1 :: map unblank ls2 ++ unblank l2 :: map unblank ls3) with ([unblank l1] ++ map unblank ls2 ++ unblank l2 :: map unblank ls3).
  rewrite append_lines_app. destruct (append_lines y b [unblank l1]) as [b1|e] eqn:E1; cbn [bind]; [|eauto].
  destruct (append_lines_coherent y _ _ _ C E1) as [C1 _].
  assert (H1 : has_parents b1 (loci_name lo2)).
  { cbn [append_lines] in E1. unfold append_from_definition in E1. rewrite parse_unblank, P1 in E1.
    change (match d1 with [] => None | _ => Some (S_ d1) end) with (note d1) in E1.
    destruct (append_loci b lo1 (note d1)) as [[[]|e] b2] eqn:Ea.
    - injection E1 as <-. destruct (append_loci_ok _ _ _ _ (co_wf _ C) (co_acyclic _ C) Ea) as (F & Hp' & Hc & Df & A).
      destruct (loci_parents lo1) as [|p ps] eqn:Eps; [congruence|]. exists p. apply (df_edges _ _ _ _ Df). right. rewrite Eps. simpl. auto.
    - destruct (b_frozen b) eqn:F; [rewrite append_loci_frozen in Ea by auto; injection Ea as <- <-; discriminate E1|].
      destruct (has_parents_dec b (loci_name lo1)) as [Hp'|Hp'].
      + rewrite (append_loci_parents b lo1 (note d1) (co_wf _ C) (co_acyclic _ C) F Hp') in Ea. injection Ea as <- <-. discriminate E1.
      + destruct (append_loci_root b lo1 (note d1) (co_wf _ C) (co_acyclic _ C) F Hp') as [[_ (b3 & E3 & _)]|[_ (b3 & E3 & _)]]; rewrite E3 in Ea; [discriminate Ea|].
        injection Ea as <- <-. discriminate E1. }
  rewrite append_lines_app. destruct (append_lines y b1 (map unblank ls2)) as [b2|e] eqn:E2; cbn [bind]; [|eauto].
  destruct (append_lines_coherent y _ _ _ C1 E2) as [C2 M]. cbn [append_lines]. unfold append_from_definition. rewrite parse_unblank, P2.
  change (match d2 with [] => None | _ => Some (S_ d2) end) with (note d2).
  destruct (b_frozen b2) eqn:F; [rewrite append_loci_frozen by auto; cbn [bind]; eauto|].
  rewrite (append_loci_parents b2 lo2 (note d2) (co_wf _ C2) (co_acyclic _ C2) F); [cbn [bind]; eauto|].
  destruct H1 as [p H1]. exists p. apply M. exact H1.
Qed.
Print Assumptions C74_redefined.

Ltac exact_vm := match goal with |- ?a = ?b => vm_cast_no_check (eq_refl b) end.
(** Example: the function is defined before the names it mentions *)
Definition exlines : list text := [T "PCore net {"; T "z = a + 3 # sum"; T "a ~ norm(a, s)"; T "}"].
Definition exlines2 : list text := [T "PCore net {"; T "x ~ norm(a, s)"; T "z = a + 3 # sum"; T "a = 3"; T "}"].
Definition exdefs2 : list (loci exw * text) :=
  [(LDist "x" (e_norm (EName "a") (EName "s")) ["a"; "s"], []); (LFunc "z" (e_add (EName "a") (ENum "3")) ["a"], T "sum"); (LValue (w:=exw) "a" (PZ 3), [])].
Lemma exdefs2_of : defs_of exy exlines2 exdefs2.
Proof.
  unfold exlines2, exdefs2. apply do_skip; [reflexivity|]. apply do_take; [exact_vm|]. apply do_take; [exact_vm|].
  apply do_take; [exact_vm|]. apply do_skip; [reflexivity|]. constructor.
Qed.
Lemma exlines2_plain : plain_lines exlines2.
Proof. split; [discriminate|]. intros l Hl. apply not_In. simpl in Hl. repeat (destruct Hl as [<-|Hl]; [reflexivity|]). destruct Hl. Qed.
Lemma exdefs2_nodup : NoDup (dnames exdefs2).
Proof. unfold dnames, exdefs2. simpl. repeat constructor; simpl; intuition discriminate. Qed.
Lemma exdefs2_loop : loop_free exdefs2.
Proof.
  assert (G : forall p n, clos_trans name (dep exdefs2) p n -> (p = "a" \/ p = "s") /\ (n = "x" \/ n = "z")).
  { intros p n H. induction H as [p n (l & d & H & <- & K)|a b c H1 I1 H2 I2].
    - simpl in H. destruct H as [H|[H|[H|[]]]]; injection H as <- <-; simpl in K; simpl; intuition.
    - split; [apply I1|apply I2]. }
  intros n H. destruct (G n n H) as [[->| ->] [H1|H1]]; discriminate H1.
Qed.
Example C74_network_example : exists s, bayes_net_from_script exy (join [nl] exlines2) = Ok s
  /\ holds (sn_bn s) "s" (LExo "s") /\ holds (sn_bn s) "a" (LValue (w:=exw) "a" (PZ 3)) /\ described (sn_bn s) "z" (Some "sum")
  /\ edge (dag (sn_bn s)) "a" "z".
Proof.
  destruct (C74_network exw exy exlines2 exdefs2 (T "net") exlines2_plain exdefs2_of eq_refl exdefs2_nodup exdefs2_loop) as (s & E & _ & _ & _ & _ & N).
  exists s. split; [exact E|]. split; [|split; [|split]].
  - exists (mkAttr (LExo "s") None). split; [|reflexivity]. apply (no_exo _ _ N "s" "x").
    + unfold dnames, exdefs2. simpl. intuition discriminate.
    + do 2 eexists. split; [left; reflexivity|]. split; [reflexivity|]. simpl. auto.
  - exists (mkAttr (LValue (w:=exw) "a" (PZ 3)) None). split; [|reflexivity]. apply (no_def _ _ N (LValue (w:=exw) "a" (PZ 3)) []). simpl. auto.
  - eexists. split; [apply (no_def _ _ N (LFunc "z" (e_add (EName "a") (ENum "3")) ["a"]) (T "sum")); simpl; auto|reflexivity].
  - apply (no_edge _ _ N). do 2 eexists. split; [right; left; reflexivity|]. split; [reflexivity|]. simpl. auto.
Qed.
Example C74_line_order_example : exists s s', bayes_net_from_script exy (join [nl] exlines2) = Ok s
  /\ bayes_net_from_script exy (join [nl] (rev exlines2)) = Ok s' /\ same_net (sn_bn s) (sn_bn s').
Proof.
  apply (C74_line_order exw exy exlines2 (rev exlines2) exdefs2 (T "net") (T "net") exlines2_plain (Permutation_rev _) exdefs2_of eq_refl eq_refl exdefs2_nodup exdefs2_loop).
Qed.
Example C74_circular_example : exists e, bayes_net_from_script exy (join [nl] exlines) = Err e.
Proof.
  apply (C74_circular exw exy exlines [(LFunc "z" (e_add (EName "a") (ENum "3")) ["a"], T "sum"); (LDist "a" (e_norm (EName "a") (EName "s")) ["a"; "s"], [])]).
  - split; [discriminate|]. intros l Hl. apply not_In. simpl in Hl. repeat (destruct Hl as [<-|Hl]; [reflexivity|]). destruct Hl.
  - unfold exlines. apply do_skip; [reflexivity|]. apply do_take; [exact_vm|]. apply do_take; [exact_vm|]. apply do_skip; [reflexivity|]. constructor.
  - unfold dnames. simpl. repeat constructor; simpl; intuition discriminate.
  - exists "a". apply t_step. do 2 eexists. split; [right; left; reflexivity|]. split; [reflexivity|]. simpl. auto.
Qed.
Example C74_redefined_example : exists e, bayes_net_from_script exy (join [nl] [T "PCore net {"; T "x ~ norm(a, s)"; T "x = 3"]) = Err e.
Proof.
  apply (C74_redefined exw exy [T "PCore net {"] [] [] (T "x ~ norm(a, s)") (T "x = 3") (LDist "x" (e_norm (EName "a") (EName "s")) ["a"; "s"]) (LValue (w:=exw) "x" (PZ 3)) [] []);
    [|exact_vm|exact_vm|reflexivity|discriminate].
  split; [discriminate|]. intros l Hl. apply not_In. simpl in Hl. repeat (destruct Hl as [<-|Hl]; [reflexivity|]). destruct Hl.
Qed.

Example C73_text_kept_example : exists s, bayes_net_from_script exy (join [nl] exlines2) = Ok s /\ to_script exy s = Some (join [nl] exlines2).
Proof.
  destruct C74_network_example as (s & E & _). exists s. split; [exact E|]. apply (C73_text_kept exw exy _ s E).
Qed.
Example C73_ignored_example : match bayes_net_from_script exy (join [nl] ([T "PCore net {"] ++ T "x := 3" :: [T "k = 3"])),
                                    bayes_net_from_script exy (join [nl] ([T "PCore net {"] ++ [T "k = 3"])) with
  | Ok s, Ok s' => sn_bn s = sn_bn s' | Err e, Err e' => e = e' | _, _ => False end.
Proof.
  apply (C73_ignored exw exy [T "PCore net {"] (T "x := 3") [T "k = 3"]); [discriminate| |reflexivity|reflexivity].
  intros x Hx. apply not_In. simpl in Hx. repeat (destruct Hx as [<-|Hx]; [reflexivity|]). destruct Hx.
Qed.
Example C73_one_bad_line_example : exists e, bayes_net_from_script exy (join [nl] [T "PCore net {"; T "k = 3 / 0"]) = Err e.
Proof.
  apply (C73_one_bad_line exw exy _ (T "k = 3 / 0") ZeroDivisionError); [|reflexivity|discriminate].
  rewrite lines_join; [simpl; auto|discriminate|]. intros x Hx. apply not_In. simpl in Hx. repeat (destruct Hx as [<-|Hx]; [reflexivity|]). destruct Hx.
Qed.
Example C73_comment_line_example : exists e, bayes_net_from_script exy (join [nl] [T "PCore net {"; T "# rates"; T "k = 3"]) = Err e.
Proof.
  apply (C73_comment_line exw exy _ (T "# rates") (T "rates")); [|apply squeezed_unblank; reflexivity|apply not_In; reflexivity].
  rewrite lines_join; [simpl; auto|discriminate|]. intros x Hx. apply not_In. simpl in Hx. repeat (destruct Hx as [<-|Hx]; [reflexivity|]). destruct Hx.
Qed.
