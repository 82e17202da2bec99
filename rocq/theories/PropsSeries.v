(** * Property C109: vectors over time, sampling from data sets *)

Require Import Coq.Reals.Reals Coq.micromega.Lra.
Require Import Verif.Base Verif.ModelNum Verif.ModelFloat Verif.ModelTable Verif.ModelSeries Verif.ProofBase Verif.PropsTable.
Require Import Coq.ZArith.ZArith Lia Sorted Permutation.
Local Open Scope nat_scope.

(** ** The row that is read depends on the times only *)

Section Rows.
  Context {X Y : Type} (f : X -> Y).
  Let on (r : R * X) : R * Y := (fst r, f (snd r)).
  Lemma tins_on : forall r l, tins (on r) (map on l) = map on (tins r l).
  Proof. intros r l. induction l as [|y l IH]; simpl; auto. destruct (rleb (fst r) (fst y)); simpl; auto. rewrite IH. reflexivity. Qed.
  Lemma tsort_on : forall l, tsort (map on l) = map on (tsort l).
  Proof. induction l as [|x l IH]; simpl; auto. rewrite IH. apply tins_on. Qed.
  Lemma nearest_on : forall d s t, nearest (f d) (map on s) t = f (nearest d s t).
  Proof.
    intros d s t. induction s as [|[a x] s IH]; simpl; auto. destruct s as [|[b y] s]; auto. cbn [map on fst snd] in *.
    destruct (rleb t (a / 2 + b / 2)); auto.
  Qed.
  Lemma last_on : forall l d, last (map on l) (on d) = on (last l d).
  Proof. induction l as [|x l IH]; intros d; simpl; auto. destruct l; auto. apply IH. Qed.
  Lemma ts_on : forall rows t, ts_call (map on rows) t = match ts_call rows t with Ok x => Ok (f x) | Err e => Err e end.
  Proof.
    intros [|r0 rows] t; [reflexivity|].
    change (ts_call (map on (r0 :: rows)) t) with
      (let s := tsort (map on (r0 :: rows)) in
       if rltb t (fst (hd (on r0) s)) then Ok (snd (on r0))
       else if rltb (fst (last s (on r0))) t then Ok (snd (last (map on (r0 :: rows)) (on r0))) else Ok (nearest (f (snd r0)) s t)).
    cbv zeta. rewrite tsort_on, !last_on. unfold ts_call. cbv zeta.
    assert (H : hd (on r0) (map on (tsort (r0 :: rows))) = on (hd r0 (tsort (r0 :: rows)))) by (destruct (tsort (r0 :: rows)); reflexivity).
    rewrite H. cbn [on fst snd]. destruct (rltb t _); auto. destruct (rltb _ t); auto. rewrite nearest_on. reflexivity.
  Qed.
End Rows.

Lemma combine_index : forall (A B : Type) (ts : list A) (c : list B) d, length ts = length c ->
  combine ts c = map (fun r => (fst r, nth (snd r) c d)) (combine ts (seq 0 (length ts))).
Proof.
  intros A B ts c d. revert c. induction ts as [|t ts IH]; intros [|x c] L; try discriminate L; auto. injection L as L. cbn [length seq combine map fst snd nth]. f_equal.
  rewrite (IH c L), <- seq_shift. generalize (seq 0 (length ts)). clear. induction ts as [|t ts IH]; intros [|n l]; simpl; auto. f_equal. apply IH.
Qed.
Lemma ts_some : forall X (rows : list (R * X)) t, rows <> [] -> exists x, ts_call rows t = Ok x /\ exists r, In r rows /\ snd r = x.
Proof.
  intros X [|r0 rows] t N; [congruence|]. unfold ts_call.
  destruct (rltb t _); [exists (snd r0); split; [reflexivity|]; exists r0; split; [left|]; reflexivity|].
  destruct (rltb _ t); [eexists; split; [reflexivity|]; exists (last (r0 :: rows) r0); split; [apply last_In; discriminate|reflexivity]|].
  eexists. split; [reflexivity|]. destruct (nearest_closest X (snd r0) (tsort (r0 :: rows)) t) as (r & R1 & R2 & _).
  - intros E. pose proof (tsort_perm X (r0 :: rows)) as P. rewrite E in P. apply Permutation_sym, Permutation_nil in P. discriminate P.
  - apply tsort_sorted.
  - exists r. split; [|exact R2]. eapply Permutation_in; [apply Permutation_sym, tsort_perm|exact R1].
Qed.

(** ** Statements *)

(** a frame whose columns have [m] entries *)
Definition framed (f : frame) (m : nat) : Prop := forall k c, dget f k = Some c -> length c = m.

Lemma new_spec : forall (f : frame) m (ts : list R) xs (acc : dict (list (R * R))), framed f m -> 0 < m -> (forall x, In x xs -> exists c, dget f x = Some c) ->
  exists lines, foldM (fun lines x => do c <- dgetE f x; match c with [] => Err IndexError | _ => Ok (dset lines x (combine ts c)) end) xs acc = Ok lines
    /\ (forall x, In x xs -> exists c, dget f x = Some c /\ dget lines x = Some (combine ts c)) /\ (forall x, ~ In x xs -> dget lines x = dget acc x).
Proof.
  intros f m ts xs acc F M. revert acc. induction xs as [|x xs IH]; intros acc C; simpl.
  - exists acc. split; [reflexivity|]. split; [intros x []|auto].
  - destruct (C x) as [c Ec]; [left; reflexivity|]. unfold dgetE at 1. rewrite Ec. cbn [bind]. pose proof (F x c Ec) as L. destruct c as [|v c]; [simpl in L; lia|].
    cbn [bind]. destruct (IH (dset acc x (combine ts (v :: c)))) as (lines & E & I & O); [intros y Y; apply C; right; exact Y|]. exists lines. split; [exact E|]. split.
    + intros y Hy. destruct (in_dec String.string_dec y xs) as [Y|Y]; [apply I, Y|]. destruct Hy as [<-|Hy]; [|tauto]. exists (v :: c). split; [exact Ec|]. rewrite (O x Y), dget_dset, String.eqb_refl. reflexivity.
    + intros y Hy. rewrite O by tauto. rewrite dget_dset. destruct (String.eqb_spec y x) as [->|N]; [exfalso; apply Hy; left; reflexivity|reflexivity].
Qed.
Lemma dupdate_values : forall (l : list (name * R)) (g : name -> R) acc, (forall kv, In kv l -> snd kv = g (fst kv)) ->
  forall x, dget (dupdate acc l) x = if in_dec String.string_dec x (map fst l) then Some (g x) else dget acc x.
Proof.
  induction l as [|[k v] l IH]; intros g acc H x; [reflexivity|]. change (dupdate acc ((k, v) :: l)) with (dupdate (dset acc k v) l).
  rewrite (IH g (dset acc k v)) by (intros kv K; apply H; right; exact K). cbn [map fst].
  destruct (in_dec String.string_dec x (map fst l)) as [I|I]; destruct (in_dec String.string_dec x (k :: map fst l)) as [J|J]; auto.
  - exfalso. apply J. right. exact I.
  - destruct J as [<-|J]; [|tauto]. rewrite dget_dset, String.eqb_refl. f_equal. apply (H (k, v)). left. reflexivity.
  - rewrite dget_dset. destruct (String.eqb_spec x k) as [->|N]; [exfalso; apply J; left; reflexivity|reflexivity].
Qed.

(** All entries of a vector are read from one and the same row, whatever columns are asked for; it is
    the row a single time series reads. In a table ordered by time it is a closest one. *)
Theorem C109_row : forall (f : frame) m i_time ts t, framed f m -> 0 < m -> dget f i_time = Some ts ->
  exists i, i < m
    /\ (forall i_xs, (forall x, In x i_xs -> exists c, dget f x = Some c) -> exists lines d, tsv_new f i_time i_xs = Ok lines /\ tsv_call lines i_xs t = Ok d
          /\ (forall x, In x (dkeys d) <-> In x i_xs) /\ (forall x c, In x i_xs -> dget f x = Some c -> dget d x = nth_error c i))
    /\ (forall k c v, dget f k = Some c -> nth_error c i = Some v -> ts_call (combine ts c) t = Ok v)
    /\ (StronglySorted Rle ts -> forall s s' j, nth_error ts i = Some s -> nth_error ts j = Some s' -> (Rabs (t - s) <= Rabs (t - s'))%R).
Proof.
  intros f m i_time ts t F M T. pose proof (F _ _ T) as Lt.
  set (rows := combine ts (seq 0 m)). assert (Lr : length rows = m) by (unfold rows; rewrite combine_length, seq_length; lia).
  assert (Nr : rows <> []) by (intros E; rewrite E in Lr; simpl in Lr; lia).
  assert (Cr : forall j, j < m -> nth_error rows j = Some (nth j ts 0%R, j)).
  { intros j J. unfold rows. rewrite <- Lt in J |- *. clear - J. assert (G : forall b, nth_error (combine ts (seq b (length ts))) j = Some (nth j ts 0%R, b + j)).
    { revert j J. induction ts as [|s ts IH]; intros [|j] J b; simpl in *; try lia; [rewrite Nat.add_0_r; reflexivity|]. rewrite IH by lia. replace (S b + j) with (b + S j) by lia. reflexivity. }
    rewrite G. reflexivity. }
  destruct (ts_some nat rows t Nr) as (i & Ei & r & Ir & Er).
  assert (Im : i < m). { unfold rows in Ir. rewrite <- Er. destruct r as [a b]. apply in_combine_r in Ir. apply in_seq in Ir. simpl. lia. }
  assert (Col : forall k c, dget f k = Some c -> ts_call (combine ts c) t = Ok (nth i c 0%R) /\ nth_error c i = Some (nth i c 0%R)).
  { intros k c K. pose proof (F k c K) as L. split; [|apply nth_error_nth'; lia]. rewrite (combine_index _ _ ts c 0%R) by congruence. rewrite Lt. fold rows.
    pose proof (ts_on (fun j => nth j c 0%R) rows t) as Q. rewrite Ei in Q. exact Q. }
  exists i. split; [exact Im|]. split; [|split].
  - intros xs C. unfold tsv_new. unfold dgetE at 1. rewrite T. cbn [bind]. destruct (new_spec f m ts xs [] F M C) as (lines & E & I & _). exists lines.
    set (g := fun x => match dget f x with Some c => nth i c 0%R | None => 0%R end).
    assert (G : mapM (fun x => do line <- dgetE lines x; do v <- ts_call line t; Ok (x, v)) xs = Ok (map (fun x => (x, g x)) xs)).
    { clear E. induction xs as [|x xs IH]; [reflexivity|]. cbn [mapM map]. destruct (I x) as (c & Ec & El); [left; reflexivity|]. unfold dgetE at 1. rewrite El. cbn [bind].
      destruct (Col x c Ec) as [Q _]. rewrite Q. cbn [bind]. rewrite IH; [|intros y Y; apply C; right; exact Y|intros y Y; apply I; right; exact Y]. cbn [bind]. unfold g. rewrite Ec. reflexivity. }
    exists (dupdate [] (map (fun x => (x, g x)) xs)). split; [exact E|]. split; [unfold tsv_call; rewrite G; reflexivity|].
    assert (D : forall x, dget (dupdate [] (map (fun x => (x, g x)) xs)) x = if in_dec String.string_dec x xs then Some (g x) else None).
    { intros x. rewrite (dupdate_values _ g []); [|intros kv K; apply in_map_iff in K; destruct K as (y & <- & _); reflexivity].
      rewrite map_map. cbn [fst]. rewrite map_id. destruct (in_dec String.string_dec x xs); reflexivity. }
    split.
    + intros x. rewrite <- dget_In. split; [intros [v V]; rewrite D in V; destruct (in_dec String.string_dec x xs); [assumption|discriminate V]|].
      intros I'. exists (g x). rewrite D. destruct (in_dec String.string_dec x xs); [reflexivity|contradiction].
    + intros x c Hx Ec. rewrite D. destruct (in_dec String.string_dec x xs); [|contradiction]. unfold g. rewrite Ec. symmetry. apply (Col x c Ec).
  - intros k c v K V. destruct (Col k c K) as [Q1 Q2]. rewrite Q1. congruence.
  - intros So s s' j Hs Hj. assert (So' : StronglySorted by_time rows).
    { unfold rows. generalize (seq 0 m). clear - So. induction So as [|a l S IH A]; intros [|n ns]; simpl; try constructor; auto. apply Forall_forall. intros [b k] B. apply in_combine_l in B.
      unfold by_time. simpl. rewrite Forall_forall in A. apply A, B. }
    destruct (C77_closest nat rows t Nr So') as (x & Ex & q & Q1 & Q2 & Q3). assert (Xi : x = i) by congruence. rewrite Xi in Q2. clear Xi Ex x.
    assert (J : j < m) by (rewrite <- Lt; apply nth_error_Some; congruence).
    assert (Eq : fst q = s). { destruct q as [a b]. simpl in Q2. subst b. apply In_nth_error in Q1. destruct Q1 as [k Q1]. assert (K : k < m) by (rewrite <- Lr; apply nth_error_Some; congruence).
      rewrite (Cr k K) in Q1. injection Q1 as <- Q1. subst k. simpl. rewrite (nth_error_nth' ts 0%R) in Hs by lia. congruence. }
    specialize (Q3 (nth j ts 0%R, j)). cbn [fst] in Q3. rewrite Eq in Q3. rewrite (nth_error_nth' ts 0%R) in Hj by lia. injection Hj as <-. apply Q3.
    eapply nth_error_In, Cr, J.
Qed.
Print Assumptions C109_row.

(** It cannot be made of a column that is missing, nor of an empty table, unless nothing is asked for. *)
Theorem C109_errors : forall (f : frame) m i_time i_xs, framed f m ->
  (dget f i_time = None -> tsv_new f i_time i_xs = Err KeyError)
  /\ (0 < m -> (exists x, In x i_xs /\ dget f x = None) -> tsv_new f i_time i_xs = Err KeyError)
  /\ (m = 0 -> forall ts x xs, dget f i_time = Some ts -> i_xs = x :: xs -> tsv_new f i_time i_xs = Err (match dget f x with Some _ => IndexError | None => KeyError end))
  /\ (dget f i_time <> None -> tsv_new f i_time [] = Ok []) /\ (forall t, tsv_call [] [] t = Ok []).
Proof.
  intros f m it xs F. splits.
  - intros H. unfold tsv_new, dgetE at 1. rewrite H. reflexivity.
  - intros M (x & X & N). unfold tsv_new. unfold dgetE at 1. destruct (dget f it) as [ts|]; [|reflexivity]. cbn [bind]. generalize (@nil (name * list (R * R)) : dict (list (R * R))).
    induction xs as [|y xs IH]; intros acc; [destruct X|]. simpl. unfold dgetE at 1. destruct (dget f y) as [c|] eqn:E; [|reflexivity]. cbn [bind].
    pose proof (F y c E) as L. destruct c as [|v c]; [simpl in L; lia|]. cbn [bind]. apply IH. destruct X as [->|X]; [congruence|exact X].
  - intros -> ts x ys T ->. unfold tsv_new. unfold dgetE at 1. rewrite T. cbn [bind foldM]. unfold dgetE at 1. destruct (dget f x) as [c|] eqn:E; [|reflexivity]. cbn [bind].
    pose proof (F x c E) as L. destruct c; [reflexivity|discriminate L].
  - intros H. unfold tsv_new, dgetE. destruct (dget f it); [reflexivity|congruence].
  - reflexivity.
Qed.
Print Assumptions C109_errors.

(** [vs] are the results of one call after the other *)
Inductive called {G A : Type} (call : G -> res A * G) : G -> list A -> G -> Prop :=
| cl_nil : forall g, called call g [] g
| cl_cons : forall g v g1 vs g2, call g = (Ok v, g1) -> called call g1 vs g2 -> called call g (v :: vs) g2.

Lemma ds_calls_spec : forall G A (call : G -> res A * G) n g o g', ds_calls call n g = (o, g') ->
  match o with
  | Ok vs => length vs = n /\ called call g vs g'
  | Err e => exists vs g1, called call g vs g1 /\ length vs < n /\ call g1 = (Err e, g')
  end.
Proof.
  intros G A call. induction n as [|n IH]; intros g o g' E; cbn [ds_calls] in E; [inversion E; subst; split; [reflexivity|constructor]|].
  destruct (call g) as [[v|e] g1] eqn:C.
  - destruct (ds_calls call n g1) as [[vs|e] g2] eqn:D; apply IH in D; inversion E; subst.
    + destruct D as [L D]. split; [simpl; congruence|]. econstructor; eauto.
    + destruct D as (vs & g3 & D1 & D2 & D3). exists (v :: vs), g3. split; [econstructor; eauto|]. split; [simpl; lia|exact D3].
  - inversion E; subst. exists [], g. split; [constructor|]. split; [simpl; lia|exact C].
Qed.

(** sample(1) gives one value, sample(n) the list of the results of n calls, nothing for n below 1;
    the first exception ends it. *)
Theorem C109_sample : forall G A (call : G -> res A * G) n g o g', ds_sample call n g = (o, g') ->
  match o with
  | Ok (SOne v) => n = 1%Z /\ called call g [v] g'
  | Ok (SMany vs) => n <> 1%Z /\ Z.of_nat (length vs) = Z.max n 0 /\ called call g vs g'
  | Err e => exists vs g1, called call g vs g1 /\ (Z.of_nat (length vs) < n)%Z /\ call g1 = (Err e, g')
  end.
Proof.
  intros G A call n g o g' E. unfold ds_sample in E. destruct (Z.eqb_spec n 1) as [->|N].
  - destruct (call g) as [[v|e] g1] eqn:C; inversion E; subst.
    + split; [reflexivity|]. econstructor; [exact C|constructor].
    + exists [], g. split; [constructor|]. split; [simpl; lia|exact C].
  - destruct (ds_calls call (Z.to_nat n) g) as [[vs|e] g1] eqn:C; apply ds_calls_spec in C; inversion E; subst.
    + destruct C as [L D]. split; [exact N|]. split; [lia|exact D].
    + destruct C as (vs & g2 & D & L & X). exists vs, g2. split; [exact D|]. split; [lia|exact X].
Qed.
Print Assumptions C109_sample.

(** a table of two times and two columns *)
Definition exframe : frame := [("Year", [2000; 2010]); ("a", [1; 2]); ("b", [5; 7])]%R.
Example C109_example : framed exframe 2 /\ (exists lines d, tsv_new exframe "Year" ["a"; "b"] = Ok lines /\ tsv_call lines ["a"; "b"] 2006%R = Ok d
    /\ dget d "a" = Some 2%R /\ dget d "b" = Some 7%R)
  /\ tsv_new exframe "Year" ["a"; "c"] = Err KeyError.
Proof.
  splits; [|eexists; eexists; splits; try reflexivity|reflexivity].
  - intros k c. unfold exframe. cbn [dget]. repeat (match goal with |- context [String.eqb ?a ?b] => destruct (String.eqb a b) end; [intros E; inversion E; reflexivity|]). discriminate.
  - unfold tsv_call. cbn [mapM dgetE dget String.eqb Ascii.eqb Bool.eqb bind dset combine]. unfold ts_call, tsort. cbn [fold_right tins fst snd hd last].
    assert (rleb 2000 2010 = true) as -> by (apply rleb_true; lra). cbn [hd last fst snd nearest].
    assert (rltb 2006 2000 = false) as -> by (apply rltb_false; lra). assert (rltb 2010 2006 = false) as -> by (apply rltb_false; lra).
    assert (rleb 2006 (2000 / 2 + 2010 / 2) = false) as -> by (apply rleb_false; lra). cbn [bind]. reflexivity.
  - reflexivity.
  - reflexivity.
Qed.
Example C109_example_sample : let call := fun g : nat => (if Nat.ltb g 3 then Ok g else Err KeyError, S g) in
  ds_sample call 1 0 = (Ok (SOne 0), 1) /\ ds_sample call 3 0 = (Ok (SMany [0; 1; 2]), 3) /\ ds_sample call (-2) 0 = (Ok (SMany []), 0) /\ ds_sample call 4 0 = (Err KeyError, 4).
Proof. cbv zeta. splits; reflexivity. Qed.
