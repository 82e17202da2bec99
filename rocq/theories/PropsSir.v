(** * Property C110: the SIR example *)

Require Import Coq.Reals.Reals Coq.micromega.Lra Coq.micromega.Lia.
Require Import Verif.Base Verif.World Verif.ModelNum Verif.ModelTargets Verif.ModelSir Verif.ProofBase Verif.PropsTargets Verif.PropsToys.
Local Open Scope R_scope.

(** y + c1 f(y1) + c2 f(y2) + ... *)
Definition move (y : sir) (c : R) (d : sir) : sir := mkSir (y_s y + c * y_s d) (y_i y + c * y_i d) (y_r y + c * y_r d).
(** the states an explicit Runge-Kutta method meets: the start, and what comes out of a state by adding
    multiples of derivatives at such states (stages, steps, and the interpolation between steps) *)
Inductive met (f : sir -> sir) (y0 : sir) : sir -> Prop :=
| me_start : met f y0 y0
| me_move : forall y c y', met f y0 y -> met f y0 y' -> met f y0 (move y c (f y')).

(** The population is constant: for any method of that kind, any steps and any parameters, all states
    have the total of the start, 1000. So the sum that sir divides by is never zero. *)
Theorem C110_total : forall be ga y, met (sir_rhs be ga) sir_start y -> y_sum y = 1000.
Proof.
  intros be ga y H. induction H as [|y c y' _ IH _ _]; [unfold y_sum, sir_start; simpl; lra|].
  rewrite <- IH. unfold move, sir_rhs. cbv zeta. generalize (y_sum y'). intros n. unfold y_sum. cbn [y_s y_i y_r]. unfold Rdiv. ring.
Qed.
Print Assumptions C110_total.

(** Directions: susceptibles never increase, recovered never decrease; the infectious increase exactly
    if beta s / n exceeds gamma; without infectious nothing changes. *)
Theorem C110_direction : forall be ga y, 0 < y_sum y ->
  (0 <= be -> 0 <= y_s y -> 0 <= y_i y -> y_s (sir_rhs be ga y) <= 0)
  /\ (0 <= ga -> 0 <= y_i y -> 0 <= y_r (sir_rhs be ga y))
  /\ (0 < y_i y -> (0 < y_i (sir_rhs be ga y) <-> ga < be * y_s y / y_sum y))
  /\ (y_i y = 0 -> sir_rhs be ga y = mkSir 0 0 0).
Proof.
  intros be ga y N. unfold sir_rhs. cbn [y_s y_i y_r]. cbv zeta. assert (I : 0 < / y_sum y) by (apply Rinv_0_lt_compat; exact N). unfold Rdiv. splits.
  - intros B S I'. assert (0 <= be * y_s y * y_i y * / y_sum y) by (apply Rmult_le_pos; [apply Rmult_le_pos; [apply Rmult_le_pos|]|]; lra). lra.
  - intros G I'. apply Rmult_le_pos; lra.
  - intros P. replace (be * y_s y * y_i y * / y_sum y - ga * y_i y) with (y_i y * (be * y_s y * / y_sum y - ga)) by ring. split; intros H.
    + assert (0 < be * y_s y * / y_sum y - ga); [|lra]. apply (Rmult_lt_reg_l (y_i y)); lra.
    + apply Rmult_lt_0_compat; lra.
  - intros Z. rewrite Z. f_equal; ring.
Qed.
Print Assumptions C110_direction.

Lemma app_inj : forall a b c : string, append a b = append a c -> b = c.
Proof. induction a as [|x a IH]; intros b c H; simpl in H; [exact H|]. injection H as H. auto. Qed.

Section Report.
  Context (fmt : R -> string) (be ga : R).
  Let step (dat : dict R) (ty : R * sir) : dict R :=
    let (t, y) := ty in
    let n := y_sum y in
    dset (dset (dset dat (append "Inc_" (fmt t)) (be * y_s y * y_i y / n / n)) (append "Prev_" (fmt t)) (y_i y / n)) (append "Rec_" (fmt t)) (ga * y_i y / n).
  Lemma step_get : forall dat t y k, dget (step dat (t, y)) k =
    if String.eqb k (append "Rec_" (fmt t)) then Some (ga * y_i y / y_sum y)
    else if String.eqb k (append "Prev_" (fmt t)) then Some (y_i y / y_sum y)
    else if String.eqb k (append "Inc_" (fmt t)) then Some (be * y_s y * y_i y / y_sum y / y_sum y) else dget dat k.
  Proof. intros. unfold step. rewrite !dget_dset. reflexivity. Qed.
  Lemma report_last : forall sol s1 t y s2, sol = s1 ++ (t, y) :: s2 -> (forall t' y', In (t', y') s2 -> fmt t' <> fmt t) -> forall dat,
    dget (fold_left step sol dat) (append "Inc_" (fmt t)) = Some (be * y_s y * y_i y / y_sum y / y_sum y)
    /\ dget (fold_left step sol dat) (append "Prev_" (fmt t)) = Some (y_i y / y_sum y)
    /\ dget (fold_left step sol dat) (append "Rec_" (fmt t)) = Some (ga * y_i y / y_sum y).
  Proof.
    intros sol s1 t y s2 -> L dat. rewrite fold_left_app. cbn [fold_left]. generalize (fold_left step s1 dat). clear dat. intros dat.
    assert (G : forall s2 dat, (forall t' y', In (t', y') s2 -> fmt t' <> fmt t) -> forall k, In k [append "Inc_" (fmt t); append "Prev_" (fmt t); append "Rec_" (fmt t)] ->
      dget (fold_left step s2 dat) k = dget dat k).
    { clear. induction s2 as [|[t' y'] s2 IH]; intros dat L k K; [reflexivity|]. cbn [fold_left]. rewrite IH; auto; [|intros t2 y2 H; apply (L t2 y2); right; exact H]. rewrite step_get.
      assert (N : fmt t' <> fmt t) by (apply (L t' y'); left; reflexivity).
      destruct K as [<-|[<-|[<-|[]]]];
        repeat match goal with |- context [String.eqb ?a ?b] => destruct (String.eqb_spec a b) as [E|E]; [exfalso; first [discriminate E|apply app_inj in E; congruence]|clear E] end; reflexivity. }
    rewrite !(G s2) by (simpl; auto). rewrite !step_get, !String.eqb_refl. cbn. splits; reflexivity.
  Qed.
  Lemma report_values : forall sol dat k v, dget (fold_left step sol dat) k = Some v -> dget dat k = Some v \/ exists t y, In (t, y) sol /\
    (v = be * y_s y * y_i y / y_sum y / y_sum y /\ k = append "Inc_" (fmt t) \/ v = y_i y / y_sum y /\ k = append "Prev_" (fmt t) \/ v = ga * y_i y / y_sum y /\ k = append "Rec_" (fmt t)).
  Proof.
    induction sol as [|[t y] sol IH]; intros dat k v H; [left; exact H|]. cbn [fold_left] in H. apply IH in H. destruct H as [H|(t' & y' & I & V)].
    - rewrite step_get in H. destruct (String.eqb_spec k (append "Rec_" (fmt t))) as [->|_]; [inversion H; subst; right; exists t, y; split; [left; reflexivity|auto]|].
      destruct (String.eqb_spec k (append "Prev_" (fmt t))) as [->|_]; [inversion H; subst; right; exists t, y; split; [left; reflexivity|auto]|].
      destruct (String.eqb_spec k (append "Inc_" (fmt t))) as [->|_]; [inversion H; subst; right; exists t, y; split; [left; reflexivity|auto]|]. left. exact H.
    - right. exists t', y'. split; [right; exact I|exact V].
  Qed.
  Lemma report_nodup : forall sol, NoDup (dkeys (fold_left step sol [])).
  Proof.
    intros sol. assert (G : forall dat, NoDup (dkeys dat) -> NoDup (dkeys (fold_left step sol dat))); [|apply G; constructor].
    induction sol as [|[t y] sol IH]; intros dat N; [exact N|]. cbn [fold_left]. apply IH. unfold step. rewrite !dkeys_dset. apply sadd_NoDup, sadd_NoDup, sadd_NoDup. exact N.
  Qed.
End Report.

(** What is reported for a time is of the last state with that name of a time, as share of the
    population: recovery is gamma times prevalence. All shares of non-negative states lie between 0 and
    1, incidence is at most beta/4. *)
Theorem C110_report : forall fmt be ga sol s1 t y s2, sol = s1 ++ (t, y) :: s2 -> (forall t' y', In (t', y') s2 -> fmt t' <> fmt t) ->
  exists inc prev rcv, let d := sir_report fmt be ga sol in
  dget d (append "Inc_" (fmt t)) = Some inc /\ dget d (append "Prev_" (fmt t)) = Some prev /\ dget d (append "Rec_" (fmt t)) = Some rcv
  /\ rcv = ga * prev
  /\ (0 < y_sum y -> prev * y_sum y = y_i y /\ inc * y_sum y * y_sum y = be * y_s y * y_i y
        /\ (0 <= y_s y -> 0 <= y_i y -> 0 <= y_r y -> 0 <= prev <= 1 /\ (0 <= be -> 0 <= inc <= be / 4))).
Proof.
  intros fmt be ga sol s1 t y s2 E L. destruct (report_last fmt be ga sol s1 t y s2 E L []) as (H1 & H2 & H3).
  exists (be * y_s y * y_i y / y_sum y / y_sum y), (y_i y / y_sum y), (ga * y_i y / y_sum y). cbv zeta.
  split; [exact H1|]. split; [exact H2|]. split; [exact H3|]. split; [unfold Rdiv; ring|]. intros N. split; [field; lra|]. split; [field; lra|]. intros S I R.
  assert (Iv : 0 < / y_sum y) by (apply Rinv_0_lt_compat; exact N). set (a := y_s y / y_sum y). set (b := y_i y / y_sum y).
  assert (A : 0 <= a) by (apply Rmult_le_pos; lra). assert (B : 0 <= b) by (apply Rmult_le_pos; lra).
  assert (AB : a + b <= 1). { assert (C : 0 <= y_r y / y_sum y) by (apply Rmult_le_pos; lra). assert (a + b + y_r y / y_sum y = 1); [|lra]. unfold a, b. unfold y_sum in *. field. lra. }
  split; [lra|]. intros Be. replace (be * y_s y * y_i y / y_sum y / y_sum y) with (be * (a * b)) by (unfold a, b; field; lra).
  assert (Q : 0 <= a * b) by (apply Rmult_le_pos; assumption).
  assert (Q4 : a * b <= 1 / 4). { assert (Hm : b <= 1 - a) by lra. assert (a * b <= a * (1 - a)) by (apply Rmult_le_compat_l; assumption). pose proof (Rle_0_sqr (a - 1 / 2)) as Sq. unfold Rsqr in Sq. lra. }
  split; [apply Rmult_le_pos; assumption|]. replace (be / 4) with (be * (1 / 4)) by lra. apply Rmult_le_compat_l; assumption.
Qed.
Print Assumptions C110_report.

(** The targets of the example, for positive rates and a solver whose states have susceptibles,
    infectious and a population above zero: one target for each reported number, with the properties that
    C98_positive and C98_fit ask for. *)
Theorem C110_targets : forall solver fmt be ga, 0 < be -> 0 < ga ->
  (forall t y, In (t, y) (solver (sir_rhs be ga) sir_start) -> 0 < y_s y /\ 0 < y_i y /\ 0 < y_sum y) ->
  let src := map (fun kv => (fst kv, RNum (snd kv))) (sir_report fmt be ga (solver (sir_rhs be ga) sir_start)) in
  exists ts, sir_targets solver fmt be ga = Ok ts /\ dkeys ts = dkeys src /\ NoDup (dkeys src) /\ read_targets src (5 / 100) = Ok ts
  /\ forall k v, dget src k = Some v -> point_entry (fun x => 0 < x) (5 / 100) v.
Proof.
  intros solver fmt be ga B G P src. set (d := sir_report fmt be ga (solver (sir_rhs be ga) sir_start)) in *.
  assert (K : dkeys src = dkeys d) by (unfold src, dkeys; rewrite map_map; reflexivity).
  assert (N : NoDup (dkeys d)) by apply report_nodup.
  assert (Get : forall k, dget src k = match dget d k with Some x => Some (RNum x) | None => None end).
  { intros k. unfold src. clear. induction d as [|[k' x] d IH]; simpl; auto. destruct (String.eqb k k'); auto. }
  assert (T : exists ts, read_targets src (5 / 100) = Ok ts).
  { unfold read_targets, src. generalize (@nil (name * single) : dict single). clear. induction d as [|[k x] d IH]; intros acc; simpl; [exists acc; reflexivity|]. apply IH. }
  destruct T as [ts T]. exists ts. split; [|split; [|split; [|split]]].
  - unfold sir_targets, sir_solve. cbn [dgetE dget String.eqb Ascii.eqb Bool.eqb bind]. exact T.
  - apply (C54_read src (5 / 100) ts); [rewrite K; exact N|exact T].
  - rewrite K. exact N.
  - exact T.
  - intros k v V. rewrite Get in V. destruct (dget d k) as [x|] eqn:X; [|discriminate V]. injection V as <-. cbn [point_entry]. apply Rmult_lt_0_compat; [lra|].
    apply report_values in X. destruct X as [X|(t & y & I & X)]; [discriminate X|]. destruct (P t y I) as (P1 & P2 & P3). assert (Iv : 0 < / y_sum y) by (apply Rinv_0_lt_compat; exact P3).
    destruct X as [[-> _]|[[-> _]|[-> _]]]; unfold Rdiv; repeat apply Rmult_lt_0_compat; assumption.
Qed.
Print Assumptions C110_targets.

(** one Euler step of a day with beta 1.5 and gamma 0.2, reported as day 1 *)
Example C110_example : let f := sir_rhs (3 / 2) (1 / 5) in let y := move sir_start 1 (f sir_start) in
  met f sir_start y /\ y_i y = 2285 / 100 /\ y_sum y = 1000 /\ 1 / 5 < 3 / 2 * y_s sir_start / y_sum sir_start
  /\ exists p, dget (sir_report (fun _ => "1"%string) (3 / 2) (1 / 5) [(0, sir_start); (1, y)]) "Prev_1" = Some p /\ p = 2285 / 100000.
Proof.
  cbv zeta. assert (M : met (sir_rhs (3 / 2) (1 / 5)) sir_start (move sir_start 1 (sir_rhs (3 / 2) (1 / 5) sir_start))) by (apply me_move; constructor).
  pose proof (C110_total _ _ _ M) as T. assert (I : y_i (move sir_start 1 (sir_rhs (3 / 2) (1 / 5) sir_start)) = 2285 / 100) by (unfold move, sir_rhs, sir_start, y_sum; simpl; lra).
  splits; auto.
  - unfold y_sum, sir_start. simpl. lra.
  - exists (y_i (move sir_start 1 (sir_rhs (3 / 2) (1 / 5) sir_start)) / y_sum (move sir_start 1 (sir_rhs (3 / 2) (1 / 5) sir_start))). split; [reflexivity|]. rewrite I, T. lra.
Qed.
