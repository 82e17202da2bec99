(** * Floating-point numbers, idealised: exact reals with infinities and nan

    Not a transcription of /repo: the part of numpy arithmetic the numeric models rely on.
    Simplification: no rounding, no overflow. *)

Require Export Verif.Base.
Require Export Coq.Reals.Reals Coq.micromega.Lra.

Inductive flt : Type := Fin (x : R) | PInf | NInf | NaN.

Definition isfinite (x : flt) : bool := match x with Fin _ => true | _ => false end.
Definition isinf (x : flt) : bool := match x with PInf | NInf => true | _ => false end.

Definition rltb (a b : R) : bool := if Rlt_dec a b then true else false.
Definition rleb (a b : R) : bool := if Rle_dec a b then true else false.
Definition reqb (a b : R) : bool := if Req_EM_T a b then true else false.

(** a / b of numpy floats *)
Definition fdiv (a b : R) : flt :=
  if reqb b 0 then (if reqb a 0 then NaN else if rltb 0 a then PInf else NInf) else Fin (a / b)%R.
(** np.log *)
Definition flog (a : R) : flt := if rltb 0 a then Fin (ln a) else if reqb a 0 then NInf else NaN.

(** numpy: multiplication by a positive number; negation *)
Definition fscale (x : flt) (k : R) : flt := match x with Fin a => Fin (a * k)%R | o => o end.
Definition fopp (x : flt) : flt := match x with Fin a => Fin (- a)%R | PInf => NInf | NInf => PInf | NaN => NaN end.

(** sum of a list *)
Definition rsum (l : list R) : R := fold_right Rplus 0%R l.

Lemma rltb_true : forall a b, rltb a b = true <-> (a < b)%R.
Proof. intros a b. unfold rltb. destruct (Rlt_dec a b); split; auto; discriminate. Qed.
Lemma rltb_false : forall a b, rltb a b = false <-> (b <= a)%R.
Proof. intros a b. unfold rltb. destruct (Rlt_dec a b); split; intros; try discriminate; try lra; auto. Qed.
Lemma rleb_true : forall a b, rleb a b = true <-> (a <= b)%R.
Proof. intros a b. unfold rleb. destruct (Rle_dec a b); split; auto; discriminate. Qed.
Lemma rleb_false : forall a b, rleb a b = false <-> (b < a)%R.
Proof. intros a b. unfold rleb. destruct (Rle_dec a b); split; intros; try discriminate; try lra; auto. Qed.
Lemma reqb_true : forall a b, reqb a b = true <-> a = b.
Proof. intros a b. unfold reqb. destruct (Req_EM_T a b); split; auto; discriminate. Qed.
Lemma reqb_false : forall a b, reqb a b = false <-> a <> b.
Proof. intros a b. unfold reqb. destruct (Req_EM_T a b); split; auto; try discriminate; contradiction. Qed.
Lemma fdiv_fin : forall a b, b <> 0%R -> fdiv a b = Fin (a / b)%R.
Proof. intros a b H. unfold fdiv. apply reqb_false in H. rewrite H. auto. Qed.
Lemma flog_pos : forall a, (0 < a)%R -> flog a = Fin (ln a).
Proof. intros a H. unfold flog. apply rltb_true in H. rewrite H. auto. Qed.
