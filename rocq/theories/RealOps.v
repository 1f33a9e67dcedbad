(** * Scalars of the standard library's real numbers. *)
From Coq Require Import Reals Lra.
From Verif Require Import Ops.

Definition Rltb (x y : R) : bool := if Rlt_dec x y then true else false.
Definition Rleb (x y : R) : bool := if Rle_dec x y then true else false.
Definition Reqb (x y : R) : bool := if Req_EM_T x y then true else false.

Definition RS : sops :=
  @SOps R 0%R 1%R Rplus Rminus Rmult Rdiv Ropp Rltb Rleb Reqb sqrt exp ln INR.

Canonical RS.

Lemma Rltb_true x y : Rltb x y = true <-> (x < y)%R.
Proof. unfold Rltb; destruct (Rlt_dec x y); split; intros; try easy; contradiction. Qed.
Lemma Rltb_false x y : Rltb x y = false <-> (y <= x)%R.
Proof. unfold Rltb; destruct (Rlt_dec x y); split; intros; try easy; lra. Qed.
Lemma Rleb_true x y : Rleb x y = true <-> (x <= y)%R.
Proof. unfold Rleb; destruct (Rle_dec x y); split; intros; try easy; contradiction. Qed.
Lemma Rleb_false x y : Rleb x y = false <-> (y < x)%R.
Proof. unfold Rleb; destruct (Rle_dec x y); split; intros; try easy; lra. Qed.
Lemma Reqb_true x y : Reqb x y = true <-> x = y.
Proof. unfold Reqb; destruct (Req_EM_T x y); split; intros; try easy. Qed.
Lemma Reqb_false x y : Reqb x y = false <-> x <> y.
Proof. unfold Reqb; destruct (Req_EM_T x y); split; intros; try easy. Qed.

(** Unfold the operations; literals become IZR constants. *)
Lemma INR_lit k : INR k = IZR (Z.of_nat k). Proof. apply INR_IZR_INZ. Qed.
Ltac lit_of k :=
  let v := eval cbv in (Z.of_nat k) in
  match v with Z0 => v | Zpos ?p => match eval cbv in (Pos.eqb p p) with true => v end end.
Ltac rlit :=
  repeat match goal with
  | |- context [INR ?k] => let v := lit_of k in rewrite (INR_lit k); change (Z.of_nat k) with v
  | H : context [INR ?k] |- _ => let v := lit_of k in rewrite (INR_lit k) in H; change (Z.of_nat k) with v in H
  end.
Ltac rs :=
  cbn [sc s0 s1 sadd ssub smul sdiv sopp ssqrt sexp slog snat spow RS opt_or fst snd] in *; rlit.
