(** * Signs of binary64 numbers under addition and multiplication. *)
From Coq Require Import List Arith Lia Bool ZArith Floats.
From Verif Require Import Ops ListOps.
Import ListNotations.

(** NaN, or at least zero (either zero). *)
Definition sf_nn (x : spec_float) : Prop :=
  match x with S754_infinity s | S754_finite s _ _ => s = false | _ => True end.
Definition nn (x : float) : Prop := sf_nn (Prim2SF x).
(** NaN, or of the given sign. *)
Definition hs (x : spec_float) (s : bool) : Prop :=
  match x with S754_zero t | S754_infinity t | S754_finite t _ _ => t = s | S754_nan => True end.
Definition sf_z (x : spec_float) : Prop := match x with S754_zero _ | S754_nan => True | _ => False end.

Lemma round_aux_sign s m e l : hs (binary_round_aux prec emax s m e l) s.
Proof.
  unfold binary_round_aux. destruct (shr_fexp _ _ m e l) as [r e1].
  destruct (shr_fexp _ _ _ e1 _) as [r2 e2]. destruct (shr_m r2); cbn; auto. destruct (Z.leb _ _); reflexivity.
Qed.
Lemma round_sign s m e : hs (binary_round prec emax s m e) s.
Proof. unfold binary_round. destruct (shl_align _ _ _). apply round_aux_sign. Qed.

Lemma mul_sign a b s t : hs a s -> hs b t -> hs (SF64mul a b) (xorb s t).
Proof.
  destruct a as [u|u| |u ma ea]; destruct b as [v|v| |v mb eb]; cbn; intros; subst; auto.
  apply round_aux_sign.
Qed.
Lemma mul_zero_l a b : sf_z a -> sf_z (SF64mul a b).
Proof. destruct a; destruct b; cbn; tauto. Qed.
Lemma mul_zero_r a b : sf_z b -> sf_z (SF64mul a b).
Proof. destruct a; destruct b; cbn; tauto. Qed.
Lemma z_nn a : sf_z a -> sf_nn a.
Proof. destruct a; cbn; tauto. Qed.
Lemma hs_nn a : hs a false -> sf_nn a.
Proof. destruct a; cbn; auto. Qed.
Lemma hs_some a : exists s, hs a s.
Proof. destruct a as [s|s| |s m e]; [exists s|exists s|exists false|exists s]; reflexivity. Qed.
Lemma nn_cases a : sf_nn a -> hs a false \/ sf_z a.
Proof. destruct a as [s|s| |s m e]; cbn; auto. Qed.

(** x * a * x is not negative when a is not. *)
Lemma sandwich x a : sf_nn a -> sf_nn (SF64mul (SF64mul x a) x).
Proof.
  intros H. destruct (hs_some x) as [s Hx]. destruct (nn_cases a H) as [Ha|Ha].
  - apply hs_nn. replace false with (xorb (xorb s false) s) by (destruct s; reflexivity). auto using mul_sign.
  - apply z_nn, mul_zero_l, mul_zero_r, Ha.
Qed.
Lemma mul_nn a b : sf_nn a -> sf_nn b -> sf_nn (SF64mul a b).
Proof.
  intros Ha Hb. destruct (nn_cases a Ha) as [A|A]; [|apply z_nn, mul_zero_l, A].
  destruct (nn_cases b Hb) as [B|B]; [|apply z_nn, mul_zero_r, B]. apply hs_nn. exact (mul_sign _ _ _ _ A B).
Qed.
Lemma sq_nn a : sf_nn (SF64mul a a).
Proof.
  destruct (hs_some a) as [s H]. apply hs_nn. replace false with (xorb s s) by (destruct s; reflexivity).
  auto using mul_sign.
Qed.
Lemma add_nn a b : sf_nn a -> sf_nn b -> sf_nn (SF64add a b).
Proof.
  destruct a as [u|u| |u ma ea]; destruct b as [v|v| |v mb eb]; intros Ha Hb; cbn in Ha, Hb; subst; try reflexivity; try exact I.
  - unfold SF64add, SFadd. destruct (Bool.eqb u v); exact I.
  - unfold SF64add, SFadd, cond_Zopp. cbn -[binary_round shl_align Z.min prec emax]. apply hs_nn, round_sign.
Qed.

Lemma fmul_nn x y : nn x -> nn y -> nn (x * y)%float.
Proof. unfold nn. rewrite FloatAxioms.mul_spec. apply mul_nn. Qed.
Lemma fadd_nn x y : nn x -> nn y -> nn (x + y)%float.
Proof. unfold nn. rewrite FloatAxioms.add_spec. apply add_nn. Qed.
Lemma fsandwich x a : nn a -> nn ((x * a) * x)%float.
Proof. unfold nn. rewrite !FloatAxioms.mul_spec. apply sandwich. Qed.
Lemma fsq_nn x : nn (x * x)%float.
Proof. unfold nn. rewrite FloatAxioms.mul_spec. apply sq_nn. Qed.

(** In terms of the comparisons a program can make. *)
Lemma nn_iff x : nn x <-> is_nan x = true \/ (0 <=? x)%float = true.
Proof.
  unfold nn, is_nan. rewrite FloatAxioms.eqb_spec, FloatAxioms.leb_spec.
  change (Prim2SF 0%float) with (S754_zero false).
  destruct (Prim2SF x) as [s|s| |s m e]; cbn.
  - split; auto.
  - destruct s; split; intros H; auto; try discriminate. destruct H; discriminate.
  - split; auto.
  - rewrite Z.compare_refl. rewrite Pcompare_refl.
    destruct s; split; intros H; auto; try discriminate. destruct H; discriminate.
Qed.
