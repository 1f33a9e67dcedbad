(** * Mixtures of N estimates. *)
From mathcomp Require Import all_ssreflect all_algebra.
Set Implicit Arguments.
Unset Strict Implicit.
Unset Printing Implicit Defensive.
Import Order.TTheory GRing.Theory Num.Theory.
Local Open Scope ring_scope.

Section Spec.
Variable F : realFieldType.
Variables N n : nat.

(** A probability vector; a matrix whose rows are. *)
Definition prob (w : 'rV[F]_N) : Prop := (forall i, 0 <= w 0 i) /\ \sum_i w 0 i = 1.
Definition stochastic (M : 'M[F]_N) : Prop := forall i, prob (row i M).

(** Mean and covariance of the mixture with weights w of distributions with means x i and covariances P i. *)
Definition mixmean (w : 'I_N -> F) (x : 'I_N -> 'cV[F]_n) : 'cV[F]_n := \sum_i w i *: x i.
Definition mixcov (w : 'I_N -> F) (x : 'I_N -> 'cV[F]_n) (P : 'I_N -> 'M[F]_n) : 'M[F]_n :=
  \sum_i w i *: ((x i - mixmean w x) *m (x i - mixmean w x)^T + P i).
End Spec.
