(** * Sample statistics of an ensemble, one member per row. *)
From mathcomp Require Import all_ssreflect all_algebra.
Set Implicit Arguments.
Unset Strict Implicit.
Unset Printing Implicit Defensive.
Import Order.TTheory GRing.Theory Num.Theory.
Local Open Scope ring_scope.

Section Spec.
Variable F : realFieldType.
Variable N : nat.   (* number of members *)

(** Sample mean, and sample (cross) covariance with divisor N - 1. *)
Definition smean n (X : 'M[F]_(N, n)) : 'rV[F]_n := N%:R^-1 *: \sum_i row i X.
Definition sxcov n m (X : 'M[F]_(N, n)) (Y : 'M[F]_(N, m)) : 'M[F]_(n, m) :=
  (N%:R - 1)^-1 *: \sum_i (row i X - smean X)^T *m (row i Y - smean Y).
Definition scov n (X : 'M[F]_(N, n)) : 'M[F]_n := sxcov X X.

(** Draws without sampling error: their sample mean is 0, their sample covariance is C. *)
Definition ideal_draws n (e : 'M[F]_(N, n)) (C : 'M[F]_n) : Prop := smean e = 0 /\ scov e = C.
End Spec.
