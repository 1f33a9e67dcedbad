(** * What sigma points are for, stated with finite weighted sums. *)
From mathcomp Require Import all_ssreflect all_algebra.
Set Implicit Arguments.
Unset Strict Implicit.
Unset Printing Implicit Defensive.
Import Order.TTheory GRing.Theory Num.Theory.
Local Open Scope ring_scope.

Section Spec.
Variable F : realFieldType.
Variable k : nat.   (* number of points *)

Definition wsum (w : 'rV[F]_k) : F := \sum_i w 0 i.
(** Weighted mean of the rows of X. *)
Definition wmean n (w : 'rV[F]_k) (X : 'M[F]_(k, n)) : 'rV[F]_n := \sum_i w 0 i *: row i X.
(** Weighted (cross) covariance of the rows of X about x with the rows of Z about z. *)
Definition wxcov n m (w : 'rV[F]_k) (X : 'M[F]_(k, n)) (x : 'rV[F]_n) (Z : 'M[F]_(k, m)) (z : 'rV[F]_m) : 'M[F]_(n, m) :=
  \sum_i w 0 i *: ((row i X - x)^T *m (row i Z - z)).
Definition wcov n w (X : 'M[F]_(k, n)) x : 'M[F]_n := wxcov w X x X x.

(** The points X with mean weights wm and covariance weights wc represent mean x, covariance P. *)
Definition represents n (wm wc : 'rV[F]_k) (X : 'M[F]_(k, n)) (x : 'rV[F]_n) (P : 'M[F]_n) : Prop :=
  [/\ wsum wm = 1, wmean wm X = x & wcov wc X x = P].

(** Points pushed through x |-> x A^T + b. *)
Definition affine_rows n m (X : 'M[F]_(k, n)) (A : 'M[F]_(m, n)) (b : 'rV[F]_m) : 'M[F]_(k, m) :=
  \matrix_(i, j) ((row i X *m A^T + b) 0 j).
End Spec.

(** What is assumed of a square-root routine: on symmetric arguments a value it returns is an upper
    factor, U^T U. *)
Definition sqrt_ok (F : realFieldType) n (sqrt : 'M[F]_n -> option 'M[F]_n) : Prop :=
  forall A U, A^T = A -> sqrt A = Some U -> U^T *m U = A.
