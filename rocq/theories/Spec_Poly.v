(** * Polynomials of degree three and the moments their expectation needs (specification for C79).

    A random vector is a finite weighted set of points, as in Spec_UKF. *)
From mathcomp Require Import all_ssreflect all_algebra.
From Verif Require Import Spec_UKF.
Set Implicit Arguments.
Unset Strict Implicit.
Unset Printing Implicit Defensive.
Import Order.TTheory GRing.Theory Num.Theory.
Local Open Scope ring_scope.

Section Poly.
Variables (F : realFieldType) (n : nat).

(** A polynomial of degree at most three in n variables. *)
Record cubic := mkCubic {
  q0 : F;
  q1 : 'I_n -> F;
  q2 : 'I_n -> 'I_n -> F;
  q3 : 'I_n -> 'I_n -> 'I_n -> F }.

Definition poly_at (f : cubic) (v : 'rV[F]_n) : F :=
  q0 f + \sum_a q1 f a * v 0 a + \sum_a \sum_b q2 f a b * (v 0 a * v 0 b)
  + \sum_a \sum_b \sum_c q3 f a b c * (v 0 a * v 0 b * v 0 c).
Definition quadratic (f : cubic) : Prop := forall a b c, q3 f a b c = 0.

(** The expectation of f at a Gaussian vector with mean x and covariance P. *)
Definition gauss_mean (f : cubic) (x : 'rV[F]_n) (P : 'M[F]_n) : F :=
  q0 f + \sum_a q1 f a * x 0 a + \sum_a \sum_b q2 f a b * (x 0 a * x 0 b + P a b)
  + \sum_a \sum_b \sum_c q3 f a b c * (x 0 a * x 0 b * x 0 c + x 0 a * P b c + x 0 b * P a c + x 0 c * P a b).

(** The weighted mean of a function over the rows of X. *)
Definition wexp k (w : 'rV[F]_k) (X : 'M[F]_(k, n)) (f : 'rV[F]_n -> F) : F := \sum_i w 0 i * f (row i X).

(** Mean x, covariance P (with the same weights), third central moments zero: so has every Gaussian, and
    every distribution symmetric about its mean. *)
Definition third_order k (w : 'rV[F]_k) (X : 'M[F]_(k, n)) (x : 'rV[F]_n) (P : 'M[F]_n) : Prop :=
  represents w w X x P /\
  forall a b c, \sum_i w 0 i * ((X i a - x 0 a) * (X i b - x 0 b) * (X i c - x 0 c)) = 0.
End Poly.
