(** * Vocabulary used to state properties about exact matrices.
    [psd A]: symmetric positive semidefinite; [pd A]: symmetric positive definite;
    [mle A B]: A <= B in the Loewner order. *)
From mathcomp Require Import all_ssreflect all_algebra.
Set Implicit Arguments.
Unset Strict Implicit.
Unset Printing Implicit Defensive.
Import Order.TTheory GRing.Theory Num.Theory.
Local Open Scope ring_scope.

Section Spec.
Variable F : realFieldType.

Definition qf n (A : 'M[F]_n) (v : 'cV[F]_n) : F := (v^T *m A *m v) 0 0.
Definition sym n (A : 'M[F]_n) : Prop := A^T = A.
Definition psd n (A : 'M[F]_n) : Prop := sym A /\ forall v, 0 <= qf A v.
Definition pd n (A : 'M[F]_n) : Prop := sym A /\ forall v, v != 0 -> 0 < qf A v.
Definition mle n (A B : 'M[F]_n) : Prop := psd (B - A).

End Spec.
