(** * The covariance update of a sigma-point filter keeps the covariance positive semidefinite, whatever the
    functions the points went through. *)
From mathcomp Require Import all_ssreflect all_algebra.
From Verif Require Import Spec ZmodTac LinAlg Spec_UKF.
Set Implicit Arguments.
Unset Strict Implicit.
Unset Printing Implicit Defensive.
Import Order.TTheory GRing.Theory Num.Theory.
Local Open Scope ring_scope.

Section S.
Variable F : realFieldType.
Variables k n m : nat.
Variables (w : 'rV[F]_k) (X : 'M[F]_(k, n)) (x : 'rV[F]_n) (Z : 'M[F]_(k, m)) (z : 'rV[F]_m) (R : 'M[F]_m).
Hypothesis hw : forall i, 0 <= w 0 i.
Hypothesis pR : psd R.
Let P := wcov w X x.
Let C := wxcov w X x Z z.
Let S := wcov w Z z + R.

Lemma wsum_psd (Y : 'I_k -> 'rV[F]_n) : psd (\sum_i w 0 i *: ((Y i)^T *m Y i)).
Proof.
elim/big_ind: _ => [|A B|i _]; [exact: psd0|exact: psdD|].
by apply: psdZ => //; have := psd_gram (Y i)^T; rewrite trmxK.
Qed.
Lemma wcov_psd : psd P. Proof. exact: wsum_psd. Qed.

Lemma wxcovT : C^T = wxcov w Z z X x.
Proof. by rewrite /C /wxcov raddf_sum; apply: eq_bigr => i _ /=; rewrite trmxZ trmxM trmxK. Qed.

Hypothesis pS : psd (wcov w Z z).
Hypothesis uS : S \in unitmx.
Lemma moments_psd : let K := C *m invmx S in psd (P - K *m S *m K^T).
Proof.
move=> K.
have sS : S^T = S by rewrite /S trmxD (psd_sym pR) (psd_sym pS).
have KS : K *m S = C by rewrite /K mulmxKV.
have -> : P - K *m S *m K^T = \sum_i w 0 i *: (((row i X - x) - (row i Z - z) *m K^T)^T *m ((row i X - x) - (row i Z - z) *m K^T)) + K *m R *m K^T.
  rewrite (eq_bigr (fun i => w 0 i *: ((row i X - x)^T *m (row i X - x)) - w 0 i *: ((row i X - x)^T *m (row i Z - z)) *m K^T
      - (K *m (w 0 i *: ((row i Z - z)^T *m (row i X - x))) - K *m (w 0 i *: ((row i Z - z)^T *m (row i Z - z))) *m K^T))).
    rewrite !sumrB -!mulmx_suml -!mulmx_sumr.
    have -> : \sum_(i < k) w 0 i *: ((row i Z - z)^T *m (row i X - x)) = C^T by rewrite wxcovT.
    rewrite -[\sum_(i < k) w 0 i *: ((row i X - x)^T *m (row i X - x))]/P.
    rewrite -[\sum_(i < k) w 0 i *: ((row i X - x)^T *m (row i Z - z))]/C.
    rewrite -[\sum_(i < k) w 0 i *: ((row i Z - z)^T *m (row i Z - z))]/(wcov w Z z).
    have CK : K *m C^T = K *m S *m K^T by rewrite -KS trmxM sS mulmxA.
    rewrite CK -KS; have -> : wcov w Z z = S - R by rewrite /S addrK.
    rewrite !mulmxBr !mulmxBl; zmod.
  move=> i _; move: (row i X - x) (row i Z - z) => a b.
  have -> : (a - b *m K^T)^T = a^T - K *m b^T by rewrite trmxB trmxM trmxK.
  rewrite -!scalemxAr -!scalemxAl -!scalerBr; congr (_ *: _).
  rewrite mulmxBr !mulmxBl !mulmxA; by zmod.
apply: psdD; first exact: (wsum_psd (fun i => (row i X - x) - (row i Z - z) *m K^T)).
exact: psd_congr.
Qed.
End S.
