(** * Ensemble statistics. *)
From Coq Require Import ZArith QArith.
From mathcomp Require Import all_ssreflect all_algebra.
From Verif Require Import Ops Exact Spec ZmodTac FieldTac LinAlg Proof_Common Model_Common Model_KF Model_UKF Model_EnKF Spec_UKF Spec_EnKF Prop_Kin Proof_UKF_get Proof_UKF Prop_UKF Proof_Moments Prop_VanLoan.
Set Implicit Arguments.
Unset Strict Implicit.
Unset Printing Implicit Defensive.
Import Order.TTheory GRing.Theory Num.Theory.
Local Close Scope Q_scope.
Local Close Scope Z_scope.
Local Open Scope ring_scope.

Section Dev.
Variable F : realFieldType.
Variable N : nat.

(** Deviations from the mean. *)
Definition dev n (X : 'M[F]_(N, n)) : 'M[F]_(N, n) := (1%:M - const_mx N%:R^-1) *m X.
Lemma row_dev n (X : 'M[F]_(N, n)) i : matrix.row i (dev X) = matrix.row i X - smean X.
Proof.
rewrite /dev mulmxBl mul1mx /smean; apply/rowP => j; rewrite !mxE summxE mulr_sumr; congr (_ - _).
by apply: eq_bigr => t _; rewrite !mxE.
Qed.
Lemma devD n (X Y : 'M[F]_(N, n)) : dev (X + Y) = dev X + dev Y. Proof. exact: mulmxDr. Qed.
Lemma devB n (X Y : 'M[F]_(N, n)) : dev (X - Y) = dev X - dev Y. Proof. exact: mulmxBr. Qed.
Lemma devM n m (X : 'M[F]_(N, n)) (A : 'M[F]_(n, m)) : dev (X *m A) = dev X *m A. Proof. exact: mulmxA. Qed.
Definition crow n (b : 'rV[F]_n) : 'M[F]_(N, n) := \matrix_(i, j) b 0 j.
Lemma row_crow n (b : 'rV[F]_n) i : matrix.row i (crow b) = b. Proof. by apply/rowP => j; rewrite !mxE. Qed.
Lemma crowE n (X : 'M[F]_(N, n)) b : (forall i, matrix.row i X = b) -> X = crow b.
Proof. by move=> h; apply/row_matrixP => i; rewrite h row_crow. Qed.

Lemma sxcovE n m (X : 'M[F]_(N, n)) (Y : 'M[F]_(N, m)) : sxcov X Y = (N%:R - 1)^-1 *: ((dev X)^T *m dev Y).
Proof.
rewrite /sxcov; congr (_ *: _); rewrite -[in RHS](mulmx1 (dev X)^T) -mulmxA -diag_const_mx diag_sum.
by apply: eq_bigr => i _; rewrite mxE scale1r !row_dev.
Qed.
Lemma sxcovT n m (X : 'M[F]_(N, n)) (Y : 'M[F]_(N, m)) : (sxcov X Y)^T = sxcov Y X.
Proof. by rewrite !sxcovE trmxZ trmxM trmxK. Qed.
Lemma sxcovDl n m (X X' : 'M[F]_(N, n)) (Y : 'M[F]_(N, m)) : sxcov (X + X') Y = sxcov X Y + sxcov X' Y.
Proof. by rewrite !sxcovE devD trmxD mulmxDl scalerDr. Qed.
Lemma sxcovDr n m (X : 'M[F]_(N, n)) (Y Y' : 'M[F]_(N, m)) : sxcov X (Y + Y') = sxcov X Y + sxcov X Y'.
Proof. by rewrite !sxcovE devD mulmxDr scalerDr. Qed.
Lemma sxcovBl n m (X X' : 'M[F]_(N, n)) (Y : 'M[F]_(N, m)) : sxcov (X - X') Y = sxcov X Y - sxcov X' Y.
Proof. by rewrite !sxcovE devB trmxB mulmxBl scalerBr. Qed.
Lemma sxcovBr n m (X : 'M[F]_(N, n)) (Y Y' : 'M[F]_(N, m)) : sxcov X (Y - Y') = sxcov X Y - sxcov X Y'.
Proof. by rewrite !sxcovE devB mulmxBr scalerBr. Qed.
Lemma sxcovMl n m p (X : 'M[F]_(N, n)) (A : 'M[F]_(p, n)) (Y : 'M[F]_(N, m)) : sxcov (X *m A^T) Y = A *m sxcov X Y.
Proof. by rewrite !sxcovE devM trmxM trmxK -mulmxA scalemxAr. Qed.
Lemma sxcovMr n m p (X : 'M[F]_(N, n)) (A : 'M[F]_(p, m)) (Y : 'M[F]_(N, m)) : sxcov X (Y *m A^T) = sxcov X Y *m A^T.
Proof. by rewrite !sxcovE devM mulmxA scalemxAl. Qed.

Hypothesis N0 : (0 < N)%N.
Lemma NnF : N%:R != 0 :> F. Proof. by rewrite pnatr_eq0 -lt0n. Qed.
Lemma dev_crow n (b : 'rV[F]_n) : dev (crow b) = 0.
Proof.
apply/row_matrixP => i; rewrite row_dev row_crow row0 /smean (eq_bigr (fun=> b)) => [|j _]; last exact: row_crow.
by rewrite sumr_const card_ord -scaler_nat scalerA mulVf ?NnF // scale1r subrr.
Qed.
Lemma smeanD n (X Y : 'M[F]_(N, n)) : smean (X + Y) = smean X + smean Y.
Proof. by rewrite /smean -scalerDr -big_split; congr (_ *: _); apply: eq_bigr => i _; apply/rowP => j; rewrite !mxE. Qed.
Lemma smeanB n (X Y : 'M[F]_(N, n)) : smean (X - Y) = smean X - smean Y.
Proof. by rewrite /smean -scalerBr -sumrB; congr (_ *: _); apply: eq_bigr => i _; apply/rowP => j; rewrite !mxE. Qed.
Lemma smeanM n m (X : 'M[F]_(N, n)) (A : 'M[F]_(n, m)) : smean (X *m A) = smean X *m A.
Proof. by rewrite /smean -scalemxAl mulmx_suml; congr (_ *: _); apply: eq_bigr => i _; rewrite row_mul. Qed.
Lemma smean_crow n (b : 'rV[F]_n) : smean (crow b) = b.
Proof.
rewrite /smean (eq_bigr (fun=> b)) => [|j _]; last exact: row_crow.
by rewrite sumr_const card_ord -scaler_nat scalerA mulVf ?NnF // scale1r.
Qed.
Lemma sxcov_crowl n m (b : 'rV[F]_n) (Y : 'M[F]_(N, m)) : sxcov (crow b) Y = 0.
Proof. by rewrite sxcovE dev_crow trmx0 mul0mx scaler0. Qed.
Lemma sxcov_crowr n m (b : 'rV[F]_n) (Y : 'M[F]_(N, m)) : sxcov Y (crow b) = 0.
Proof. by rewrite sxcovE dev_crow mulmx0 scaler0. Qed.

Definition sw : 'rV[F]_N := const_mx (N%:R - 1)^-1.
Lemma sxcov_wx n m (X : 'M[F]_(N, n)) (Y : 'M[F]_(N, m)) : sxcov X Y = wxcov sw X (smean X) Y (smean Y).
Proof. by rewrite /sxcov /wxcov scaler_sumr; apply: eq_bigr => i _; rewrite mxE. Qed.
Lemma sw_ge0 i : 0 <= sw 0 i.
Proof. by rewrite mxE invr_ge0 subr_ge0 ler1n. Qed.
Lemma scov_psd n (X : 'M[F]_(N, n)) : psd (scov X).
Proof. rewrite /scov sxcov_wx; apply: wcov_psd; exact: sw_ge0. Qed.

(** The covariance of the shifted ensemble. *)
Lemma scov_shift n m (X : 'M[F]_(N, n)) (Z E : 'M[F]_(N, m)) (z : 'rV[F]_m) (R : 'M[F]_m) :
  sxcov X E = 0 -> sxcov Z E = 0 -> scov E = R -> let S := scov Z + R in S \in unitmx ->
  let K := sxcov X Z *m invmx S in
  scov (X + (crow z + E - Z) *m K^T) = scov X - K *m S *m K^T.
Proof.
move=> h1 h2 h3 S uS K; have h1' : sxcov E X = 0 by rewrite -sxcovT h1 trmx0.
have h2' : sxcov E Z = 0 by rewrite -sxcovT h2 trmx0.
have KS : K *m S = sxcov X Z by rewrite /K mulmxKV.
have sS : S^T = S by rewrite /S -h3 trmxD /scov !sxcovT.
have SK : S *m K^T = sxcov Z X by rewrite -sS -trmxM KS sxcovT.
rewrite /scov sxcovDl !sxcovDr sxcovMl sxcovMr; set D := crow z + E - Z.
have XD : sxcov X D = - sxcov X Z by rewrite /D sxcovBr sxcovDr sxcov_crowr h1 addr0 sub0r.
have DX : sxcov D X = - sxcov Z X by rewrite -sxcovT XD linearN /= sxcovT.
have DD : sxcov D D = S.
  rewrite {1}/D sxcovBl sxcovDl sxcov_crowl add0r /D !sxcovBr !sxcovDr !sxcov_crowr h2 h2' -/(scov E) h3 -/(scov Z) /S; zmod.
rewrite sxcovMl XD DX sxcovMr DD mulNmx !mulmxN -KS -SK !mulmxA; zmod.
Qed.
End Dev.

Section Model.
Variable F : realFieldType.
Variables (fsqrt fexp flog : F -> F).
Notation EO := (exactO fsqrt fexp flog).
Notation L := (@exact_get_laws F fsqrt fexp flog).

Lemma row_meanE q p (A : 'M[F]_(q, p)) : row_mean (o := EO) A = smean A.
Proof.
rewrite /row_mean /smean /=; congr (_ *: _).
rewrite [LHS](@fold_sum q _ (fun i => mrow (o := EO) A i : 'rV[F]_p)); apply: eq_bigr => i _; exact: mrowE.
Qed.
Lemma cov_divE N n m (X : 'M[F]_(N, n)) (Y : 'M[F]_(N, m)) :
  (mdivs (outer_product_sum (o := EO) (sub_row (o := EO) X (smean X)) (sub_row (o := EO) Y (smean Y))) (ssub EO (snat EO N) (s1 EO)) : 'M[F]_(n, m)) = sxcov X Y.
Proof.
rewrite -[LHS]/((N%:R - 1)^-1 *: (outer_product_sum (o := EO) (sub_row (o := EO) X (smean X)) (sub_row (o := EO) Y (smean Y)) : 'M[F]_(n, m))).
congr (_ *: _).
have [-> _] := @C48_outer_product_sum F fsqrt fexp flog N n m (sub_row (o := EO) X (smean X)) (sub_row (o := EO) Y (smean Y)).
apply: eq_bigr => i _; rewrite !sub_rowE; congr (_^T *m _); apply/rowP => j; by rewrite !mxE.
Qed.
(** The cross covariance does not depend on the point the first factor is centred at. *)
Lemma cov_centreE N n m (X : 'M[F]_(N, n)) (x : 'rV[F]_n) (Y : 'M[F]_(N, m)) : (0 < N)%N ->
  (mdivs (outer_product_sum (o := EO) (sub_row (o := EO) X x) (sub_row (o := EO) Y (smean Y))) (ssub EO (snat EO N) (s1 EO)) : 'M[F]_(n, m)) = sxcov X Y.
Proof.
move=> N0; rewrite -[LHS]/((N%:R - 1)^-1 *: (outer_product_sum (o := EO) (sub_row (o := EO) X x) (sub_row (o := EO) Y (smean Y)) : 'M[F]_(n, m))).
congr (_ *: _).
have [-> _] := @C48_outer_product_sum F fsqrt fexp flog N n m (sub_row (o := EO) X x) (sub_row (o := EO) Y (smean Y)).
rewrite (eq_bigr (fun i => (matrix.row i X - smean X)^T *m (matrix.row i Y - smean Y) + (smean X - x)^T *m (matrix.row i Y - smean Y))) => [|i _].
  rewrite big_split /= -mulmx_sumr sumrB sumr_const card_ord /smean -[X in _ *m (_ - X)]scaler_nat scalerA mulfV ?NnF // scale1r subrr mulmx0.
  by rewrite addr0.
rewrite !sub_rowE -mulmxDl -linearD /=; congr (_^T *m _); apply/rowP => j; rewrite !mxE //; zmod.
Qed.

Lemma shift_get N n m (K : 'M[F]_(n, m)) (z : 'rV[F]_m) (er sh : 'M[F]_(N, m)) (sig : 'M[F]_(N, n)) :
  en_shift (o := EO) K z er sh sig = sig + (crow N z + er - sh) *m K^T.
Proof.
rewrite /en_shift; set G := sig + _.
suff H t : (t <= N)%N -> List.fold_left (fun out i => mwrite out i 0 (madd (mrow out i)
     (mtr (mdot (K : M EO n m) (mtr (msub (madd (z : M EO 1 m) (mrow (er : M EO N m) i)) (mrow (sh : M EO N m) i))))))) (List.seq 0 t) (sig : M EO N n) =
     ((\matrix_(i, j) (if (i < t)%N then G i j else sig i j) : 'M[F]_(N, n)) : M EO N n).
  by rewrite H //; apply/matrixP => i j; rewrite mxE ltn_ord.
elim: t => [|t IH] ht; first by apply/matrixP => i j; rewrite mxE.
rewrite List.seq_S List.fold_left_app IH; last exact: ltnW.
set A : 'M[F]_(N, n) := matrix_of_fun _ _; apply/matrixP => i j; rewrite [RHS]mxE -[LHS](@getE F fsqrt fexp flog).
rewrite [LHS](@row_write_get EO L _ _ _ _ _ _ _ (ltb i) (ltb j)) eqbE.
have tN : (0 + t < N)%N by [].
case: (i =P (0 + t)%N :> nat) => [it|it].
  have -> : i = Ordinal tN by apply: val_inj.
  rewrite [ssrnat.leq _ _]/= ltnSn get0E.
  rewrite -[(0 + t)%coq_nat]/(nat_of_ord (Ordinal tN)).
  rewrite -[LHS]/((mrow (o := EO) A (Ordinal tN) + ((K *m (z + mrow (o := EO) er (Ordinal tN) - mrow (o := EO) sh (Ordinal tN))^T)^T)) 0 j).
  rewrite !mrowE trmxM trmxK /G [LHS]mxE [RHS]mxE; congr (_ + _); first by rewrite !mxE ltnn.
  rewrite !mxE; apply: eq_bigr => b _; by rewrite !mxE.
rewrite -[LHS]/(mget (A : M EO N n) i j) getE mxE ltnS [(i <= t)%N]leq_eqVlt.
by have -> : (nat_of_ord i == t) = false by apply/eqP.
Qed.
End Model.
