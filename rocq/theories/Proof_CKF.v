(** * The cubature points and the cubature transform in exact arithmetic. *)
From Coq Require Import ZArith QArith.
From mathcomp Require Import all_ssreflect all_algebra.
From Verif Require Import Ops Exact Spec ZmodTac FieldTac LinAlg Model_Common Model_KF Model_UKF Model_CKF Spec_UKF Prop_Kin Proof_UKF Prop_UKF Proof_CKF_get Prop_VanLoan.
Set Implicit Arguments.
Unset Strict Implicit.
Unset Printing Implicit Defensive.
Import Order.TTheory GRing.Theory Num.Theory.
Local Close Scope Q_scope.
Local Close Scope Z_scope.
Local Open Scope ring_scope.

(** k equal weights. *)
Definition equal_weights (F : realFieldType) (k : nat) : 'rV[F]_k := const_mx k%:R^-1.

Section CKF.
Variable F : realFieldType.
Variables (fsqrt fexp flog : F -> F).
Notation EO := (exactO fsqrt fexp flog).
Notation L := (@exact_get_laws F fsqrt fexp flog).
Notation eqw := (equal_weights F).

Lemma eqw_sum k : (0 < k)%N -> wsum (eqw k) = 1.
Proof.
move=> k0; rewrite /wsum (eq_bigr (fun=> k%:R^-1)) => [|i _]; last by rewrite mxE.
by rewrite sumr_const card_ord -[LHS]mulr_natr mulVf // pnatr_eq0 -lt0n.
Qed.

Lemma wmean_eqw k n (X : 'M[F]_(k, n)) : wmean (eqw k) X = k%:R^-1 *: \sum_i matrix.row i X.
Proof. by rewrite /wmean scaler_sumr; apply: eq_bigr => i _; rewrite mxE. Qed.
Lemma wxcov_eqw k n m (X : 'M[F]_(k, n)) x (Z : 'M[F]_(k, m)) z :
  wxcov (eqw k) X x Z z = k%:R^-1 *: \sum_i (matrix.row i X - x)^T *m (matrix.row i Z - z).
Proof. by rewrite /wxcov scaler_sumr; apply: eq_bigr => i _; rewrite mxE. Qed.

Lemma cov_raw k n (X : 'M[F]_(k, n)) : (0 < k)%N -> let x := wmean (eqw k) X in
  wcov (eqw k) X x = k%:R^-1 *: \sum_i ((matrix.row i X)^T *m matrix.row i X - x^T *m x).
Proof.
move=> k0 x; have kn : k%:R != 0 :> F by rewrite pnatr_eq0 -lt0n.
have sx : \sum_i matrix.row i X = k%:R *: x by rewrite /x wmean_eqw scalerA mulfV // scale1r.
have sxT : \sum_i (matrix.row i X)^T = k%:R *: x^T by rewrite -trmxZ -sx raddf_sum.
rewrite /wcov wxcov_eqw; congr (_ *: _).
transitivity (\sum_i ((matrix.row i X)^T *m matrix.row i X - (x^T *m matrix.row i X + ((matrix.row i X)^T - x^T) *m x))).
  apply: eq_bigr => i _; rewrite trmxB mulmxBr [in LHS]mulmxBl [in RHS]opprD addrA; congr (_ - _).
rewrite !sumrB; congr (_ - _).
rewrite big_split /= -mulmx_sumr -mulmx_suml sumrB sx sxT !sumr_const card_ord -scaler_nat subrr mul0mx addr0 -scaler_nat.
by rewrite -scalemxAr.
Qed.

Lemma transformE q p (X : 'M[F]_(q, p)) (Q : 'M[F]_p) : (0 < q)%N ->
  ckf_transform (o := EO) X Q = ((wmean (eqw q) X)^T : 'cV[F]_p, wcov (eqw q) X (wmean (eqw q) X) + Q).
Proof.
move=> q0; have qn : q%:R != 0 :> F by rewrite pnatr_eq0 -lt0n.
rewrite /ckf_transform.
have mE : (mdivs (mtr (List.fold_left (fun a i => madd a (mrow (o := EO) X i)) (List.seq 0 q) (mzeros 1 p))) (snat EO q) : 'cV[F]_p)
   = (wmean (eqw q) X)^T.
  rewrite wmean_eqw trmxZ /=; congr (_ *: _^T).
  rewrite [LHS](@fold_sum q _ (fun i => mrow (o := EO) X i : 'rV[F]_p)); apply: eq_bigr => i _; exact: mrowE.
rewrite mE; congr (_, _); rewrite cov_raw // /=; congr (_ *: _ + _); first by rewrite mul1r.
rewrite [LHS](@fold_sum q _ (fun i => (mrow (o := EO) X i : 'rV[F]_p)^T *m (mrow (o := EO) X i : 'rV[F]_p) - _)).
by apply: eq_bigr => i _; rewrite mrowE !trmxK.
Qed.

Lemma crossE k n m (X : 'M[F]_(k, n)) (x : 'rV[F]_n) (Z : 'M[F]_(k, m)) (z : 'rV[F]_m) :
  (mdivs (outer_product_sum (o := EO) (sub_row (o := EO) X x) (sub_row (o := EO) Z z)) (snat EO k) : 'M[F]_(n, m)) = wxcov (eqw k) X x Z z.
Proof.
rewrite wxcov_eqw -[LHS]/(k%:R^-1 *: (outer_product_sum (o := EO) (sub_row (o := EO) X x) (sub_row (o := EO) Z z) : 'M[F]_(n, m))).
congr (_ *: _).
have [-> _] := @C48_outer_product_sum F fsqrt fexp flog k n m (sub_row (o := EO) X x) (sub_row (o := EO) Z z).
apply: eq_bigr => i _; rewrite !sub_rowE; congr (_^T *m _); apply/rowP => j; by rewrite !mxE.
Qed.

Variable n : nat.
Lemma sigmasP chol (x : 'cV[F]_n) (P : 'M[F]_n) sig : spherical_radial_sigmas (o := EO) chol x P = Ok sig ->
  exists2 U : 'M[F]_n, chol P = Some U &
    forall i : 'I_n, matrix.row (lshift n i) (sig : 'M[F]_(n + n, n)) = x^T + fsqrt n%:R *: matrix.row i U /\
                     matrix.row (rshift n i) (sig : 'M[F]_(n + n, n)) = x^T - fsqrt n%:R *: matrix.row i U.
Proof.
rewrite /spherical_radial_sigmas; case e: (chol P) => [U|] // h; exists U => // i.
have {h} <- := Ok_inj h.
set f := fun k => madd (x^T : M EO 1 n) (mrow (o := EO) (mscale (ssqrt EO (snat EO n)) U) k).
set g := fun k => msub (x^T : M EO 1 n) (mrow (o := EO) (mscale (ssqrt EO (snat EO n)) U) k).
have E := @cub_loop_get EO L n f g (mzeros (n + n) n) n.
set T := List.fold_left _ _ _; rewrite -/T in E.
have {}E (i : 'I_(n + n)) (j : 'I_n) := E i j (le_n n) (ltb i) (ltb j).
have rowZ : matrix.row i (fsqrt n%:R *: U) = fsqrt n%:R *: matrix.row i U by apply/rowP => j; rewrite !mxE.
split; apply/rowP => j; rewrite mxE -(@getE F fsqrt fexp flog) E.
- have -> : Nat.ltb (lshift n i) n by apply/Nat.ltb_lt; exact: (ltb i).
  by rewrite /f [mrow _ _](@mrowE F fsqrt fexp flog n n (fsqrt n%:R *: U) i) get0E -rowZ.
- have -> : Nat.ltb (rshift n i) n = false by apply/Nat.ltb_ge/ssrnat.leP; rewrite leq_addr.
  have [-> ->] : Nat.leb n (rshift n i) && Nat.ltb (rshift n i) (Nat.add n n) /\ (Nat.sub (rshift n i) n = i :> nat).
    split; last by rewrite minusE addKn.
    by apply/andP; split; [apply/Nat.leb_le/ssrnat.leP; rewrite leq_addr|apply/Nat.ltb_lt/ssrnat.ltP; rewrite plusE ltn_add2l].
  by rewrite /g [mrow _ _](@mrowE F fsqrt fexp flog n n (fsqrt n%:R *: U) i) get0E -rowZ.
Qed.

Lemma sigmas_represent chol (x : 'cV[F]_n) (P : 'M[F]_n) sig : (0 < n)%N -> fsqrt n%:R ^+ 2 = n%:R ->
  (forall U, chol P = Some U -> U^T *m U = P) ->
  spherical_radial_sigmas (o := EO) chol x P = Ok sig -> represents (eqw (n + n)) (eqw (n + n)) sig x^T P.
Proof.
move=> n0 hs hc /sigmasP [U /hc hU h]; have n2 : (0 < n + n)%N by rewrite addn_gt0 n0.
have n2n : (n + n)%:R != 0 :> F by rewrite pnatr_eq0 -lt0n.
split; first exact: eqw_sum.
- rewrite wmean_eqw big_split_ord /= -big_split /= (eq_bigr (fun=> x^T *+ 2)) => [|i _]; last first.
    by have [-> ->] := h i; rewrite addrACA subrr addr0 mulr2n.
  by rewrite sumr_const card_ord -mulrnA mul2n -addnn -scaler_nat scalerA mulVf // scale1r.
- rewrite /wcov wxcov_eqw big_split_ord /= -big_split /=.
  rewrite (eq_bigr (fun i : 'I_n => (n + n)%:R *: ((matrix.row i U)^T *m matrix.row i U))) => [|i _].
    rewrite -scaler_sumr scalerA mulVf // scale1r -hU.
    rewrite -[in RHS](mulmx1 U^T) -mulmxA -diag_const_mx diag_sum.
    by apply: eq_bigr => i _; rewrite mxE scale1r.
  have [-> ->] := h i; rewrite ![x^T + _]addrC !addrK trmxN mulNmx mulmxN opprK trmxZ -scalemxAl -scalemxAr scalerA -expr2 hs natrD scalerDl //.
Qed.
End CKF.
