(** * Sigma points (C24), the unscented transform (C25), the unscented filter on linear systems (C26). *)
From Coq Require Import ZArith QArith.
From mathcomp Require Import all_ssreflect all_algebra.
From Verif Require Import Ops Exact Spec ZmodTac FieldTac LinAlg Cholesky Model_KF Model_UKF Spec_Lin Spec_KF_exact Proof_KF_exact Spec_UKF Spec_UKF_run Proof_UKF_get Prop_Kin Proof_UKF.
Set Implicit Arguments.
Unset Strict Implicit.
Unset Printing Implicit Defensive.
Import Order.TTheory GRing.Theory Num.Theory.
Local Close Scope Q_scope.
Local Close Scope Z_scope.
Local Open Scope ring_scope.

(** ** C24 *)
(** The matrix a covariance argument stands for: a scalar P is P times the identity. *)
Definition cov_arg (F : realFieldType) (fsqrt fexp flog : F -> F) n (P : sm (exactO fsqrt fexp flog) n) : 'M[F]_n :=
  match P with Scal s => s%:M | Mat A => A end.
Lemma cov_argE (F : realFieldType) (fsqrt fexp flog : F -> F) n (P : sm (exactO fsqrt fexp flog) n) :
  sm_or (o := exactO fsqrt fexp flog) (mzeros n n) (Some P) = cov_arg P.
Proof. by case: P => [s|A] //; rewrite /cov_arg -scalemx1. Qed.

Theorem C24_merwe : forall (F : realFieldType) (fsqrt fexp flog : F -> F) (n : nat) (alpha beta kappa : F)
    (sqrt : 'M[F]_n -> option 'M[F]_n) (x : 'rV[F]_n) (P : sm (exactO fsqrt fexp flog) n) sig,
  sqrt_ok sqrt -> sym (cov_arg P) -> alpha ^+ 2 * (n%:R + kappa) != 0 ->
  let p := @merwe_points (exactO fsqrt fexp flog) n alpha beta kappa sqrt msub in
  pt_sigmas p x P = Ok sig ->
  represents (pt_Wm p : 'rV[F]_(n + n).+1) (pt_Wc p) sig x (cov_arg P) /\
  wsum (pt_Wc p : 'rV[F]_(n + n).+1) = 2%:R - alpha ^+ 2 + beta.
Proof.
move=> F fsqrt fexp flog n alpha beta kappa sqrt x P sig hs sP h0 p.
set EO := exactO fsqrt fexp flog.
have lamE : (n%:R : F) + (merwe_lambda (o := EO) n alpha kappa : F) = alpha ^+ 2 * (n%:R + kappa).
  by rewrite /merwe_lambda /= expr2 addrC subrK.
have h2 : 2%:R != 0 :> F by rewrite pnatr_eq0.
set N := alpha ^+ 2 * (n%:R + kappa) in h0 lamE.
have lam' : (merwe_lambda (o := EO) n alpha kappa : F) = N - n%:R by rewrite -lamE addrC addKr.
have cE : (1 / 2%:R) / N *+ 2 = N^-1.
  by rewrite mul1r mulrC -mulrnAr -[2%:R^-1 *+ 2]mulr_natl mulfV // mulr1.
have sumE : (N - n%:R) / N + (1 / 2%:R) / N *+ (n + n) = 1.
  by rewrite addnn -mul2n mulrnA cE mulrBl mulfV // -[N^-1 *+ n]mulr_natl subrK.
move=> /sym_pointsP [U hU ok].
split.
- apply: (@sym_represents F fsqrt fexp flog n ((merwe_lambda (o := EO) n alpha kappa : F) + n%:R) x (cov_arg P) U).
  + rewrite cov_argE in hU; apply: hs hU; by rewrite linearZ /= sP.
  + exact: ok.
  + by rewrite -[sadd _ _ _]/((n%:R : F) + (merwe_lambda (o := EO) n alpha kappa : F)) [X in _ * X]addrC !lamE [sdiv _ _ _]/= cE mulVf.
  + by rewrite -[sadd _ _ _]/((n%:R : F) + (merwe_lambda (o := EO) n alpha kappa : F)) lamE lam'.
- rewrite weights_sum -[sadd EO (snat EO n) _]/((n%:R : F) + (merwe_lambda (o := EO) n alpha kappa : F)) lamE lam' /=.
  by rewrite addrAC sumE -expr2 !addrA -[1 + 1]mulr2n.
Qed.
Print Assumptions C24_merwe.

Theorem C24_julier : forall (F : realFieldType) (fsqrt fexp flog : F -> F) (n : nat) (kappa : F)
    (sqrt : 'M[F]_n -> option 'M[F]_n) (x : 'rV[F]_n) (P : sm (exactO fsqrt fexp flog) n) sig,
  sqrt_ok sqrt -> sym (cov_arg P) -> n%:R + kappa != 0 ->
  let p := @julier_points (exactO fsqrt fexp flog) n kappa sqrt msub in
  pt_sigmas p x P = Ok sig ->
  represents (pt_Wm p : 'rV[F]_(n + n).+1) (pt_Wc p) sig x (cov_arg P).
Proof.
move=> F fsqrt fexp flog n kappa sqrt x P sig hs sP h0 p /sym_pointsP [U hU ok].
have h2 : 2%:R != 0 :> F by rewrite pnatr_eq0.
set N := n%:R + kappa in h0 *.
have cE : (1 / 2%:R) / N *+ 2 = N^-1.
  by rewrite mul1r mulrC -mulrnAr -[2%:R^-1 *+ 2]mulr_natl mulfV // mulr1.
apply: (@sym_represents F fsqrt fexp flog n N x (cov_arg P) U).
- rewrite cov_argE in hU; apply: hs hU; by rewrite linearZ /= sP.
- exact: ok.
- by rewrite [sdiv _ _ _]/= cE mulVf.
- rewrite /= -/N addnn -mul2n mulrnA cE -[N^-1 *+ n]mulr_natl -mulrDl addrC mulfV //.
Qed.
Print Assumptions C24_julier.

(** Simplex points; dimension 0 has none.  The square root function must be one. *)
Theorem C24_simplex : forall (F : realFieldType) (fsqrt fexp flog : F -> F) (n : nat)
    (sqrt : 'M[F]_n.+1 -> option 'M[F]_n.+1) (x : 'rV[F]_n.+1) (P : sm (exactO fsqrt fexp flog) n.+1) sig,
  sqrt_ok sqrt -> sym (cov_arg P) -> (forall v, 0 <= v -> fsqrt v ^+ 2 = v) ->
  let p := @simplex_points (exactO fsqrt fexp flog) n.+1 sqrt (@simplex_sub (exactO fsqrt fexp flog) n.+1) in
  pt_sigmas p x P = Ok sig ->
  represents (pt_Wm p : 'rV[F]_n.+2) (pt_Wc p) sig x (cov_arg P).
Proof.
move=> F fsqrt fexp flog n sqrt x P sig hs sP hq p.
set EO := exactO fsqrt fexp flog.
rewrite /p /= /simplex_sigmas eqb_refl slice_all; cbn [negb]; rewrite cov_argE; case e: (sqrt _) => [U|] // h.
have {h} h := Ok_inj h.
set lam := sdiv EO _ _ in h.
have lamE : lam = n.+1%:R / (n.+1%:R + 1) by [].
have l0 : 0 < lam by rewrite lamE divr_gt0 ?addr_gt0 ?ltr0Sn ?ltr01.
have hsum := @istar_sum F fsqrt fexp flog lam n.
have hgram := @istar_gram F fsqrt fexp flog lam l0 hq n.
move: (istar lam n.+1 : 'M[F]_(n.+1, n.+2)) hsum hgram h => B hsum hgram h.
have hU : U^T *m U = cov_arg P by apply: hs e.
set r := fsqrt n.+1%:R.
have rr : r * r = n.+1%:R by rewrite -expr2 hq ?ler0n.
have sigE i : matrix.row i sig = x + r *: (matrix.row i B^T *m U).
  apply/rowP => j; rewrite -h /simplex_sub !mxE.
  transitivity (x^T j 0 - (- (U^T *m (r *: B))) j i).
    by congr (_ - _); [exact: (mx_getE x^T j 0) | rewrite moppE; exact: getE].
  rewrite !mxE opprK; congr (_ + _).
  rewrite mulr_sumr; apply: eq_bigr => k _; rewrite !mxE; by rewrite mulrCA [U k j * _]mulrC.
have w i : (pt_Wm p : 'rV[F]_n.+2) 0 i = (n.+1%:R + 1)^-1 by rewrite /p /= !mxE mul1r.
have n2 : (n.+1%:R + 1 : F) = n.+2%:R by rewrite -[in RHS]addn1 natrD.
have n20 : (n.+2%:R : F) != 0 by rewrite pnatr_eq0.
have ws : wsum (pt_Wm p : 'rV[F]_n.+2) = 1.
  rewrite /wsum (eq_bigr (fun=> n.+2%:R^-1)) => [|i _]; last by rewrite w n2.
  by rewrite sumr_const card_ord -[LHS]mulr_natl mulfV.
have Bsum : \sum_i matrix.row i B^T = 0.
  apply/rowP => j; rewrite summxE mxE; move/matrixP: hsum => /(_ j 0); rewrite !mxE => e0; rewrite -[RHS]e0.
  by apply: eq_bigr => i _; rewrite !mxE mulr1.
split=> //.
- rewrite /wmean (eq_bigr (fun i => n.+2%:R^-1 *: x + (n.+2%:R^-1 * r) *: (matrix.row i B^T *m U))) => [|i _].
    rewrite big_split /= sumr_const card_ord -scaler_sumr -mulmx_suml Bsum mul0mx scaler0 addr0.
    by rewrite scalerMnl -[n.+2%:R^-1 *+ n.+2]mulr_natl mulfV // scale1r.
  by rewrite w n2 sigE scalerDr scalerA.
- rewrite /wcov /wxcov -hU.
  rewrite (eq_bigr (fun i => U^T *m ((n.+2%:R^-1 * (r * r)) *: ((matrix.row i B^T)^T *m matrix.row i B^T)) *m U)) => [|i _].
    rewrite -mulmx_suml -mulmx_sumr -scaler_sumr.
    have -> : \sum_i (matrix.row i B^T)^T *m matrix.row i B^T = B *m B^T.
      rewrite -[X in X *m B^T]trmxK -[X in _ = _ *m X]mul1mx -diag_const_mx diag_sum; apply: eq_bigr => i _; by rewrite mxE scale1r.
    rewrite hgram rr lamE n2 invf_div scale_scalar_mx mulrA mulrAC mulrC -!mulrA.
    have -> : n.+2%:R * (n.+2%:R^-1 * (n.+1%:R * n.+1%:R^-1)) = 1 :> F by rewrite !mulfV ?pnatr_eq0 // mulr1 mulfV.
    by rewrite mulmx1.
  have -> : (pt_Wc p : 'rV[F]_n.+2) 0 i = n.+2%:R^-1 by rewrite -n2 -(w i).
  rewrite sigE [x + _]addrC addrK trmxZ trmxM scalemxAr' !scalemxAl' scalemxAr' !scalemxAl' !scalerA !mulmxA.
  by rewrite mulrA.
Qed.
Print Assumptions C24_simplex.

(** When they raise: ValueError exactly for an x of the wrong size, otherwise LinAlgError exactly when the
    square-root routine fails on the scaled covariance.  Any arithmetic. *)
Theorem C24_exceptions : forall (o : nops) (n m : nat) (x : M o 1 m) (P : sm o n) (alpha beta kappa : sc o) sqrt sub sub',
  let raises (r : option exn) T (a : res T) := match a with Ok _ => r = None | Err e => r = Some e end in
  let why c := if Nat.eqb n m then (if sqrt (c (sm_or (mzeros n n) (Some P))) is None then Some LinAlgError else None) else Some ValueError in
  raises (why (mscale (sadd o (merwe_lambda n alpha kappa) (snat o n)))) _ (pt_sigmas (merwe_points alpha beta kappa sqrt sub) x P) /\
  raises (why (mscale (sadd o (snat o n) kappa))) _ (pt_sigmas (julier_points kappa sqrt sub) x P) /\
  raises (why id) _ (pt_sigmas (simplex_points sqrt sub') x P).
Proof.
move=> o n m x P alpha beta kappa sqrt sub sub' raises why.
rewrite /= /sym_points /simplex_sigmas /why /raises.
by case: (Nat.eqb n m) => //=; do !split; case: (sqrt _).
Qed.
Print Assumptions C24_exceptions.

(** An upper factor always exists for positive semidefinite arguments, so the hypotheses are met. *)
Definition some_sqrt (F : rcfType) n (A : 'M[F]_n) : option 'M[F]_n := if (chol A)^T *m chol A == A then Some (chol A) else None.
Lemma some_sqrt_ok (F : rcfType) n : sqrt_ok (@some_sqrt F n).
Proof. by move=> A U _; rewrite /some_sqrt; case: eqP => // h [<-]. Qed.
Lemma some_sqrt_psd (F : rcfType) n (A : 'M[F]_n) : psd A -> some_sqrt A = Some (chol A).
Proof. by move=> /cholP /andP[h _]; rewrite /some_sqrt h. Qed.

Example C24_instance (F : rcfType) (n : nat) (x : 'rV[F]_n.+1) (P : 'M[F]_n.+1) : psd P ->
  let EO := exactO Num.sqrt id id in
  (exists sig, pt_sigmas (@merwe_points EO n.+1 (10%:R^-1 : F) 2%:R 1 (@some_sqrt F n.+1) msub) x (@Mat EO n.+1 P) = Ok sig) /\
  (exists sig, pt_sigmas (@simplex_points EO n.+1 (@some_sqrt F n.+1) (@simplex_sub EO n.+1)) x (@Mat EO n.+1 P) = Ok sig) /\
  (forall v : F, 0 <= v -> Num.sqrt v ^+ 2 = v) /\ (10%:R^-1 : F) ^+ 2 * (n.+1%:R + 1) != 0.
Proof.
move=> hP EO.
have c0 : 0 <= (10%:R^-1 : F) ^+ 2 * (n.+1%:R + 1) by rewrite mulr_ge0 ?sqr_ge0 // addr_ge0 ?ler0n ?ler01.
split; last split; last split.
- rewrite /= /sym_points eqb_refl; cbn [negb].
  have -> : mscale (sadd EO (merwe_lambda (o := EO) n.+1 10%:R^-1 1) (snat EO n.+1)) (sm_or (o := EO) (mzeros n.+1 n.+1) (Some (Mat (P : M EO n.+1 n.+1))))
     = ((10%:R^-1 : F) ^+ 2 * (n.+1%:R + 1)) *: P by rewrite /= subrK expr2.
  rewrite some_sqrt_psd; [by eexists|exact: psdZ].
- rewrite /= /simplex_sigmas eqb_refl; cbn [negb].
  rewrite -[sm_or _ _]/P some_sqrt_psd //; by eexists.
- exact: sqr_sqrtr.
- rewrite mulf_neq0 // ?expf_neq0 // ?invr_eq0 ?pnatr_eq0 // gt_eqF // addr_gt0 ?ltr01 ?ltr0Sn //.
Qed.

(** ** C25 *)
(** On any points and weights: default mean and residual, or a hand-written residual that subtracts. *)
Theorem C25_transform : forall (F : realFieldType) (fsqrt fexp flog : F -> F) (k n : nat) (X : 'M[F]_(k, n)) (wm wc : 'rV[F]_k)
    (Q : option 'M[F]_n) (r : option (M (exactO fsqrt fexp flog) 1 n -> M (exactO fsqrt fexp flog) 1 n -> M (exactO fsqrt fexp flog) 1 n)),
  (forall f, r = Some f -> forall a b : 'rV[F]_n, f a b = a - b) ->
  unscented_transform (o := exactO fsqrt fexp flog) X wm wc Q None r = (wmean wm X, wcov wc X (wmean wm X) + (if Q is Some q then q else 0)).
Proof.
move=> F fsqrt fexp flog k n X wm wc Q r h; rewrite utE /=; congr (_, _).
have -> : (if r is Some f then \sum_i wc 0 i *: ((f (matrix.row i X) (wmean wm X))^T *m f (matrix.row i X) (wmean wm X)) else wcov wc X (wmean wm X))
   = wcov wc X (wmean wm X).
  by case: r h => // f h; apply: eq_bigr => i _; rewrite (h f).
by case: Q => //; rewrite addr0.
Qed.
Print Assumptions C25_transform.

(** Pushing points that represent (x, P) through z = A x + b gives A x + b and A P A^T + noise. *)
Theorem C25_affine : forall (F : realFieldType) (fsqrt fexp flog : F -> F) (k n m : nat) (X : 'M[F]_(k, n)) (wm wc : 'rV[F]_k) x P
    (A : 'M[F]_(m, n)) (b : 'rV[F]_m) (Q : option 'M[F]_m) r,
  (forall f, r = Some f -> forall a b : 'rV[F]_m, f a b = a - b) -> represents wm wc X x P ->
  unscented_transform (o := exactO fsqrt fexp flog) (affine_rows X A b) wm wc Q None r =
  (x *m A^T + b, A *m P *m A^T + (if Q is Some q then q else 0)).
Proof.
move=> F fsqrt fexp flog k n m X wm wc x P A b Q r hr hX; rewrite C25_transform //.
by have [_ -> ->] := represents_affine A b hX.
Qed.
Print Assumptions C25_affine.

(** With nonnegative covariance weights the covariance is positive semidefinite whatever the points. *)
Theorem C25_psd : forall (F : realFieldType) (fsqrt fexp flog : F -> F) (k n : nat) (X : 'M[F]_(k, n)) (wm wc : 'rV[F]_k)
    (Q : option 'M[F]_n) mf rf,
  (forall i, 0 <= wc 0 i) -> (forall q, Q = Some q -> psd q) ->
  psd (snd (unscented_transform (o := exactO fsqrt fexp flog) X wm wc Q mf rf) : 'M[F]_n).
Proof.
move=> F fsqrt fexp flog k n X wm wc Q mf rf hw hQ; rewrite utE /=.
set x := (if mf is Some f then _ else _); move: x => x.
have psum (Y : 'I_k -> 'rV[F]_n) : psd (\sum_i wc 0 i *: ((Y i)^T *m Y i)).
  elim/big_ind: _ => [|A B|i _]; [exact: psd0|exact: psdD|].
  by apply: psdZ => //; have := psd_gram (Y i)^T; rewrite trmxK.
have h : psd (if rf is Some r then \sum_i wc 0 i *: ((r (matrix.row i X) x)^T *m r (matrix.row i X) x) else wcov wc X x).
  by case: rf => [r|]; [exact: (psum (fun i => r (matrix.row i X) x))|exact: (psum (fun i => matrix.row i X - x))].
by case: Q hQ => [q|] hQ //; apply: psdD => //; apply: hQ.
Qed.
Print Assumptions C25_psd.
