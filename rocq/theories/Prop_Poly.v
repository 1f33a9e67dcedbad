(** * Sigma points and polynomials (C79): the means the unscented and cubature filters predict are exact
    for every process and measurement function of degree at most three. *)
From Coq Require Import ZArith QArith.
From mathcomp Require Import all_ssreflect all_algebra.
From Verif Require Import Ops Exact Spec ZmodTac FieldTac LinAlg Cholesky Model_Common Model_KF Model_UKF Model_CKF Spec_UKF Spec_Poly Prop_Kin Proof_UKF Prop_UKF Proof_CKF.
Set Implicit Arguments.
Unset Strict Implicit.
Unset Printing Implicit Defensive.
Import Order.TTheory GRing.Theory Num.Theory.
Local Close Scope Q_scope.
Local Close Scope Z_scope.
Local Open Scope ring_scope.

Section Moments.
Variable F : realFieldType.
Add Field fld : (fF_theory F).
Variables (k n : nat) (w : 'rV[F]_k) (X : 'M[F]_(k, n)) (x : 'rV[F]_n) (P : 'M[F]_n).
Hypothesis hr : represents w w X x P.
Lemma six : 1 + (1 + (- 2%:R) ^+ 3) = - 6%:R :> F.
Proof. by toF; ring. Qed.
Let E (g : 'I_k -> F) := \sum_i w 0 i * g i.
Let d i a := X i a - x 0 a.

Lemma E_lin (g h : 'I_k -> F) c : E (fun i => g i + c * h i) = E g + c * E h.
Proof. by rewrite /E mulr_sumr -big_split; apply: eq_bigr => i _ /=; rewrite mulrDr mulrCA. Qed.
Lemma E_1 c : E (fun=> c) = c.
Proof. by case: hr => h _ _; rewrite /E -mulr_suml -[RHS]mul1r -h. Qed.
Lemma E_v a : E (fun i => X i a) = x 0 a.
Proof. by case: hr => _ <- _; rewrite /wmean summxE; apply: eq_bigr => i _; rewrite !mxE. Qed.
Lemma E_d a : E (fun i => d i a) = 0.
Proof.
have e : E (fun i => d i a) = E (fun i => X i a + (-1) * x 0 a) by apply: eq_bigr => i _; rewrite /d mulN1r.
by rewrite e (E_lin _ (fun=> x 0 a)) E_1 E_v mulN1r subrr.
Qed.
Lemma E_dd a b : E (fun i => d i a * d i b) = P a b.
Proof.
case: hr => _ _ <-; rewrite /wcov /wxcov summxE; apply: eq_bigr => i _.
by rewrite !mxE big_ord1 !mxE.
Qed.
Lemma E_vv a b : E (fun i => X i a * X i b) = x 0 a * x 0 b + P a b.
Proof.
transitivity (E (fun i => ((x 0 a * x 0 b + x 0 a * d i b) + x 0 b * d i a) + 1 * (d i a * d i b))).
  by apply: eq_bigr => i _; congr (_ * _); rewrite /d; toF; ring.
by rewrite (E_lin _ (fun i => d i a * d i b)) !(E_lin _ (d^~ _)) E_1 !E_d E_dd !mulr0 !addr0 mul1r.
Qed.
Lemma E_vvv a b c : E (fun i => d i a * d i b * d i c) = 0 ->
  E (fun i => X i a * X i b * X i c) = x 0 a * x 0 b * x 0 c + x 0 a * P b c + x 0 b * P a c + x 0 c * P a b.
Proof.
move=> h.
transitivity (E (fun i => ((((((x 0 a * x 0 b * x 0 c + (x 0 a * x 0 b) * d i c) + (x 0 a * x 0 c) * d i b) + (x 0 b * x 0 c) * d i a)
   + x 0 a * (d i b * d i c)) + x 0 b * (d i a * d i c)) + x 0 c * (d i a * d i b)) + 1 * (d i a * d i b * d i c))).
  by apply: eq_bigr => i _; congr (_ * _); rewrite /d; toF; ring.
rewrite (E_lin _ (fun i => d i a * d i b * d i c)) !(E_lin _ (fun i => d i _ * d i _)) !(E_lin _ (d^~ _)).
by rewrite E_1 !E_d !E_dd h !mulr0 !addr0.
Qed.

Lemma wexp_split (f : cubic F n) : wexp w X (poly_at f) =
  q0 f + \sum_a q1 f a * E (fun i => X i a) + \sum_a \sum_b q2 f a b * E (fun i => X i a * X i b)
  + \sum_a \sum_b \sum_c q3 f a b c * E (fun i => X i a * X i b * X i c).
Proof.
have ex T (t : T -> F) (g : 'I_k -> T -> F) (r : seq T) :
    \sum_(a <- r) t a * E (g^~ a) = E (fun i => \sum_(a <- r) t a * g i a).
  rewrite /E [RHS](eq_bigr (fun i => \sum_(a <- r) t a * (w 0 i * g i a))) => [|i _]; last first.
    by rewrite mulr_sumr; apply: eq_bigr => a _; rewrite mulrCA.
  by rewrite exchange_big; apply: eq_bigr => a _; rewrite mulr_sumr.
have sm T (g : 'I_k -> T -> F) (r : seq T) : \sum_(a <- r) E (g^~ a) = E (fun i => \sum_(a <- r) g i a).
  by rewrite /E exchange_big; apply: eq_bigr => i _; rewrite mulr_sumr.
rewrite (ex _ (q1 f) (fun i a => X i a)).
rewrite (eq_bigr (fun a => E (fun i => \sum_b q2 f a b * (X i a * X i b)))) => [|a _]; last first.
  exact: (ex _ (q2 f a) (fun i b => X i a * X i b)).
rewrite (sm _ (fun i a => \sum_b q2 f a b * (X i a * X i b))).
rewrite [X in _ = _ + X](eq_bigr (fun a => E (fun i => \sum_b \sum_c q3 f a b c * (X i a * X i b * X i c)))) => [|a _]; last first.
  rewrite -(sm _ (fun i b => \sum_c q3 f a b c * (X i a * X i b * X i c))); apply: eq_bigr => b _.
  exact: (ex _ (q3 f a b) (fun i c => X i a * X i b * X i c)).
rewrite (sm _ (fun i a => \sum_b \sum_c q3 f a b c * (X i a * X i b * X i c))).
rewrite -[in RHS](E_1 (q0 f)) /E -!big_split; apply: eq_bigr => i _ /=; rewrite -!mulrDr; congr (_ * _).
rewrite /poly_at; congr (_ + _ + _ + _).
- by apply: eq_bigr => a _; rewrite mxE.
- by apply: eq_bigr => a _; apply: eq_bigr => b _; rewrite !mxE.
- by apply: eq_bigr => a _; apply: eq_bigr => b _; apply: eq_bigr => c _; rewrite !mxE.
Qed.

Lemma wexp_quadratic (f : cubic F n) : quadratic f -> wexp w X (poly_at f) = gauss_mean f x P.
Proof.
move=> h; rewrite wexp_split /gauss_mean; congr (_ + _ + _ + _).
- by apply: eq_bigr => a _; rewrite E_v.
- by apply: eq_bigr => a _; apply: eq_bigr => b _; rewrite E_vv.
- by apply: eq_bigr => a _; apply: eq_bigr => b _; apply: eq_bigr => c _; rewrite h !mul0r.
Qed.
Lemma wexp_cubic (f : cubic F n) :
  (forall a b c, \sum_i w 0 i * ((X i a - x 0 a) * (X i b - x 0 b) * (X i c - x 0 c)) = 0) ->
  wexp w X (poly_at f) = gauss_mean f x P.
Proof.
move=> h; rewrite wexp_split /gauss_mean; congr (_ + _ + _ + _).
- by apply: eq_bigr => a _; rewrite E_v.
- by apply: eq_bigr => a _; apply: eq_bigr => b _; rewrite E_vv.
- by apply: eq_bigr => a _; apply: eq_bigr => b _; apply: eq_bigr => c _; rewrite E_vvv // /E /d h.
Qed.
End Moments.

(** The expectation of a polynomial of degree three depends on the mean and the covariance only, once the
    third central moments vanish; of degree two, always. *)
Theorem C79_expectation : forall (F : realFieldType) (k n : nat) (w : 'rV[F]_k) (X : 'M[F]_(k, n)) x P (f : cubic F n),
  (third_order w X x P -> wexp w X (poly_at f) = gauss_mean f x P) /\
  (represents w w X x P -> quadratic f -> wexp w X (poly_at f) = gauss_mean f x P).
Proof. by move=> F k n w X x P f; split=> [[h1 h2]|h1 h2]; [exact: wexp_cubic|exact: wexp_quadratic]. Qed.
Print Assumptions C79_expectation.

Section Points.
Variable F : realFieldType.
Variables (fsqrt fexp flog : F -> F).
Notation EO := (exactO fsqrt fexp flog).

Lemma sym_third n (x : 'rV[F]_n) (U : 'M[F]_n) (sig : 'M[F]_((n + n).+1, n)) wm0 cw a b c :
  @pt_ok F fsqrt fexp flog n (fun a b : 'rV[F]_n => a - b) x U sig ->
  \sum_i (weights (o := EO) (S (n + n)) wm0 cw : 'rV[F]_(n + n).+1) 0 i * ((sig i a - x 0 a) * (sig i b - x 0 b) * (sig i c - x 0 c)) = 0.
Proof.
move=> [h0 hl hr].
have e i j v : matrix.row i sig = v -> sig i j = v 0 j by move=> <-; rewrite mxE.
rewrite sum_sym !(e _ _ _ h0) !subrr !mulr0 add0r big1 // => i _.
rewrite !(@weightsS F fsqrt fexp flog) !(e _ _ _ (hl i)) !(e _ _ _ (hr i)) !mxE !opprK.
have p (u v : F) : u + v - u = v by rewrite addrC addKr.
by rewrite !p -mulrDr !mulrN !mulNr opprK addrN mulr0.
Qed.

Lemma merwe_third n (alpha beta kappa : F) (sqrt : 'M[F]_n -> option 'M[F]_n) (x : 'rV[F]_n) (P : sm EO n) sig :
  sqrt_ok sqrt -> sym (cov_arg P) -> alpha ^+ 2 * (n%:R + kappa) != 0 ->
  let p := @merwe_points EO n alpha beta kappa sqrt msub in
  pt_sigmas p x P = Ok sig -> third_order (pt_Wm p : 'rV[F]_(n + n).+1) sig x (cov_arg P).
Proof.
move=> hs sP h0 p h.
(* with beta chosen so that the first covariance weight is the first mean weight, the points are the same *)
have := @C24_merwe F fsqrt fexp flog n alpha (alpha ^+ 2 - 1) kappa sqrt x P sig hs sP h0 h.
set p' := merwe_points _ _ _ _ _; move=> [hr _].
have ec : (pt_Wc p' : 'rV[F]_(n + n).+1) = pt_Wm p.
  apply/rowP => i; rewrite /p' /p /=.
  have [j ->|->] := unliftP ord0 i; first by rewrite !(@weightsS F fsqrt fexp flog).
  have z (u : F) : u + (1 - alpha * alpha + (alpha ^+ 2 - 1)) = u by rewrite -expr2 addrA subrK subrr addr0.
  rewrite !(@weights0 F fsqrt fexp flog) /=; exact: z.
split.
- by case: hr => r1 r2 r3; split=> //; rewrite -ec.
- move=> a b c; have [U _ ok] := sym_pointsP h; exact: sym_third ok.
Qed.

Lemma julier_third n (kappa : F) (sqrt : 'M[F]_n -> option 'M[F]_n) (x : 'rV[F]_n) (P : sm EO n) sig :
  sqrt_ok sqrt -> sym (cov_arg P) -> n%:R + kappa != 0 ->
  let p := @julier_points EO n kappa sqrt msub in
  pt_sigmas p x P = Ok sig -> third_order (pt_Wm p : 'rV[F]_(n + n).+1) sig x (cov_arg P).
Proof.
move=> hs sP h0 p h; split; first exact: C24_julier h.
by move=> a b c; have [U _ ok] := sym_pointsP h; exact: sym_third ok.
Qed.

Lemma cubature_third n chol (x : 'cV[F]_n) (P : 'M[F]_n) sig :
  (0 < n)%N -> fsqrt n%:R ^+ 2 = n%:R -> (forall U, chol P = Some U -> U^T *m U = P) ->
  spherical_radial_sigmas (o := EO) chol x P = Ok sig ->
  third_order (equal_weights F (n + n)) sig x^T P.
Proof.
move=> n0 hs hc h; split; first exact: sigmas_represent h.
have [U _ hr] := sigmasP h.
have e i j v : matrix.row i (sig : 'M[F]_(n + n, n)) = v -> (sig : 'M[F]_(n + n, n)) i j = v 0 j by move=> <-; rewrite mxE.
move=> a b c; rewrite big_split_ord -big_split big1 //= => i _.
rewrite ![equal_weights _ _ _ _]mxE; have [h1 h2] := hr i.
rewrite !(e _ _ _ h1) !(e _ _ _ h2) !mxE.
have p (u v : F) : u + v - u = v by rewrite addrC addKr.
by rewrite !p -mulrDr !mulrN !mulNr opprK addrN mulr0.
Qed.
End Points.

(** The points of MerweScaledSigmaPoints and JulierSigmaPoints with the mean weights, and the cubature
    points with equal weights, have the given mean and covariance and zero third central moments. *)
Theorem C79_points : forall (F : realFieldType) (fsqrt fexp flog : F -> F) (n : nat) (sqrt : 'M[F]_n -> option 'M[F]_n)
    (x : 'rV[F]_n) (P : sm (exactO fsqrt fexp flog) n) (A : 'M[F]_n), sqrt_ok sqrt -> sym (cov_arg P) -> sym A ->
  (forall (alpha beta kappa : F) sig, alpha ^+ 2 * (n%:R + kappa) != 0 ->
     let p := @merwe_points (exactO fsqrt fexp flog) n alpha beta kappa sqrt msub in
     pt_sigmas p x P = Ok sig -> third_order (pt_Wm p : 'rV[F]_(n + n).+1) sig x (cov_arg P)) /\
  (forall (kappa : F) sig, n%:R + kappa != 0 ->
     let p := @julier_points (exactO fsqrt fexp flog) n kappa sqrt msub in
     pt_sigmas p x P = Ok sig -> third_order (pt_Wm p : 'rV[F]_(n + n).+1) sig x (cov_arg P)) /\
  (forall sig, (0 < n)%N -> fsqrt n%:R ^+ 2 = n%:R ->
     spherical_radial_sigmas (o := exactO fsqrt fexp flog) sqrt (x^T : 'cV[F]_n) A = Ok sig ->
     third_order (equal_weights F (n + n)) sig x A).
Proof.
move=> F f1 f2 f3 n sqrt x P A hs sP sA; split; [|split].
- by move=> alpha beta kappa sig h0 p; apply: merwe_third.
- by move=> kappa sig h0; apply: julier_third.
- by move=> sig n0 h h1; have := cubature_third n0 h (fun U => hs A U sA) h1; rewrite trmxK.
Qed.
Print Assumptions C79_points.

Section Filters.
Variable F : realFieldType.
Variables (fsqrt fexp flog : F -> F).
Notation EO := (exactO fsqrt fexp flog).
Variables n m : nat.

(** The filter draws Merwe or Julier points and uses their weights. *)
Definition symmetric_points (c : uk_cfg EO n m (S (n + n))) : Prop :=
  exists2 sqrt : 'M[F]_n -> option 'M[F]_n, sqrt_ok sqrt &
  ((exists alpha beta kappa : F, alpha ^+ 2 * (n%:R + kappa) != 0 /\
      uc_points c = @merwe_points EO n alpha beta kappa sqrt msub) \/
   (exists kappa : F, n%:R + kappa != 0 /\ uc_points c = @julier_points EO n kappa sqrt msub)) /\
  uc_Wm c = pt_Wm (uc_points c).

Lemma symmetric_third c (x : 'rV[F]_n) (P : 'M[F]_n) sig : symmetric_points c -> sym P ->
  pt_sigmas (uc_points c) x (Mat (P : M EO n n)) = Ok sig -> third_order (uc_Wm c : 'rV[F]_(n + n).+1) sig x P.
Proof.
move=> [sqrt hs [[[al [be [ka [h0 hp]]]]|[ka [h0 hp]]] hw]] sP; rewrite hw hp => h.
- exact: (merwe_third hs (P := Mat (P : M EO n n)) sP h0 h).
- exact: (julier_third hs (P := Mat (P : M EO n n)) sP h0 h).
Qed.

Lemma wmean_fun k p q (w : 'rV[F]_k) (X : 'M[F]_(k, p)) (g : 'rV[F]_p -> 'rV[F]_q) out j :
  wmean w (map_rows (o := EO) g X out : 'M[F]_(k, q)) 0 j = wexp w X (fun v => g v 0 j).
Proof. by rewrite map_rowsE /wmean summxE; apply: eq_bigr => i _; rewrite !mxE. Qed.
Lemma wexp_ext k p (w : 'rV[F]_k) (X : 'M[F]_(k, p)) (g h : 'rV[F]_p -> F) : (forall v, g v = h v) -> wexp w X g = wexp w X h.
Proof. by move=> e; apply: eq_bigr => i _; rewrite e. Qed.

Lemma wcov_sym k (w : 'rV[F]_k) (X : 'M[F]_(k, n)) x : sym (wcov w X x).
Proof.
rewrite /sym /wcov /wxcov raddf_sum; apply: eq_bigr => i _ /=.
by rewrite linearZ /= trmx_mul trmxK.
Qed.
End Filters.

(** UnscentedKalmanFilter.  The predicted estimate is the mean of the transformed state, and the
    measurement the next update subtracts from z is the mean of the measurement of the predicted state:
    for every random state with the filter's mean and covariance and zero third central moments, when the
    components of fx and hx are polynomials of degree at most three. *)
Theorem C79_ukf : forall (F : realFieldType) (fsqrt fexp flog : F -> F) (n m : nat)
    (c : uk_cfg (exactO fsqrt fexp flog) n m (S (n + n))) dt fx (s s' : uk_st (exactO fsqrt fexp flog) n m (S (n + n)))
    (f : 'I_n -> cubic F n),
  symmetric_points c -> uc_x_mean c = None -> sym (u_P s : 'M[F]_n) ->
  (forall (v : 'rV[F]_n) j, (opt_or (uc_fx c) fx v (opt_or (uc_dt c) dt) : 'rV[F]_n) 0 j = poly_at (f j) v) ->
  uk_predict dt fx c s = (s', None) ->
  (forall j, (u_x s' : 'rV[F]_n) 0 j = gauss_mean (f j) (u_x s) (u_P s)) /\
  (forall k (w : 'rV[F]_k) (X : 'M[F]_(k, n)) j, third_order w X (u_x s) (u_P s) ->
     (u_x s' : 'rV[F]_n) 0 j = wexp w X (fun v => (opt_or (uc_fx c) fx v (opt_or (uc_dt c) dt) : 'rV[F]_n) 0 j)) /\
  (forall (z : 'rV[F]_m) R hx (g : 'I_m -> cubic F n) s'', sym (uc_Q c : 'M[F]_n) ->
     uc_residual_x c = None -> uc_z_mean c = None -> uc_residual_z c = None ->
     (forall (v : 'rV[F]_n) j, (opt_or (uc_hx c) hx v : 'rV[F]_m) 0 j = poly_at (g j) v) ->
     uk_update (Some (z : M (exactO fsqrt fexp flog) 1 m)) R hx c s' = (s'', None) ->
     forall k (w : 'rV[F]_k) (X : 'M[F]_(k, n)) j, third_order w X (u_x s') (u_P s') ->
       (u_y s'' : 'rV[F]_m) 0 j = z 0 j - wexp w X (fun v => (opt_or (uc_hx c) hx v : 'rV[F]_m) 0 j)).
Proof.
move=> F f1 f2 f3 n m c dt fx s s' f hp hx0 sP hf.
rewrite /uk_predict /uk_process_sigmas; case e: (pt_sigmas _ _ _) => [sig|] //.
have t3 := symmetric_third hp sP e.
rewrite utE hx0; lazy beta iota zeta.
set x1 := wmean _ _; set P1 := (X in Mat X); case e': (pt_sigmas (uc_points c) (x1 : M (exactO f1 f2 f3) 1 n) (Mat (P1 : M (exactO f1 f2 f3) n n))) => [sf|] // [<-]; cbn [u_x u_P u_sigmas_f].
have mE j : wmean (uc_Wm c : 'rV[F]_(n + n).+1)
    (map_rows (o := exactO f1 f2 f3) (fun x => opt_or (uc_fx c) fx x (opt_or (uc_dt c) dt)) sig (u_sigmas_f s) : 'M[F]_((n + n).+1, n)) 0 j
    = gauss_mean (f j) (u_x s) (u_P s).
  rewrite wmean_fun (wexp_ext _ _ (h := poly_at (f j))) => [|v]; last exact: hf.
  by apply: (proj1 (C79_expectation _ _ _ _ (f j))); exact: t3.
split=> //; split.
- move=> k w X j hw; rewrite [LHS]mE (wexp_ext _ _ (h := poly_at (f j))) => [|v]; last exact: hf.
  by apply: esym; apply: (proj1 (C79_expectation _ _ _ _ (f j))).
- move=> z R hx g s'' sQ rx0 z0 rz0 hg.
  have sP' : sym (P1 : 'M[F]_n) by rewrite /P1 rx0 /sym linearD /= sQ wcov_sym.
  have t3' := symmetric_third hp sP' e'.
  rewrite /uk_update; cbn [u_sigmas_f u_x u_P].
  rewrite utE z0 rz0; lazy beta iota zeta; case: (uc_inv c _) => [SI|] // [<-]; cbn [u_y].
  move=> k w X j hw; rewrite /resid -[LHS]/((z - _) 0 j) mxE; congr (_ + _); rewrite mxE; congr (- _).
  rewrite wmean_fun !(wexp_ext _ _ (h := poly_at (g j))) => [|v|v]; try exact: hg.
  rewrite (proj1 (C79_expectation _ _ _ _ (g j)) t3'); apply: esym.
  exact: (proj1 (C79_expectation _ _ _ _ (g j)) hw).
Qed.
Print Assumptions C79_ukf.

(** CubatureKalmanFilter.predict likewise. *)
Theorem C79_ckf : forall (F : realFieldType) (fsqrt fexp flog : F -> F) (n m : nat)
    (c : ck_cfg (exactO fsqrt fexp flog) n m) dt (s s' : ck_st (exactO fsqrt fexp flog) n m) (f : 'I_n -> cubic F n),
  (0 < n)%N -> fsqrt n%:R ^+ 2 = n%:R -> sqrt_ok (cc_chol c : 'M[F]_n -> option 'M[F]_n) -> sym (c_P s : 'M[F]_n) ->
  (forall (v : 'rV[F]_n) j, (cc_fx c v (opt_or (cc_dt c) dt) : 'rV[F]_n) 0 j = poly_at (f j) v) ->
  ck_predict dt c s = (s', None) ->
  (forall j, (c_x s' : 'cV[F]_n) j 0 = gauss_mean (f j) (c_x s : 'cV[F]_n)^T (c_P s)) /\
  (forall k (w : 'rV[F]_k) (X : 'M[F]_(k, n)) j, third_order w X (c_x s : 'cV[F]_n)^T (c_P s) ->
     (c_x s' : 'cV[F]_n) j 0 = wexp w X (fun v => (cc_fx c v (opt_or (cc_dt c) dt) : 'rV[F]_n) 0 j)).
Proof.
move=> F f1 f2 f3 n m c dt s s' f n0 hs hc sP hf.
rewrite /ck_predict; case e: (spherical_radial_sigmas _ _ _) => [sig|] //.
have t3 := cubature_third n0 hs (fun U => hc (c_P s) U sP) e.
rewrite transformE ?addn_gt0 ?n0 // => -[<-]; cbn [c_x].
have mE j : ((wmean (equal_weights F (n + n))
    (map_rows (o := exactO f1 f2 f3) (fun x => cc_fx c x (opt_or (cc_dt c) dt)) sig (c_sigmas_f s) : 'M[F]_(n + n, n)))^T : 'cV[F]_n) j 0
    = gauss_mean (f j) (c_x s : 'cV[F]_n)^T (c_P s).
  rewrite mxE wmean_fun (wexp_ext _ _ (h := poly_at (f j))) => [|v]; last exact: hf.
  by apply: (proj1 (C79_expectation _ _ _ _ (f j))); exact: t3.
split=> // k w X j hw; rewrite [LHS]mE (wexp_ext _ _ (h := poly_at (f j))) => [|v]; last exact: hf.
by apply: esym; apply: (proj1 (C79_expectation _ _ _ _ (f j))).
Qed.
Print Assumptions C79_ckf.

(** Simplex points: exact for polynomials of degree two. *)
Theorem C79_simplex : forall (F : realFieldType) (fsqrt fexp flog : F -> F) (n : nat)
    (sqrt : 'M[F]_n.+1 -> option 'M[F]_n.+1) (x : 'rV[F]_n.+1) (P : sm (exactO fsqrt fexp flog) n.+1) sig (f : cubic F n.+1),
  sqrt_ok sqrt -> sym (cov_arg P) -> (forall v, 0 <= v -> fsqrt v ^+ 2 = v) -> quadratic f ->
  let p := @simplex_points (exactO fsqrt fexp flog) n.+1 sqrt (@simplex_sub (exactO fsqrt fexp flog) n.+1) in
  pt_sigmas p x P = Ok sig ->
  wexp (pt_Wm p : 'rV[F]_n.+2) sig (poly_at f) = gauss_mean f x (cov_arg P).
Proof.
move=> F f1 f2 f3 n sqrt x P sig f hs sP hq h2 p h.
by apply: (proj2 (C79_expectation _ _ _ _ f)) => //; exact: (C24_simplex hs sP hq h).
Qed.
Print Assumptions C79_simplex.

Lemma simplex_rows (F : realFieldType) (fsqrt fexp flog : F -> F) (n : nat) (sqrt : 'M[F]_n.+1 -> option 'M[F]_n.+1)
    (x : 'rV[F]_n.+1) (P : sm (exactO fsqrt fexp flog) n.+1) U : sqrt (cov_arg P) = Some U ->
  exists2 sig : 'M[F]_(n.+2, n.+1),
    pt_sigmas (@simplex_points (exactO fsqrt fexp flog) n.+1 sqrt (@simplex_sub (exactO fsqrt fexp flog) n.+1)) x P = Ok sig &
    forall i, matrix.row i sig = x + fsqrt n.+1%:R *:
      (matrix.row i (istar (o := exactO fsqrt fexp flog) (n.+1%:R / (n.+1%:R + 1) : F) n.+1 : 'M[F]_(n.+1, n.+2))^T *m U).
Proof.
move=> e; rewrite /simplex_points; cbn [pt_sigmas]; rewrite /simplex_sigmas eqb_refl slice_all; cbn [negb]; rewrite cov_argE e.
set lam := sdiv _ _ _.
have -> : n.+1%:R / (n.+1%:R + 1) = lam by [].
move: (istar lam n.+1 : 'M[F]_(n.+1, n.+2)) => B.
eexists; first reflexivity; move=> i.
set r := fsqrt n.+1%:R.
apply/rowP => j; rewrite /simplex_sub !mxE.
transitivity (x^T j 0 - (- (U^T *m (r *: B))) j i).
  by congr (_ - _); [exact: (mx_getE x^T j 0) | rewrite moppE; exact: getE].
rewrite !mxE opprK; congr (_ + _).
rewrite mulr_sumr; apply: eq_bigr => k _; rewrite !mxE; by rewrite mulrCA [U k j * _]mulrC.
Qed.

(** Degree three is too much for simplex points: for the cube of the second coordinate of a standard vector
    in two dimensions their mean is not the expectation, 0. *)
Theorem C79_simplex_cubic_refuted : forall (F : realFieldType) (fsqrt fexp flog : F -> F),
  (forall v, 0 <= v -> fsqrt v ^+ 2 = v) ->
  let EO := exactO fsqrt fexp flog in
  let f := @mkCubic F 2 0 (fun=> 0) (fun _ _ => 0) (fun a b c => ((a == 1) && (b == 1) && (c == 1))%:R) in
  exists (sqrt : 'M[F]_2 -> option 'M[F]_2) (sig : 'M[F]_(3, 2)),
    let p := @simplex_points EO 2 sqrt (@simplex_sub EO 2) in
    [/\ sqrt_ok sqrt, pt_sigmas p (0 : 'rV[F]_2) (Mat (1%:M : M EO 2 2)) = Ok sig,
        forall v : 'rV[F]_2, poly_at f v = v 0 1 ^+ 3,
        gauss_mean f 0 1%:M = 0 & wexp (pt_Wm p : 'rV[F]_3) sig (poly_at f) != 0].
Proof.
move=> F f1 f2 f3 hq EO f.
pose sqrt (A : 'M[F]_2) := if A == 1%:M then Some (1%:M : 'M[F]_2) else None.
have hs : sqrt_ok sqrt by move=> A U _; rewrite /sqrt; case: eqP => // -> [<-]; rewrite trmx1 mulmx1.
have big2 (g : 'I_2 -> F) : \sum_a g a = g 0 + g 1.
  by rewrite big_ord_recl big_ord1; congr (g _ + g _); apply: val_inj.
have fE (v : 'rV[F]_2) : poly_at f v = v 0 1 ^+ 3.
  by rewrite /poly_at /f /= !big2 /= !mul0r !mul1r !addr0 !add0r !exprS expr0 mulr1 mulrA.
have [|sig es hr] := @simplex_rows F f1 f2 f3 1 sqrt (0 : 'rV[F]_2) (Mat (1%:M : M EO 2 2)) 1%:M; first by rewrite /sqrt /= eqxx.
exists sqrt, sig; split=> //.
  by rewrite /gauss_mean /f /= !big2 /= !mxE /= !(mul0r, mulr0, mul1r, addr0, add0r).
have wE i : (pt_Wm (@simplex_points EO 2 sqrt (@simplex_sub EO 2)) : 'rV[F]_3) 0 i = (2%:R + 1)^-1 by rewrite /= !mxE mul1r.
have l0 : 0 < 2%:R / (2%:R + 1) :> F by rewrite divr_gt0 ?addr_gt0 ?ltr0Sn ?ltr01.
have an := @a_neq0 F f1 _ l0 hq 1.
set a := f1 _ in an.
move: hr; set B := (istar (o := EO) _ 2 : 'M[F]_(2, 3)) => hr.
have BE i : B 1 i = (if nat_of_ord i == 2%N then - 2%:R else 1) / a.
  by rewrite -(@getE F f1 f2 f3 _ _ B 1 i) (@istS F f1 f2 f3 _ 0 1 i).
clearbody B.
have sE i : matrix.row i sig 0 1 = f1 2%:R * ((if nat_of_ord i == 2%N then - 2%:R else 1) / a).
  by rewrite hr mulmx1 !mxE add0r BE.
rewrite /wexp (eq_bigr (fun i : 'I_3 => (2%:R + 1)^-1 * (f1 2%:R / a) ^+ 3 * (if nat_of_ord i == 2%N then - 2%:R else 1) ^+ 3)) => [|i _].
  rewrite -mulr_sumr !big_ord_recl big_ord0 /= addr0 !expr1n.
  have r0 : f1 2%:R != 0 by rewrite -sqrf_eq0 hq ?ler0n // pnatr_eq0.
  rewrite !mulf_neq0 ?expf_neq0 ?mulf_neq0 ?invr_neq0 ?pnatr_eq0 //.
    by rewrite -[2%:R + 1](natrD _ 2 1) pnatr_eq0.
  by rewrite six oppr_eq0 pnatr_eq0.
by rewrite wE fE sE -[RHS]mulrA -exprMn; congr (_ * _ ^+ 3); rewrite mulrA mulrAC.
Qed.
Print Assumptions C79_simplex_cubic_refuted.

Section Law.
Variable F : realFieldType.
Add Field fld : (fF_theory F).
Lemma heavy_law : exists k (w : 'rV[F]_k) (X : 'M[F]_(k, 1)),
  [/\ third_order w X 0 1%:M, forall i, 0 < w 0 i,
      wexp w X (fun v => v 0 0 ^+ 2) = 1 & wexp w X (fun v => (v 0 0 ^+ 2 - 1) ^+ 2) = 3%:R].
Proof.
exists 3%N, (\row_i (if i == 1 then 3%:R / 4%:R else 8%:R^-1)), (\matrix_(i, j) (if i == 0 then - 2%:R else if i == 1 then 0 else 2%:R)).
have big3 (g : 'I_3 -> F) : \sum_a g a = g 0 + g 1 + g (1 + 1).
  by rewrite !big_ord_recl big_ord0 addr0 addrA; congr (g _ + g _ + g _); apply: val_inj.
split.
- split; last by move=> a b d; rewrite big3 !mxE /=; toF; field; posF.
  split.
  + by rewrite /wsum big3 !mxE /=; toF; field; posF.
  + by apply/rowP => j; rewrite /wmean summxE big3 !mxE /=; toF; field; posF.
  + apply/matrixP => i j; rewrite /wcov /wxcov summxE big3 !mxE !big_ord1 !mxE /= (ord1 i) (ord1 j); toF; field; posF.
- move=> i; rewrite mxE; case: ifP => _; first by rewrite divr_gt0 ?ltr0n.
  by rewrite invr_gt0 ltr0n.
- by rewrite /wexp big3 !mxE /=; toF; field; posF.
- by rewrite /wexp big3 !mxE /=; toF; field; posF.
Qed.
End Law.

(** Only the mean is exact.  CubatureKalmanFilter.predict with fx the square of a standard scalar state
    reports no variance beyond the noise, because both cubature points have the same square; the square of a
    random variable with the same mean, variance and third moment can have variance 3. *)
Theorem C79_cubature_variance_refuted : forall (F : realFieldType) (fsqrt fexp flog : F -> F) (m : nat)
    (c : ck_cfg (exactO fsqrt fexp flog) 1 m) (s s' : ck_st (exactO fsqrt fexp flog) 1 m),
  fsqrt 1 ^+ 2 = 1 -> sqrt_ok (cc_chol c : 'M[F]_1 -> option 'M[F]_1) ->
  (forall v dt, (cc_fx c v dt : 'rV[F]_1) = const_mx ((v : 'rV[F]_1) 0 0 ^+ 2)) ->
  (c_x s : 'cV[F]_1) = 0 -> (c_P s : 'M[F]_1) = 1%:M ->
  ck_predict None c s = (s', None) ->
  [/\ (c_x s' : 'cV[F]_1) = 1%:M, (c_P s' : 'M[F]_1) = cc_Q c &
   exists k (w : 'rV[F]_k) (X : 'M[F]_(k, 1)),
     [/\ third_order w X (c_x s : 'cV[F]_1)^T (c_P s), forall i, 0 < w 0 i,
         wexp w X (fun v => v 0 0 ^+ 2) = 1 & wexp w X (fun v => (v 0 0 ^+ 2 - 1) ^+ 2) = 3%:R]].
Proof.
move=> F f1 f2 f3 m c s s' h1 hc hf x0 P1.
rewrite /ck_predict x0 P1; case e: (spherical_radial_sigmas _ _ _) => [sig|] //.
have [U eU hr] := sigmasP e.
have U2 : U 0 0 ^+ 2 = 1.
  have := hc _ _ (trmx1 F 1) eU; move/matrixP => /(_ 0 0); by rewrite !mxE big_ord1 mxE -expr2.
have -> : map_rows (o := exactO f1 f2 f3) (fun x => cc_fx c x (opt_or (cc_dt c) None)) sig (c_sigmas_f s) = (const_mx 1 : 'M[F]_(1 + 1, 1)).
  rewrite map_rowsE; apply/matrixP => i j; rewrite !mxE hf mxE.
  have [t ht] : exists t : 'I_1, i = lshift 1 t \/ i = rshift 1 t.
    by case: (split_ordP i) => t ->; exists t; [left|right].
  by move: ht; rewrite (ord1 t) => -[->|->]; have [r1 r2] := hr 0; rewrite ?r1 ?r2 !mxE add0r ?sqrrN exprMn h1 U2 mul1r.
rewrite transformE // => -[<-]; cbn [c_x c_P].
have mE : wmean (equal_weights F (1 + 1)) (const_mx 1 : 'M[F]_(1 + 1, 1)) = 1%:M.
  apply/rowP => j; rewrite wmean_eqw !mxE summxE (eq_bigr (fun=> 1)) => [|i _]; last by rewrite !mxE.
  by rewrite sumr_const card_ord mulVf ?pnatr_eq0 // (ord1 j).
split.
- by rewrite mE trmx1.
- rewrite mE /wcov wxcov_eqw big1 ?scaler0 ?add0r // => i _.
  have -> : matrix.row i (const_mx 1 : 'M[F]_(1 + 1, 1)) - 1%:M = 0 by apply/rowP => j; rewrite !mxE (ord1 j) subrr.
  by rewrite mulmx0.
by rewrite trmx0; exact: heavy_law.
Qed.
Print Assumptions C79_cubature_variance_refuted.

(** The hypotheses are met: with Julier points and kappa = 1, every polynomial fx, every estimate and every
    positive semidefinite P and Q; and in the cubature filter. *)
Example C79_applies (F : rcfType) (n m : nat) (f : 'I_n.+1 -> cubic F n.+1) (P Q : 'M[F]_n.+1) (R : 'M[F]_m) dt inv
    (hx : 'rV[F]_n.+1 -> 'rV[F]_m) rz :
  psd P -> psd Q ->
  let EO := exactO (F := F) Num.sqrt id id in
  let fx : M EO 1 n.+1 -> sc EO -> M EO 1 n.+1 := fun v _ => \row_j poly_at (f j) (v : 'rV[F]_n.+1) in
  let p := @julier_points EO n.+1 (1 : F) (@some_sqrt F n.+1) msub in
  let c := @mkUC EO n.+1 m (S (n.+1 + n.+1)) Q R dt p (pt_Wm p) (pt_Wc p) hx fx None None None None None inv in
  let c' := @mkCC EO n.+1 m Q R dt hx fx rz (@some_sqrt F n.+1) inv in
  [/\ symmetric_points c, sqrt_ok (cc_chol c' : 'M[F]_n.+1 -> _), Num.sqrt n.+1%:R ^+ 2 = n.+1%:R :> F,
      forall s : uk_st EO n.+1 m (S (n.+1 + n.+1)), (u_P s : 'M[F]_n.+1) = P -> exists s', uk_predict None None c s = (s', None) &
      forall s : ck_st EO n.+1 m, (c_P s : 'M[F]_n.+1) = P -> exists s', ck_predict None c' s = (s', None)].
Proof.
move=> hP hQ EO fx p c c'.
have ok (x : 'rV[F]_n.+1) (A : 'M[F]_n.+1) : psd A -> exists sig, pt_sigmas p x (Mat (A : M EO n.+1 n.+1)) = Ok sig.
  move=> hA; rewrite /p /= /sym_points eqb_refl; cbn [negb].
  have -> : mscale (sadd EO (snat EO n.+1) 1) (sm_or (o := EO) (mzeros n.+1 n.+1) (Some (Mat (A : M EO n.+1 n.+1)))) = (n.+1%:R + 1) *: A by [].
  by rewrite some_sqrt_psd; [eexists|apply: psdZ => //; rewrite addr_ge0 ?ler0n ?ler01].
split.
- exists (@some_sqrt F n.+1); first exact: some_sqrt_ok.
  split=> //; right; exists 1; split=> //.
  by rewrite -[n.+1%:R + 1](natrD _ n.+1 1) pnatr_eq0 addn1.
- exact: some_sqrt_ok.
- by rewrite sqr_sqrtr // ler0n.
- move=> s eP; rewrite /uk_predict /uk_process_sigmas; cbn [uc_points c].
  rewrite eP; have [sig ->] := ok (u_x s) P hP.
  set sf := map_rows _ _ _; rewrite utE; lazy beta iota zeta; cbn [uc_x_mean uc_residual_x uc_Wm uc_Wc uc_Q c].
  have [|sf' ->] := ok (wmean (pt_Wm p : 'rV[F]_(n.+1 + n.+1).+1) sf) (wcov (pt_Wc p : 'rV[F]_(n.+1 + n.+1).+1) sf (wmean (pt_Wm p : 'rV[F]_(n.+1 + n.+1).+1) sf) + Q); last by eexists.
  have w0 i : 0 <= (pt_Wc p : 'rV[F]_(n.+1 + n.+1).+1) 0 i.
    rewrite /p /=; have [j ->|->] := unliftP ord0 i; rewrite ?(@weightsS F Num.sqrt id id) ?(@weights0 F Num.sqrt id id) /=;
    by rewrite !mul1r ?mulr_ge0 ?invr_ge0 ?addr_ge0 ?ler0n ?ler01.
  have q1 q : Some Q = Some q -> psd q by move=> [<-].
  have := @C25_psd F Num.sqrt id id _ n.+1 sf (pt_Wm p) (pt_Wc p) (Some Q) None None w0 q1; by rewrite utE.
- move=> s eP; rewrite /ck_predict /spherical_radial_sigmas; cbn [cc_chol c']; rewrite eP some_sqrt_psd //.
  by case: (ckf_transform _ _) => a b; eexists.
Qed.
