(** * One predict and one update of the unscented filter on linear functions. *)
From Coq Require Import ZArith QArith.
From mathcomp Require Import all_ssreflect all_algebra.
From Verif Require Import Ops Exact Spec ZmodTac FieldTac LinAlg Model_KF Model_UKF Spec_Lin Spec_KF_exact Proof_KF_exact Spec_UKF Spec_UKF_run Prop_Kin Proof_UKF.
From Verif Require Import Prop_UKF.
Set Implicit Arguments.
Unset Strict Implicit.
Unset Printing Implicit Defensive.
Import Order.TTheory GRing.Theory Num.Theory.
Local Close Scope Q_scope.
Local Close Scope Z_scope.
Local Open Scope ring_scope.

Ltac ucbn := cbn [uc_points uc_Wm uc_Wc uc_Q uc_R uc_x_mean uc_z_mean uc_residual_x uc_residual_z uc_state_add uc_fx uc_hx uc_dt uc_inv uk_config opt_or sm_or option_map].

Section Lin.
Variable F : realFieldType.
Variables (fsqrt fexp flog : F -> F).
Notation EO := (exactO fsqrt fexp flog).
Variables n m l k : nat.

(** Sigma points whose weighted moments are the given ones. *)
Definition exact_points (p : points EO n k) : Prop :=
  forall (x : 'rV[F]_n) (P : 'M[F]_n) sig, sym P -> pt_sigmas p x (@Mat EO n P) = Ok sig ->
    represents (pt_Wm p : 'rV[F]_k) (pt_Wc p) sig x P.

Variable b : uk_base EO n m k.
(** The functions the filter was built with are the ordinary ones. *)
Definition plain : Prop :=
  [/\ forall r, b_rx b = Some r -> forall u v : 'rV[F]_n, r u v = u - v,
      forall r, b_rz b = Some r -> forall u v : 'rV[F]_m, r u v = u - v,
      forall r, b_add b = Some r -> forall u v : 'rV[F]_n, r u v = u + v &
      forall A : 'M[F]_m, b_inv b A = mx_inv A].
Hypothesis hp : exact_points (b_pts b).
Hypothesis hb : plain.
Variables (dQ : 'M[F]_n) (dR : 'M[F]_m).

Definition fresh (s : uk_st EO n m k) : Prop := pt_sigmas (b_pts b) (u_x s) (Mat (u_P s)) = Ok (u_sigmas_f s).

Lemma resid_x (u v : 'rV[F]_n) : resid (b_rx b) u v = u - v.
Proof. by case: hb => h _ _ _; rewrite /resid; case e: (b_rx b) => [r|] //=; apply: h. Qed.
Lemma resid_z (u v : 'rV[F]_m) : resid (b_rz b) u v = u - v.
Proof. by case: hb => _ h _ _; rewrite /resid; case e: (b_rz b) => [r|] //=; apply: h. Qed.

Definition bu (B : option 'M[F]_(n, l)) (u : option 'cV[F]_l) : 'rV[F]_n :=
  match B, u with Some B, Some u => (B *m u)^T | _, _ => 0 end.
Lemma lin_fxE (Fm : 'M[F]_n) B u (x : 'rV[F]_n) dt : lin_fx (o := EO) (l := l) Fm B u x dt = x *m Fm^T + bu B u.
Proof. by rewrite /lin_fx /bu; case: B => [B|]; case: u => [u|] //=; rewrite addr0. Qed.

Lemma uk_lin_predict (Fm Q : 'M[F]_n) B u (s s' : uk_st EO n m k) : sym (u_P s : 'M[F]_n) -> sym Q ->
  uk_lin_step b dQ dR (@LPredict EO n m l Fm Q B u) s = (s', None) ->
  let x : 'rV[F]_n := (u_x s : 'rV[F]_n) *m Fm^T + bu B u in
  let P : 'M[F]_n := Fm *m u_P s *m Fm^T + Q in
  fresh s' /\ uk_est s' = mkEst (x^T : M EO n 1) P (x^T : M EO n 1) P ((u_x_post s)^T)%np (u_P_post s).
Proof.
move=> sP sQ; rewrite /uk_lin_step /uk_of; unfold uk_step; rewrite /uk_predict /uk_process_sigmas; ucbn.
case e: (pt_sigmas _ _ _) => [sig|] //.
have rep := hp sP e.
have -> : map_rows (o := EO) (fun x => lin_fx (o := EO) Fm B u x (b_dt b)) sig (u_sigmas_f s) = affine_rows sig Fm (bu B u).
  rewrite map_rowsE; apply/matrixP => i j; rewrite mxE lin_fxE !mxE; congr (_ + _); apply: eq_bigr => t _; rewrite !mxE.
case: hb => h1 _ _ _.
rewrite (@C25_affine F fsqrt fexp flog k n n sig _ _ _ _ Fm (bu B u) (Some Q) (b_rx b) h1 rep).
case e': (pt_sigmas _ _ _) => [sig'|] // [<-]; split; first exact: e'.
by [].
Qed.

Lemma uk_lin_update (z : 'cV[F]_m) (R : 'M[F]_m) (H : 'M[F]_(m, n)) (s : uk_st EO n m k) r :
  sym (u_P s : 'M[F]_n) -> sym R -> fresh s ->
  uk_lin_step b dQ dR (@LUpdate EO n m l (Some (z : M EO m 1)) R H) s = r ->
  let P : 'M[F]_n := u_P s in
  if Smx P H R \in unitmx then
    let x : 'cV[F]_n := (u_x s : 'rV[F]_n)^T + Kmx P H R *m (z - H *m (u_x s : 'rV[F]_n)^T) in
    let P' := Jmx P H R (Kmx P H R) in
    [/\ snd r = None, u_S (fst r) = Smx P H R, u_K (fst r) = Kmx P H R, u_y (fst r) = (z - H *m (u_x s : 'rV[F]_n)^T)^T &
       uk_est (fst r) = mkEst (x : M EO n 1) P' ((u_x_prior s)^T)%np (u_P_prior s) x P']
  else snd r = Some LinAlgError /\ uk_est (fst r) = uk_est s.
Proof.
move=> sP sR fr <- P; rewrite /uk_lin_step /uk_of; unfold uk_step; rewrite /uk_update; ucbn.
have rep := hp sP fr.
have -> : map_rows (o := EO) (lin_hx (o := EO) H) (u_sigmas_f s) (mzeros k m) = affine_rows (u_sigmas_f s : 'M[F]_(k, n)) H 0.
  rewrite map_rowsE; apply/matrixP => i j; rewrite !mxE addr0; reflexivity.
case: (hb) => _ h2 h3 h4.
rewrite (@C25_affine F fsqrt fexp flog k n m (u_sigmas_f s) _ _ _ _ H 0 (Some R) (b_rz b) h2 rep) h4 /mx_inv.
have -> : H *m P *m H^T + R = Smx P H R by rewrite /Smx mulmxA.
case uS: (Smx P H R \in unitmx); last by split.
set c := uk_config _ _ _ _ _ _ _ _ _ _ _ _.
have -> : uk_cross_variance c (u_x s) ((u_x s : 'rV[F]_n) *m H^T + 0 : 'rV[F]_m) (u_sigmas_f s) (affine_rows (u_sigmas_f s : 'M[F]_(k, n)) H 0) = P *m H^T.
  case: rep => _ _ repP; rewrite /P -repP -(wxcov_lin _ _ _ _ 0) /uk_cross_variance.
  rewrite [LHS](@fold_sum k _ (fun i => (mx_get (pt_Wc (b_pts b) : 'rV[F]_k) 0 i : F) *:
     ((resid (b_rx b) (mrow (o := EO) (u_sigmas_f s) i) (u_x s) : 'rV[F]_n)^T *m
      (resid (b_rz b) (mrow (o := EO) (affine_rows (u_sigmas_f s : 'M[F]_(k, n)) H 0 : M EO k m) i) ((u_x s : 'rV[F]_n) *m H^T + 0 : 'rV[F]_m) : 'rV[F]_m)))).
  apply: eq_bigr => i _; rewrite resid_x resid_z !mrowE; congr (_ *: _); exact: (mx_getE (pt_Wc (b_pts b) : 'rV[F]_k) 0 i).
rewrite -[mdot (_ : M EO n m) (invmx (Smx P H R) : M EO m m)]/(Kmx P H R).
rewrite !resid_z addr0.
have yE : (z^T - (u_x s : 'rV[F]_n) *m H^T) = (z - H *m (u_x s : 'rV[F]_n)^T)^T by rewrite trmxB trmxM trmxK.
have addE (u v : 'rV[F]_n) : opt_or madd (b_add b) u v = u + v by case e: (b_add b) => [f|] //=; apply: h3.
have PE : P - Kmx P H R *m (Smx P H R *m (Kmx P H R)^T) = Jmx P H R (Kmx P H R) by rewrite Jmx_minus // mulmxA.
by split=> //=; rewrite /uk_est /= addE PE yE !trmxK trmxD trmxK.
Qed.
End Lin.
