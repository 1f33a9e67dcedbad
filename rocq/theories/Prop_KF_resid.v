(** * residual_of and log_likelihood_of: C61. *)
From mathcomp Require Import all_ssreflect all_algebra.
From Verif Require Import Ops Exact Spec ZmodTac LinAlg Model_KF Model_EKF Model_Sqrt Spec_KF_exact
  Proof_KF Proof_KF_exact Prop_KF_exact.
Set Implicit Arguments.
Unset Strict Implicit.
Unset Printing Implicit Defensive.
Import Order.TTheory GRing.Theory Num.Theory.
Local Open Scope ring_scope.

(** ** C61.  In every arithmetic: between predict and update, and still after the update,
    residual_of is the residual that update computes; SquareRootKalmanFilter and
    FadingKalmanFilter only before the update. *)
Theorem C61_residual_of : forall (o : nops) (n m l : nat) (z : M o m 1),
  (forall u B A Q R (s : kf o n m l),
     let p := kf_predict u B A Q s in let r := fst (kf_update (Some z) R None p) in
     kf_residual_of z p = kf_y r /\ kf_residual_of z r = kf_y r) /\
  (forall qr pinv R2 (c : sq_cfg o n m l) (s : sq_st o n m),
     sq_residual_of z c s = q_y (sq_update qr pinv (Some z) R2 c s)) /\
  (forall R H (c : ek_cfg o n m l) (s : ek_st o n m),
     fk_residual_of z H s = e_y (fst (fk_update (Some z) R H c s))).
Proof.
move=> o n m l z; split; [|split].
- move=> u B A Q R s p r; have e : kf_x_prior p = kf_x p by [].
  have [e1 e2] : kf_y r = msub z (mdot (kf_H p) (kf_x p)) /\ (kf_x_prior r = kf_x_prior p /\ kf_H r = kf_H p).
    by rewrite /r; move: p {e r} => p; case: p => *; kf_compute; case: (_ (madd _ _)).
  by rewrite /kf_residual_of e1; case: e2 => -> ->; rewrite e.
- by [].
- by move=> R H c s; rewrite /fk_update; case: (ec_inv _ _).
Qed.
Print Assumptions C61_residual_of.

Lemma update_H (o : nops) (n m l : nat) (z : option (M o m 1)) R H (s : kf o n m l) : kf_H (fst (kf_update z R H s)) = kf_H s.
Proof. by case: s => *; case: z => [z|]; kf_compute => //; case: (_ (madd _ _)). Qed.

Lemma postfit (F : realFieldType) (n m : nat) (z : 'cV[F]_m) (x : 'cV[F]_n) (H : 'M[F]_(m,n)) (K : 'M[F]_(n,m)) :
  z - H *m (x + K *m (z - H *m x)) = (1%:M - H *m K) *m (z - H *m x).
Proof. by rewrite mulmxBl mul1mx mulmxDr mulmxA opprD addrA. Qed.

(** After the update the two others return the post-fit residual R S^-1 y.  For
    KalmanFilter it is the argument of log_likelihood_of that is post-fit. *)
Theorem C61_post_fit : forall (F : realFieldType) (fsqrt fexp flog : F -> F) (n m l : nat)
    (z : 'cV[F]_m) R (s : kf (exactO fsqrt fexp flog) n m l)
    (lpdf : M (exactO fsqrt fexp flog) m 1 -> M (exactO fsqrt fexp flog) m 1 -> M (exactO fsqrt fexp flog) m m -> F) fmin,
  inv_exact s -> innov_cov s R None \in unitmx ->
  (forall a b : 'cV[F]_m, forall S, lpdf a b S = lpdf (a - b) (0 : 'cV[F]_m) S) ->
  let s' := fst (kf_update (Some z : option (M (exactO fsqrt fexp flog) m 1)) R None s) in
  let fit : 'cV[F]_m := Rm s R *m invmx (kf_S s' : 'M[F]_m) *m (kf_y s' : 'cV[F]_m) in
  z - kf_H s' *m kf_x s' = fit /\
  kf_log_likelihood_of lpdf fmin (Some z : option (M (exactO fsqrt fexp flog) m 1)) s' = lpdf fit (0 : 'cV[F]_m) (kf_S s').
Proof.
move=> F f1 f2 f3 n m l z R s lpdf fmin hi uS ht s' fit.
have [_ ey eS _ [_ ex _]] := update_exact z hi uS.
have eH : kf_H s' = kf_H s by exact: update_H.
have e : z - kf_H s' *m kf_x s' = fit.
  rewrite /fit eH /s' ey eS ex [LHS]postfit; congr (_ *m _).
  exact: (@HK1 F n m (kf_P s) (Hm s None) (Rm s R) uS).
split; first exact: e.
by rewrite /kf_log_likelihood_of -e ht.
Qed.
Print Assumptions C61_post_fit.

Example C61_example : [/\ inv_exact exa, innov_cov exa None None \in unitmx &
  let lpdf := fun (a b : 'cV[rat]_2) (S : 'M[rat]_2) => qf (invmx S) (a - b) in
  forall a b S, lpdf a b S = lpdf (a - b) 0 S].
Proof. split; [exact: exa_inv|exact: exa_unit|by move=> lpdf a b S; rewrite /lpdf subr0]. Qed.
