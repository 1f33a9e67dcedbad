(** * Densities and likelihoods of filterpy.stats: C39 (multivariate density), C52 (stats.log_likelihood). *)
From Coq Require Import Reals Lra Lia List.
From Verif Require Import Ops RealOps ListOps Model_KF Proof_KF Model_Stats Prop_Gauss.
Import ListNotations.
Local Open Scope R_scope.

Notation RO := (listO RS).

(** The covariance a scalar-or-matrix argument stands for. *)
Definition cov_of (n : nat) (c : sm RO n) : M RO n n :=
  match c with Scal q => mscale q (meye n) | Mat A => A end.

(** The density exp(-d2/2) / sqrt((2 pi)^n det), d2 the squared Mahalanobis distance. *)
Definition normal_density (n : nat) (d2 det : R) : R := exp (- d2 / 2) / sqrt ((2 * PI) ^ n * det).

(** ** C39.  [chol], [solve] and [logdet] are arbitrary. *)
Theorem C39_multivariate_gaussian : forall (n : nat) (chol : M RO n n -> option (M RO n n))
    (solve : M RO n n -> M RO n 1 -> option (M RO n 1)) (logdet : M RO n n -> R) (x mu : M RO n 1) (c : sm RO n),
  let C := cov_of n c in
  let legal := match c with Scal q => 0 <= (q : R) | Mat A => chol A <> None end in
  let d := msub x mu in
  (~ legal -> @multivariate_gaussian RO n chol solve logdet PI x mu c = Err ValueError) /\
  (legal -> solve C d = None -> @multivariate_gaussian RO n chol solve logdet PI x mu c = Err LinAlgError) /\
  (legal -> forall v, solve C d = Some v ->
    @multivariate_gaussian RO n chol solve logdet PI x mu c =
    Ok (normal_density n (mget (mdot (mtr v) d) 0 0) (exp (logdet C)))).
Proof.
  intros n chol solve logdet x mu c C legal d. unfold d; clear d.
  assert (E : forall q, 0 < (2 * PI) ^ n -> 
    exp (- (1 / INR 2) * (INR n * ln (INR 2 * PI) + logdet C + q)) = normal_density n q (exp (logdet C))).
  { intros q Hp. unfold normal_density. assert (PIp := PI_RGT_0).
    assert (Q : (2 * PI) ^ n * exp (logdet C) = exp (INR n * ln (2 * PI) + logdet C)).
    { rewrite exp_plus. f_equal. rewrite <- (exp_ln (2 * PI)) at 1 by lra.
      clear. induction n; [simpl; rewrite Rmult_0_l, exp_0; reflexivity|].
      rewrite S_INR, Rmult_plus_distr_r, Rmult_1_l, exp_plus, <- IHn. simpl. ring. }
    rewrite Q. set (L := INR n * ln (2 * PI) + logdet C).
    assert (S : sqrt (exp L) = exp (L / 2)).
    { apply sqrt_lem_1; try (apply Rlt_le, exp_pos). rewrite <- exp_plus. f_equal. field. }
    rewrite S. unfold Rdiv. rewrite <- exp_Ropp, <- exp_plus. f_equal. simpl INR. unfold L.
    replace (1 + 1) with 2 by ring. field. }
  assert (Hp : 0 < (2 * PI) ^ n) by (apply pow_lt; assert (PIp := PI_RGT_0); lra).
  unfold multivariate_gaussian, to_cov, C, cov_of, legal in *.
  destruct c as [q|A].
  - change (sltb RO q (s0 RO)) with (Rltb q 0).
    destruct (Rltb q 0) eqn:Hq; [apply Rltb_true in Hq|apply Rltb_false in Hq]; cbn [rbind].
    + split; [reflexivity|]. split; intros; lra.
    + split; [intros; lra|]. split; intros _; [intros ->; reflexivity|].
      intros v Hv. rewrite Hv. f_equal. apply (E _ Hp).
  - destruct (chol A) eqn:EA; cbn [rbind].
    + split; [intros H; exfalso; apply H; discriminate|]. split; intros _; [intros ->; reflexivity|].
      intros v Hv. rewrite Hv. f_equal. apply (E _ Hp).
    + split; [reflexivity|]. split; intros H; exfalso; apply H; reflexivity.
Qed.
Print Assumptions C39_multivariate_gaussian.

(** In one dimension it is [gaussian] for an exact solver. *)
Theorem C39_multivariate_is_gaussian : forall (chol : M RO 1 1 -> option (M RO 1 1))
    (solve : M RO 1 1 -> M RO 1 1 -> option (M RO 1 1)) (logdet : M RO 1 1 -> R) (x mu var : R),
  0 < var ->
  (forall a e : R, a <> 0 -> solve [[a]] [[e]] = Some [[e / a]]) -> (forall a, 0 < a -> logdet [[a]] = ln a) ->
  @multivariate_gaussian RO 1 chol solve logdet PI [[x]] [[mu]] (Scal (var : sc RO)) =
  Ok (@gaussian RS PI x mu var).
Proof.
  intros chol solve logdet x mu var Hv Hs Hl.
  destruct (C39_multivariate_gaussian 1 chol solve logdet [[x]] [[mu]] (Scal (var : sc RO))) as (_ & _ & H).
  assert (EC : cov_of 1 (Scal (var : sc RO)) = [[var]]).
  { unfold cov_of. cbn. unfold l_fun. cbn. rewrite Rmult_1_r. reflexivity. }
  assert (ED : @msub RO 1 1 [[x]] [[mu]] = [[x - mu]]) by (cbn; reflexivity).
  rewrite EC, ED in H.
  assert (Hs' := Hs var (x - mu) ltac:(lra)).
  rewrite (H ltac:(cbn; lra) _ Hs'). unfold normal_density, gaussian.
  rewrite (Hl var Hv), exp_ln by exact Hv. rs.
  replace (2 * PI * var) with ((2 * PI) ^ 1 * var) by ring.
  cbn. unfold Rdiv. rewrite Rmult_comm, Rmult_1_l. do 3 f_equal. field. lra.
Qed.
Print Assumptions C39_multivariate_is_gaussian.

(** The contracts are met by the division and the logarithm. *)
Example C39_multivariate_example :
  let solve (A e : M RO 1 1) : option (M RO 1 1) := Some [[l_get RS e 0 0 / l_get RS A 0 0]] in
  let logdet (A : M RO 1 1) : R := ln (l_get RS A 0 0) in
  (forall a e : R, a <> 0 -> solve [[a]] [[e]] = Some [[e / a]]) /\ (forall a, 0 < a -> logdet [[a]] = ln a).
Proof. split; reflexivity. Qed.

(** ** C52.  stats.log_likelihood of a measurement, given the prior the update started
    from, is what the filter reports after the update; [lpdf] depends on the measurement
    and the mean through their difference. *)
Theorem C52_stats_log_likelihood : forall (o : nops) (n m l : nat) (lpdf : M o m 1 -> M o m 1 -> M o m m -> sc o)
    (z : M o m 1) R H (s : kf o n m l),
  (forall a b S, lpdf a b S = lpdf (msub a b) (mzeros m 1) S) ->
  snd (kf_update (Some z) R H s) = None ->
  fst (kf_log_likelihood lpdf (fst (kf_update (Some z) R H s))) =
  log_likelihood lpdf z (kf_x s) (kf_P s) (opt_or (kf_H s) H) (sm_or (kf_R s) R).
Proof.
  intros o n m l lpdf z R H s Ht. destruct s. unfold log_likelihood. kf_compute.
  destruct (kf_inv _) as [SI|]; [|discriminate]. intros _. symmetry. apply Ht.
Qed.
Print Assumptions C52_stats_log_likelihood.

(** A quadratic lpdf meets the hypothesis. *)
Example C52_stats_example : forall a b S : M RO 1 1,
  let lpdf (a b S : M RO 1 1) : R := - (l_get RS a 0 0 - l_get RS b 0 0) ^ 2 / l_get RS S 0 0 in
  lpdf a b S = lpdf (msub a b) (mzeros 1 1) S.
Proof. intros. unfold lpdf. cbn. rewrite Rminus_0_r. reflexivity. Qed.
