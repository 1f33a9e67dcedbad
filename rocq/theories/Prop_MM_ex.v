(** * Banks of filters: numbers, and claims that fail (C29, C30). *)
From Coq Require Import List Arith Bool ZArith QArith.
From Verif Require Import Ops ListOps Model_KF Model_MM Prop_UKF_ex.
Import ListNotations.
Set Implicit Arguments.
Unset Strict Implicit.
Open Scope Q_scope.

(** Two scalar KalmanFilters.  The density is replaced by 1 / S, whose exponential QS takes to be itself. *)
Definition D1 := @kf_filt QO 1 1 1 (fun y _ S => match S with [[s]] => Qred (1 / s) | _ => 0 end) (1#1000).
Definition bank2 := [k1 0 1 1 1 0 1; k1 8 1 1 1 0 3].
Definition M2 : M QO 2 2 := [[9#10; 1#10]; [1#10; 9#10]].

(** A predict/update cycle. *)
Example C29_numbers :
  let s0 := @imm_init QO 1 1 1 _ D1 2 M2 bank2 [[1; 1]] in
  let s1 := fst (imm_predict D1 None s0) in
  let s2 := fst (imm_update D1 M2 (Some [[4]]) s1) in
  (i_mu s0, i_cbar s0, i_omega s0, i_x s0, i_P s0) = ([[1#2; 1#2]], [[1#2; 1#2]], [[9#10; 1#10]; [1#10; 9#10]], [[4]], [[17]]) /\
  (map (@kf_x QO 1 1 1) (i_filters s1), map (@kf_P QO 1 1 1) (i_filters s1), i_x s1, i_P s1) =
    ([[[4#5]]; [[36#5]]], [[[169#25]]; [[169#25]]], [[4]], [[17]]) /\
  (i_mu s2, i_cbar s2) = ([[122#219; 97#219]], [[239#438; 199#438]]).
Proof. vm_compute; repeat split. Qed.

(** "If z is None, nothing is changed": the estimator multiplies mu by likelihoods again. *)
Theorem C29_missing_measurement_refuted :
  let s := fst (imm_update D1 M2 (Some [[4]]) (fst (imm_predict D1 None (@imm_init QO 1 1 1 _ D1 2 M2 bank2 [[1; 1]])))) in
  let s' := fst (imm_update D1 M2 None s) in
  map (@kf_x QO 1 1 1) (i_filters s') = map (@kf_x QO 1 1 1) (i_filters s) /\
  (i_mu s, i_x s) = ([[122#219; 97#219]], [[5450152#1295823]]) /\
  (i_mu s', i_x s') = ([[29158#48461; 19303#48461]], [[169738984#40963391]]).
Proof. vm_compute; repeat split. Qed.
Print Assumptions C29_missing_measurement_refuted.

(** The prior is not the mean of the predicted mixture.  The state does not move (F = 1), the mode is certain to switch:
    the mean is 2 before and after, but x_prior, weighted with the old mode probabilities, is 6. *)
Theorem C29_prior_is_predicted_mean_refuted :
  let s := @imm_init QO 1 1 1 _ D1 2 [[0; 1]; [1; 0]] bank2 [[3; 1]] in
  let s' := fst (imm_predict D1 None s) in
  (i_mu s, i_cbar s, i_x s) = ([[3#4; 1#4]], [[1#4; 3#4]], [[2]]) /\
  map (@kf_x QO 1 1 1) (i_filters s') = [[[8]]; [[0]]] /\ i_x_prior s' = [[6]] /\
  (* with the predicted probabilities *)
  mix_x D1 (i_filters s') (fun i => mget (i_cbar s') 0 i) = [[2]].
Proof. vm_compute; repeat split. Qed.
Print Assumptions C29_prior_is_predicted_mean_refuted.

(** The constructor raises ValueError exactly when there are fewer than two filters or the shapes of their x differ. *)
Theorem C29_init_checks : forall shapes : list (list nat),
  (imm_check shapes = None <-> (2 <= length shapes)%nat /\ forall a b, In a shapes -> In b shapes -> a = b) /\
  (imm_check shapes <> None -> imm_check shapes = Some ValueError).
Proof.
  intros [|sh [|sh2 r]]; [split; [split; [discriminate|intros [H _]; inversion H]|reflexivity]| |].
  - split; [split; [discriminate|intros [H _]; inversion H; inversion H1]|reflexivity].
  - unfold imm_check. set (f := fun t => _).
    assert (Hf : forall t, f t = true <-> sh = t) by (intros t; unfold f; destruct (list_eq_dec Nat.eq_dec sh t); split; congruence).
    clearbody f. destruct (forallb f (sh2 :: r)) eqn:E; (split; [split|]); try congruence.
    + intros _. split; [simpl; apply le_n_S, le_n_S, Nat.le_0_l|].
      rewrite forallb_forall in E.
      assert (Ha : forall a, In a (sh :: sh2 :: r) -> a = sh) by (intros a [<-|H]; [reflexivity|symmetry; apply Hf, E, H]).
      intros a b Ia Ib. rewrite (Ha a Ia), (Ha b Ib). reflexivity.
    + intros [_ H]. exfalso. rewrite <- not_true_iff_false in E. apply E. apply forallb_forall.
      intros t It. apply Hf. apply H; [left; reflexivity|right; exact It].
Qed.
Print Assumptions C29_init_checks.

(** The same bank in MMAE: P is not the covariance of the mixture.  Weights 2/3 and 1/3, means 2 and 7, variances 1/2
    and 3/4: the mixture's variance is 221/36; update reports 59/27, the first filter's share. *)
Theorem C30_P_is_mixture_covariance_refuted :
  let s := fst (mmae_update D1 (Some [[4]]) None None (@mmae_init QO 1 1 1 _ D1 2 (k1 0 1 1 1 0 1) bank2 [[1#2; 1#2]] None None)) in
  (a_p s, map (@kf_x QO 1 1 1) (a_filters s), map (@kf_P QO 1 1 1) (a_filters s)) = ([[2#3; 1#3]], [[[2]]; [[7]]], [[[1#2]]; [[3#4]]]) /\
  (a_x s, a_P s) = ([[11#3]], [[59#27]]) /\
  mix_P D1 (a_filters s) (fun i => mget (a_p s) 0 i) (a_x s) = [[221#36]].
Proof. vm_compute; repeat split. Qed.
Print Assumptions C30_P_is_mixture_covariance_refuted.

(** "If z is None, nothing is changed" fails here too. *)
Theorem C30_missing_measurement_refuted :
  let s := fst (mmae_update D1 (Some [[4]]) None None (@mmae_init QO 1 1 1 _ D1 2 (k1 0 1 1 1 0 1) bank2 [[1#2; 1#2]] None None)) in
  let s' := fst (mmae_update D1 None None None s) in
  (a_p s, a_x s, a_P s) = ([[2#3; 1#3]], [[11#3]], [[59#27]]) /\ (a_p s', a_x s', a_P s') = ([[4#5; 1#5]], [[3]], [[6#5]]).
Proof. vm_compute; repeat split. Qed.
Print Assumptions C30_missing_measurement_refuted.

(** The constructor raises ValueError exactly when the lengths differ or dim_x < 1. *)
Theorem C30_init_checks : forall nf np dim_x : nat,
  (mmae_check nf np dim_x = None <-> nf = np /\ (1 <= dim_x)%nat) /\
  (mmae_check nf np dim_x <> None -> mmae_check nf np dim_x = Some ValueError).
Proof.
  intros; unfold mmae_check. destruct (Nat.eqb_spec nf np), (Nat.ltb_spec dim_x 1); simpl; split; intuition (try congruence; try discriminate; try Lia.lia).
Qed.
Print Assumptions C30_init_checks.
