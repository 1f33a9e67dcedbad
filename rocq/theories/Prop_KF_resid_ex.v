(** * Counterexamples for residual_of and log_likelihood_of: C61. *)
From Coq Require Import List QArith.
From Verif Require Import Ops ListOps Model_KF.
Import ListNotations.

(** So log_likelihood_of(z) after update(z) is not log_likelihood, although its docstring
    says it "should only be called after a call to update()": with x = 0, P = R = H = 1 and
    z = 1 the log-likelihoods (up to the common constant) are -1/4 and -1/16. *)
Definition resid_kf : kf QO 1 1 1 := set_kf_H ([[1%Q]] : M QO 1 1) (@kf_init QO 1 1 1 (1#1024)%Q (l_inv1 QS)).
Definition qlpdf (a b S : M QO 1 1) : Q :=
  let d := (l_get QS a 0 0 - l_get QS b 0 0)%Q in Qred (- (d * d) / ((2#1) * l_get QS S 0 0))%Q.
Theorem C61_log_likelihood_of_refuted :
  let z : M QO 1 1 := [[1%Q]] in
  let s := fst (kf_update (Some z) None None resid_kf) in
  fst (kf_log_likelihood qlpdf s) = (-1#4)%Q /\ kf_log_likelihood_of qlpdf (1#1024)%Q (Some z) s = (-1#16)%Q.
Proof. split; vm_compute; reflexivity. Qed.
Print Assumptions C61_log_likelihood_of_refuted.

(** Nor is residual_of the residual of a second measurement in the same epoch: with the
    same numbers, update(1) then update(1) has residuals 1 and 1/2, residual_of(1) is 1. *)
Theorem C61_second_measurement_refuted :
  let z : M QO 1 1 := [[1%Q]] in
  let s := fst (kf_update (Some z) None None resid_kf) in
  kf_residual_of z s = [[1%Q]] /\ kf_y (fst (kf_update (Some z) None None s)) = [[(1#2)%Q]].
Proof. split; vm_compute; reflexivity. Qed.
Print Assumptions C61_second_measurement_refuted.
