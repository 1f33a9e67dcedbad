(** * InformationFilter: worked numbers, and the likelihood claim refuted. *)
From Coq Require Import List QArith.
From Verif Require Import Ops ListOps Model_KF Model_EKF Model_Info Spec_Lin.
Import ListNotations.

Definition q1 (a : Q) : M QO 1 1 := [[a]].
Definition inv1 : M QO 1 1 -> option (M QO 1 1) := l_inv1 QS.

(** compute_log_likelihood: [log_likelihood] is documented as that of the
    measurement, i.e. the Gaussian log density of the innovation under the
    innovation covariance H P H' + R.  With P = 2, R = 1, H = 1 that covariance
    is 3; the filter evaluates the density under the posterior information
    matrix 1/2 + 1 = 3/2 instead, whatever the density routine [lp] is (here:
    one that returns the covariance it was given). *)
Theorem C20_likelihood_refuted :
  let lp : M QO 1 1 -> M QO 1 1 -> res (sc QO) := fun _ S => Ok (mget S 0 0) in
  let c : if_cfg QO 1 1 1 := mkIC (q1 1) None (Some (q1 1)) (Some (q1 1)) (q1 1) (q1 1) inv1 true lp (1#1024)%Q in
  let s : if_st QO 1 1 := mkIS (q1 0) (q1 (1#2)) None None (q1 0) None false 0%Q 0%Q (q1 0) (q1 0) (q1 0) (q1 0) in
  let k := set_kf_P (q1 2) (set_kf_H (q1 1) (@kf_init QO 1 1 1 (1#1024)%Q inv1)) in
  let s' := fst (if_update (Some (q1 1)) None c s) in
  let k' := fst (kf_update (Some (q1 1)) None None k) in
  i_x s' = kf_x k' /\ i_y s' = kf_y k' /\ kf_S k' = q1 3 /\ i_ll s' = (3#2)%Q /\ i_S s' = Some (q1 (3#2)).
Proof. repeat split; vm_compute; reflexivity. Qed.
Print Assumptions C20_likelihood_refuted.

(** A two-call history: both filters give 9/2, and P = 5/6. *)
Example C20_example :
  let lp : M QO 1 1 -> M QO 1 1 -> res (sc QO) := fun _ _ => Err ValueError in
  let cfg A Q : if_cfg QO 1 1 1 := mkIC (q1 Q) None (Some (q1 A)) (inv1 (q1 A)) (q1 1) (q1 1) inv1 true lp (1#1024)%Q in
  let s : if_st QO 1 1 := mkIS (q1 1) (q1 1) None None (q1 0) None false 0%Q 0%Q (q1 0) (q1 0) (q1 0) (q1 0) in
  let s' := if_run [(cfg 2%Q 1%Q, IPredict None); (cfg 2%Q 1%Q, IUpdate (Some (q1 5)) None)] s in
  let k' := kf_run (map (@kf_of QO 1 1 1) [LPredict (q1 2) (q1 1) None None; LUpdate (Some (q1 5)) (q1 1) (q1 1)])
     (set_kf_x (q1 1) (set_kf_P (q1 1) (@kf_init QO 1 1 1 (1#1024)%Q inv1))) in
  i_x s' = q1 (9#2) /\ kf_x k' = q1 (9#2) /\ kf_P k' = q1 (5#6) /\ i_Pinv s' = q1 (6#5).
Proof. repeat split; vm_compute; reflexivity. Qed.

(** No prior information: predict, update with 6 (H = 2, so x = 3), predict with F = 2. *)
Example C20_no_information_example :
  let lp : M QO 1 1 -> M QO 1 1 -> res (sc QO) := fun _ _ => Err ValueError in
  let c : if_cfg QO 1 1 1 := mkIC (q1 1) None (Some (q1 2)) (Some (q1 (1#2))) (q1 2) (q1 1) inv1 true lp (1#1024)%Q in
  let s : if_st QO 1 1 := mkIS (q1 0) (q1 0) None None (q1 0) None false 0%Q 0%Q (q1 0) (q1 0) (q1 0) (q1 0) in
  let s' := if_run [(c, IPredict None); (c, IUpdate (Some (q1 6)) None); (c, IPredict None)] s in
  i_x s' = q1 6 /\ i_Pinv s' = q1 (1#2).
Proof. split; vm_compute; reflexivity. Qed.
