(** * SquareRootKalmanFilter: a worked update, and what P_post reports. *)
From Coq Require Import List QArith.
From Verif Require Import Ops ListOps Model_KF Model_EKF Model_Info Model_Sqrt Spec_Lin.
Import ListNotations.

Definition q1 (a : Q) : M QO 1 1 := [[a]].

(** P1_2 = 4, R1_2 = 3, H = 1: the array is ((3,0),(4,4)), whose R factor is
    ((5,16/5),(0,12/5)).  [qr] is a table with this one entry. *)
Definition ex_qr (p q : nat) (A : M QO p q) : M QO p q := [[5; 16#5]; [0; 12#5]]%Q.
Definition ex_pinv (A : M QO 1 1) : M QO 1 1 := [[Qred (/ (mget A 0 0 : Q))]].
Definition ex_c : sq_cfg QO 1 1 1 := mkSC (q1 1) None (q1 1) (q1 1) (q1 3).
Definition ex_s : sq_st QO 1 1 :=
  mkSS (q1 0) (q1 4) None (q1 0) (q1 0) (q1 0) (q1 0) [[0;0];[0;0]]%Q (q1 0) (q1 4) (q1 0) (q1 4).

Example C21_example :
  let s' := sq_update ex_qr ex_pinv (Some (q1 25)) None ex_c ex_s in
  let k' := fst (kf_update (Some (q1 25)) (Some (Mat (q1 9))) (Some (q1 1)) (set_kf_P (q1 16) (@kf_init QO 1 1 1 (1#1024)%Q (l_inv1 QS)))) in
  q_M s' = [[3;0];[4;4]]%Q /\ q_x s' = q1 16 /\ kf_x k' = q1 16 /\ sq_P s' = q1 (144#25) /\ kf_P k' = q1 (144#25) /\
  sq_S s' = q1 25 /\ kf_S k' = q1 25 /\ sq_SI s' = kf_SI k'.
Proof. repeat split; vm_compute; reflexivity. Qed.

(** P_post is documented as the posterior covariance.  After this update the
    posterior covariance is 144/25, and P_post is 16, the prior's. *)
Theorem C21_P_post_refuted :
  let s' := sq_update ex_qr ex_pinv (Some (q1 25)) None ex_c ex_s in
  sq_P s' = q1 (144#25) /\ sq_P_post s' = q1 16 /\ mdot (q_P12_post s') (mtr (q_P12_post s')) = q1 (144#25).
Proof. repeat split; vm_compute; reflexivity. Qed.
Print Assumptions C21_P_post_refuted.
