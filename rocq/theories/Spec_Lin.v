(** * A history of a linear system, and how each filter class is driven through it. *)
From Coq Require Import List.
From Verif Require Import Ops Model_KF Model_EKF Model_Info Model_Sqrt.
Import ListNotations.
Set Implicit Arguments.
Unset Strict Implicit.
Local Open Scope np_scope.

Section Lin.
Variable o : nops.
Variables n m l : nat.

(** One call; the matrices may be different every time. *)
Inductive lin_call :=
| LPredict (F Q : M o n n) (B : option (M o n l)) (u : option (M o l 1))
| LUpdate (z : option (M o m 1)) (R : M o m m) (H : M o m n).

Definition kf_of (c : lin_call) : kf_call o n m l :=
  match c with
  | LPredict F Q B u => CPredict u B (Some F) (Some (Mat Q))
  | LUpdate z R H => CUpdate z (Some (Mat R)) (Some H)
  end.

(** ExtendedKalmanFilter with measurement function [H x] and Jacobian [H]. *)
Definition ek_of (inv : M o m m -> option (M o m m)) (dQ dF : M o n n) (dR : M o m m) (c : lin_call)
    : ek_cfg o n m l * ek_call o n m l :=
  match c with
  | LPredict F Q B u => (mkEC Q B F dR inv, EPredict u)
  | LUpdate z R H => (mkEC dQ None dF R inv, EUpdate z (fun _ => H) (fun x => H @ x) None msub)
  end.

Definition fk_of (inv : M o m m -> option (M o m m)) (dQ dF : M o n n) (dR : M o m m) (alpha_sq : sc o) (c : lin_call)
    : ek_cfg o n m l * fk_call o n m l :=
  match c with
  | LPredict F Q B u => (mkEC Q B F dR inv, FPredict u alpha_sq)
  | LUpdate z R H => (mkEC dQ None dF R inv, FUpdate z None H)
  end.

(** Same estimate, covariance, stored prior and posterior, innovation covariance. *)
Definition kf_ek (k : kf o n m l) (s : ek_st o n m) : Prop :=
  kf_x k = e_x s /\ kf_P k = e_P s /\ kf_x_prior k = e_x_prior s /\ kf_P_prior k = e_P_prior s /\
  kf_x_post k = e_x_post s /\ kf_P_post k = e_P_post s /\ kf_S k = e_S s /\ kf_SI k = e_SI s.
End Lin.

Arguments LPredict {o n m l} F Q B u.
Arguments LUpdate {o n m l} z R H.
