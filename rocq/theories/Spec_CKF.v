(** * CubatureKalmanFilter driven through a linear history (Spec_Lin.v). *)
From Coq Require Import List Bool.
From Verif Require Import Ops Model_KF Model_UKF Model_CKF Spec_Lin Spec_UKF_run.
Import ListNotations.
Set Implicit Arguments.
Unset Strict Implicit.
Local Open Scope np_scope.

Section S.
Variable o : nops.
Variables n m l : nat.

(** The call, with the linear functions the filter is given and its Q or R at that moment. *)
Definition ck_of chol inv dt (dQ : M o n n) (dR : M o m m) (c : lin_call o n m l) : ck_cfg o n m * ck_call o m :=
  match c with
  | LPredict F Q B u => (mkCC Q dR dt (fun x => mslice x 0 0 1 m) (lin_fx F B u) msub chol inv, KPredict m None)
  | LUpdate z R H => (mkCC dQ R dt (lin_hx H) (fun x _ => x) msub chol inv, KUpdate z None)
  end.
Definition ck_lin_step chol inv dt dQ dR c (s : ck_st o n m) := let (cf, a) := ck_of chol inv dt dQ dR c in ck_step cf a s.
(** The state after a history in which no call raised. *)
Fixpoint ck_lin_run chol inv dt dQ dR (cs : list (lin_call o n m l)) (s : ck_st o n m) : option (ck_st o n m) :=
  match cs with
  | [] => Some s
  | c :: cs => match ck_lin_step chol inv dt dQ dR c s with (s, None) => ck_lin_run chol inv dt dQ dR cs s | (_, Some _) => None end
  end.

(** The history in which every prediction's noise q arrives only just before the next prediction (or at
    the end), after the measurements taken in between: F x with no noise, the measurements, then x with
    noise q. *)
Fixpoint delay (q : M o n n) (cs : list (lin_call o n m l)) : list (lin_call o n m l) :=
  match cs with
  | [] => [LPredict (meye n) q None None]
  | LPredict F Q B u :: cs => LPredict (meye n) q None None :: LPredict F (mzeros n n) B u :: delay Q cs
  | LUpdate z R H :: cs => LUpdate z R H :: delay q cs
  end.
(** All the process noise matrices of a history are zero. *)
Fixpoint noiseless (cs : list (lin_call o n m l)) : Prop :=
  match cs with
  | [] => True
  | LPredict _ Q _ _ :: cs => Q = mzeros n n /\ noiseless cs
  | _ :: cs => noiseless cs
  end.

(** Histories of calls, each with its own configuration (fx, hx, Q, R may be reassigned between calls); the
    state after a history in which no call raised. *)
Fixpoint ck_run (cs : list (ck_cfg o n m * ck_call o m)) (s : ck_st o n m) : option (ck_st o n m) :=
  match cs with
  | [] => Some s
  | (cf, a) :: cs => match ck_step cf a s with (s, None) => ck_run cs s | (_, Some _) => None end
  end.
(** At most one measurement per prediction. *)
Fixpoint ck_one_per_predict (predicted : bool) (cs : list (ck_cfg o n m * ck_call o m)) : bool :=
  match cs with
  | [] => true
  | (_, KPredict _ _) :: cs => ck_one_per_predict true cs
  | (_, KUpdate None _) :: cs => ck_one_per_predict predicted cs
  | (_, KUpdate (Some _) _) :: cs => predicted && ck_one_per_predict false cs
  end.
End S.
