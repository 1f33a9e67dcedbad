(** * filterpy/kalman/EKF.py and filterpy/kalman/fading_memory.py *)
From Coq Require Import List Arith Bool ZArith.
From Verif Require Import Ops.
Import ListNotations.
Set Implicit Arguments.
Unset Strict Implicit.
Local Open Scope np_scope.

Section EKF.
Variable o : nops.
Variables n m l : nat.   (* dim_x, dim_z, dim_u *)

(** The attributes both classes' methods change (EKF.py 138-170, fading_memory.py
    160-191).  [e_z = None]: the vector of Nones; [e_K = None]: the initial K,
    which is 0 in FadingKalmanFilter and has the shape of x in EKF. *)
Record ek_st := mkES {
  e_x : M o n 1;
  e_P : M o n n;
  e_z : option (M o m 1);
  e_K : option (M o n m);
  e_y : M o m 1;
  e_S : M o m m;
  e_SI : M o m m;
  e_x_prior : M o n 1;
  e_P_prior : M o n n;
  e_x_post : M o n 1;
  e_P_post : M o n n;
  e_loglik : option (sc o);
  e_lik : option (sc o);
  e_mahal : option (sc o)
}.

Definition ek_init (fmin : sc o) : ek_st :=
  mkES (mzeros n 1) (meye n) None None (mzeros m 1) (mzeros m m) (mzeros m m)
    (mzeros n 1) (meye n) (mzeros n 1) (meye n) (Some (slog o fmin)) (Some fmin) None.

(** Attributes no method changes.  [ek_B = None] is [B = 0].  [ek_alpha_sq], [ek_H]
    are used by FadingKalmanFilter only.  [ek_inv] is numpy.linalg.inv. *)
Record ek_cfg := mkEC {
  ec_Q : M o n n;
  ec_B : option (M o n l);
  ec_F : M o n n;
  ec_R : M o m m;
  ec_inv : M o m m -> option (M o m m)
}.

(** [dot(F, x) + dot(B, u)] (EKF.py 219, 351; fading_memory.py 266). *)
Definition ek_move (c : ek_cfg) (u : option (M o l 1)) (x : M o n 1) : M o n 1 :=
  match ec_B c, u with
  | Some B, Some u => ec_F c @ x + B @ u
  | _, _ => ec_F c @ x + mzeros n 1
  end.

(** The [z is None] branch (EKF.py 297-301, fading_memory.py 209-213): the
    likelihood caches, y and S keep their values. *)
Definition ek_skip (s : ek_st) : ek_st :=
  mkES (e_x s) (e_P s) None (e_K s) (e_y s) (e_S s) (e_SI s) (e_x_prior s) (e_P_prior s)
    (e_x s) (e_P s) (e_loglik s) (e_lik s) (e_mahal s).

(** The common tail of the update: from P, H, R, the residual and z. *)
Definition ek_correct (x : M o n 1) (P : M o n n) (H : M o m n) (R S SI : M o m m) (y z : M o m 1) (s : ek_st) : ek_st :=
  let K := (P @ H^T) @ SI in
  let x' := x + K @ y in
  let I_KH := meye n - K @ H in
  let P' := (I_KH @ P) @ I_KH^T + (K @ R) @ K^T in
  mkES x' P' (Some z) (Some K) y S SI (e_x_prior s) (e_P_prior s) x' P' None None None.

(** ExtendedKalmanFilter.update (254-342).  [hjac], [hx]: the user's functions
    with their extra arguments applied; [residual] defaults to np.subtract. *)
Definition ek_update (z : option (M o m 1)) (hjac : M o n 1 -> M o m n) (hx : M o n 1 -> M o m 1)
    (R : option (sm o m)) (residual : M o m 1 -> M o m 1 -> M o m 1) (c : ek_cfg) (s : ek_st)
    : ek_st * option exn :=
  match z with
  | None => (ek_skip s, None)
  | Some z =>
      let R := sm_or (ec_R c) R in
      let H := hjac (e_x s) in
      let S := H @ (e_P s @ H^T) + R in
      match ec_inv c S with
      | None => (mkES (e_x s) (e_P s) (e_z s) (e_K s) (e_y s) S (e_SI s) (e_x_prior s) (e_P_prior s)
                   (e_x_post s) (e_P_post s) (e_loglik s) (e_lik s) (e_mahal s), Some LinAlgError)
      | Some SI => (ek_correct (e_x s) (e_P s) H R S SI (residual z (hx (e_x s))) z s, None)
      end
  end.

(** ExtendedKalmanFilter.predict, predict_x (344-371). *)
Definition ek_predict (u : option (M o l 1)) (c : ek_cfg) (s : ek_st) : ek_st :=
  let x := ek_move c u (e_x s) in
  let P := (ec_F c @ e_P s) @ (ec_F c)^T + ec_Q c in
  mkES x P (e_z s) (e_K s) (e_y s) (e_S s) (e_SI s) x P (e_x_post s) (e_P_post s)
    (e_loglik s) (e_lik s) (e_mahal s).

(** ExtendedKalmanFilter.predict_update (172-252).  The Jacobian is taken at the state
    before the prediction (216); x_prior, P_prior are copies of self.x, self.P, which
    at that point (223-224) are still the values from before the prediction.
    [z = None] reaches [None - ...] at line 232: TypeError. *)
Definition ek_predict_update (z : option (M o m 1)) (hjac : M o n 1 -> M o m n) (hx : M o n 1 -> M o m 1)
    (u : option (M o l 1)) (c : ek_cfg) (s : ek_st) : ek_st * option exn :=
  let H := hjac (e_x s) in
  let x := ek_move c u (e_x s) in
  let P := (ec_F c @ e_P s) @ (ec_F c)^T + ec_Q c in
  let R := ec_R c in
  let S := H @ (P @ H^T) + R in
  let s1 := mkES (e_x s) (e_P s) (e_z s) (e_K s) (e_y s) S (e_SI s) (e_x s) (e_P s)
              (e_x_post s) (e_P_post s) (e_loglik s) (e_lik s) (e_mahal s) in
  match ec_inv c S with
  | None => (s1, Some LinAlgError)
  | Some SI =>
      match z with
      | None => (mkES (e_x s) (e_P s) (e_z s) (Some ((P @ H^T) @ SI)) (e_y s) S SI (e_x s) (e_P s)
                   (e_x_post s) (e_P_post s) (e_loglik s) (e_lik s) (e_mahal s), Some TypeError)
      | Some z => (ek_correct x P H R S SI (z - hx x) z s1, None)
      end
  end.

(** Cached properties, the same text in both classes (EKF.py 373-411,
    fading_memory.py 376-417). *)
Section Likelihood.
Variable lpdf : M o m 1 -> M o m m -> sc o.
Variable fmin : sc o.
Definition ek_log_likelihood (s : ek_st) : sc o * ek_st :=
  match e_loglik s with
  | Some v => (v, s)
  | None => let v := lpdf (e_y s) (e_S s) in
      (v, mkES (e_x s) (e_P s) (e_z s) (e_K s) (e_y s) (e_S s) (e_SI s) (e_x_prior s) (e_P_prior s)
            (e_x_post s) (e_P_post s) (Some v) (e_lik s) (e_mahal s))
  end.
Definition ek_likelihood (s : ek_st) : sc o * ek_st :=
  match e_lik s with
  | Some v => (v, s)
  | None =>
      let (ll, s) := ek_log_likelihood s in
      let v := if seqb o (sexp o ll) (s0 o) then fmin else sexp o ll in
      (v, mkES (e_x s) (e_P s) (e_z s) (e_K s) (e_y s) (e_S s) (e_SI s) (e_x_prior s) (e_P_prior s)
            (e_x_post s) (e_P_post s) (e_loglik s) (Some v) (e_mahal s))
  end.
Definition ek_mahalanobis (s : ek_st) : sc o * ek_st :=
  match e_mahal s with
  | Some v => (v, s)
  | None => let v := ssqrt o (mget (((e_y s)^T @ e_SI s) @ e_y s) 0 0) in
      (v, mkES (e_x s) (e_P s) (e_z s) (e_K s) (e_y s) (e_S s) (e_SI s) (e_x_prior s) (e_P_prior s)
            (e_x_post s) (e_P_post s) (e_loglik s) (e_lik s) (Some v))
  end.
End Likelihood.

(** FadingKalmanFilter.update (193-251), with [self.H] and [self.alpha_sq] as arguments. *)
Definition fk_update (z : option (M o m 1)) (R : option (sm o m)) (H : M o m n) (c : ek_cfg) (s : ek_st)
    : ek_st * option exn :=
  match z with
  | None => (ek_skip s, None)
  | Some z =>
      let R := sm_or (ec_R c) R in
      let y := z - H @ e_x s in
      let S := H @ (e_P s @ H^T) + R in
      match ec_inv c S with
      | None => (mkES (e_x s) (e_P s) (e_z s) (e_K s) y S (e_SI s) (e_x_prior s) (e_P_prior s)
                   (e_x_post s) (e_P_post s) (e_loglik s) (e_lik s) (e_mahal s), Some LinAlgError)
      | Some SI => (ek_correct (e_x s) (e_P s) H R S SI y z s, None)
      end
  end.

(** FadingKalmanFilter.predict (253-273) and get_prediction (337-356). *)
Definition fk_get_prediction (u : option (M o l 1)) (alpha_sq : sc o) (c : ek_cfg) (s : ek_st) : M o n 1 * M o n n :=
  (ek_move c u (e_x s), mscale alpha_sq ((ec_F c @ e_P s) @ (ec_F c)^T) + ec_Q c).
Definition fk_predict (u : option (M o l 1)) (alpha_sq : sc o) (c : ek_cfg) (s : ek_st) : ek_st :=
  let x := ek_move c u (e_x s) in
  let P := mscale alpha_sq ((ec_F c @ e_P s) @ (ec_F c)^T) + ec_Q c in
  mkES x P (e_z s) (e_K s) (e_y s) (e_S s) (e_SI s) x P (e_x_post s) (e_P_post s)
    (e_loglik s) (e_lik s) (e_mahal s).

(** FadingKalmanFilter.residual_of (375-379), measurement_of_state (382-396). *)
Definition fk_residual_of (z : M o m 1) (H : M o m n) (s : ek_st) : M o m 1 := z - H @ e_x s.
Definition fk_measurement_of_state (x : M o n 1) (H : M o m n) : M o m 1 := H @ x.

(** Histories of EKF calls (the configuration may change between calls). *)
Inductive ek_call :=
| EPredict (u : option (M o l 1))
| EUpdate (z : option (M o m 1)) (hjac : M o n 1 -> M o m n) (hx : M o n 1 -> M o m 1)
    (R : option (sm o m)) (residual : M o m 1 -> M o m 1 -> M o m 1)
| EPredictUpdate (z : option (M o m 1)) (hjac : M o n 1 -> M o m n) (hx : M o n 1 -> M o m 1) (u : option (M o l 1)).
Definition ek_step (cc : ek_cfg * ek_call) (s : ek_st) : ek_st * option exn :=
  match snd cc with
  | EPredict u => (ek_predict u (fst cc) s, None)
  | EUpdate z hjac hx R residual => ek_update z hjac hx R residual (fst cc) s
  | EPredictUpdate z hjac hx u => ek_predict_update z hjac hx u (fst cc) s
  end.
Definition ek_run (cs : list (ek_cfg * ek_call)) (s : ek_st) : ek_st :=
  fold_left (fun s c => fst (ek_step c s)) cs s.

(** Histories of FadingKalmanFilter calls. *)
Inductive fk_call :=
| FPredict (u : option (M o l 1)) (alpha_sq : sc o)
| FUpdate (z : option (M o m 1)) (R : option (sm o m)) (H : M o m n).
Definition fk_step (cc : ek_cfg * fk_call) (s : ek_st) : ek_st * option exn :=
  match snd cc with
  | FPredict u a => (fk_predict u a (fst cc) s, None)
  | FUpdate z R H => fk_update z R H (fst cc) s
  end.
Definition fk_run (cs : list (ek_cfg * fk_call)) (s : ek_st) : ek_st :=
  fold_left (fun s c => fst (fk_step c s)) cs s.

(** FadingKalmanFilter.batch_filter (275-334), one output row per epoch: x, P after
    the update and after the prediction. *)
Fixpoint fk_batch (alpha_sq : sc o) (H : M o m n) (update_first : bool) (c : ek_cfg)
    (zs : list (option (M o m 1) * option (sm o m))) (s : ek_st)
    : ek_st * res (list ((M o n 1 * M o n n) * (M o n 1 * M o n n))) :=
  match zs with
  | [] => (s, Ok [])
  | (z, R) :: zs =>
      let s1 := if update_first then s else fk_predict None alpha_sq c s in
      match fk_update z R H c s1 with
      | (s2, Some e) => (s2, Err e)
      | (s2, None) =>
          let s3 := if update_first then fk_predict None alpha_sq c s2 else s2 in
          let row := ((e_x s2, e_P s2), if update_first then (e_x s3, e_P s3) else (e_x s1, e_P s1)) in
          match fk_batch alpha_sq H update_first c zs s3 with
          | (s4, Ok rows) => (s4, Ok (row :: rows))
          | (s4, Err e) => (s4, Err e)
          end
      end
  end.
End EKF.

(** FadingKalmanFilter.__init__ checks (153-156): asserts. *)
Definition fk_check (o : sops) (alpha : sc o) (dim_x dim_z dim_u : Z) : option exn :=
  if negb (sleb o (s1 o) alpha) then Some AssertionError
  else if negb (0 <? dim_x)%Z then Some AssertionError
  else if negb (0 <? dim_z)%Z then Some AssertionError
  else if negb (0 <=? dim_u)%Z then Some AssertionError
  else None.

Arguments EPredict {o n m l} u.
Arguments EUpdate {o n m l} z hjac hx R residual.
Arguments EPredictUpdate {o n m l} z hjac hx u.
Arguments FPredict {o n m l} u alpha_sq.
Arguments FUpdate {o n m l} z R H.
